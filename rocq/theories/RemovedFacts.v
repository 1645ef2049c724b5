(** A polygon whose edges are removed, below a hole. *)

From Coq Require Import List ZArith Bool Lia.
From Verif Require Import Base BaseFacts Float Geometry Sweep Contours Compute StdRef SpecShape SpecOrder SpecIntersect SpecTurn SpecCompute SpecTidy SpecOverlay
  SpecHandle FuelFacts ComputeFacts SortFacts ShapeSamples TidySamples OverlaySamples TidyFacts OverlayFacts.
Import ListNotations.
Local Open Scope Z_scope.

(** A square out of which another is cut, and a bar below that. *)
Definition yard : input := [([rct 0 0 100 100], Normal); ([rct 40 40 20 20], RemoveInterior)].
Definition bar : polygon := [rct 30 10 40 10].
Definition yard_z : list corners := [[rect_z 0 0 100 100]; [rect_z 40 40 20 20]; [rect_z 30 10 40 10]].

Lemma yard_tidy : tidy yard_z.
Proof. apply tidyb_ok. vm_compute. reflexivity. Qed.
Lemma yard_corners : forall m, Forall2 (fun p z => has_corners (fst p) z) (yard ++ [(bar, m)]) yard_z.
Proof. intros m. repeat constructor; apply pt_at; reflexivity. Qed.
Lemma yard_compact : compact yard_z.
Proof. apply (compactb_ok 100). reflexivity. Qed.

Lemma bar_panics : exists a q zs n,
  (forall m, Forall2 (fun p z => has_corners (fst p) z) (a ++ [(q, m)]) zs) /\ tidy zs /\ compact zs /\ ~ In RemoveEdges (map snd a)
  /\ forall std fuel op, std_laws std -> sorts std -> (n <= fuel)%nat ->
       (exists r, compute std fuel (a ++ [(q, Normal)]) op = Ok r) /\ compute std fuel (a ++ [(q, RemoveEdges)]) op = Panic PUnwrap.
Proof.
  exists yard, bar, yard_z, 24%nat. split; [exact yard_corners|]. split; [exact yard_tidy|]. split; [exact yard_compact|].
  split; [cbn; intuition discriminate|]. intros std fuel op SL SO L. split.
  - destruct (overlay_ends std fuel (yard ++ [(bar, Normal)]) op yard_z SL SO) as (r & rz & R & _); [|exact L|eauto].
    split; [apply yard_corners|]. split; [exact yard_tidy|]. split; [exact yard_compact|]. apply plain_covered. cbn. intuition discriminate.
  - apply (compute_more std 24 fuel); [|discriminate|exact L].
    rewrite (compute_ref std) by first [assumption|vm_compute; reflexivity].
    rewrite (operation_ignored std_ref _ _ op Union). vm_compute. reflexivity.
Qed.
