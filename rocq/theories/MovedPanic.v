(** Rectangles that cannot be overlaid where they are, but can be elsewhere. *)

From Coq Require Import List ZArith Bool Arith Lia.
From Verif Require Import Base BaseFacts Float Geometry Sweep Contours Compute StdRef StdFacts SpecShape SpecOrder SpecCompute SpecTidy SpecOverlay ShapeSamples ShapeFacts FuelFacts ComputeFacts SortFacts
  OverlaySamples CrossSamples RectangleFacts SpecCross SpecMove.
Import ListNotations.
Local Open Scope Z_scope.

Definition three_rects : list corners :=
  [[[(0, 31); (2, 31); (2, 32); (0, 32)]]; [[(0, 0); (1, 0); (1, 39); (0, 39)]]; [[(1, 31); (2, 31); (2, 32); (1, 32)]]].
Definition three_input : input := shapes three_rects [Normal; Normal; Normal].
Definition raised_input : input := shapes (moved (0, 2) three_rects) [Normal; Normal; Normal].

Lemma moving_matters : exists zs d polys polys' n, Forall2 (fun p z => has_points (fst p) z) polys zs /\ Forall2 (fun p z => has_points (fst p) z) polys' (moved d zs)
  /\ map snd polys = [Normal; Normal; Normal] /\ map snd polys' = [Normal; Normal; Normal]
  /\ (forall p c, In p polys \/ In p polys' -> In c (fst p) -> int_rectangle c)
  /\ forall std fuel op, std_laws std -> sorts std -> (n <= fuel)%nat -> compute std fuel polys op = Panic PAssert /\ exists r, compute std fuel polys' op = Ok r.
Proof.
  exists three_rects, (0, 2), three_input, raised_input, 100%nat.
  destruct (shapes_points three_rects [Normal; Normal; Normal] eq_refl) as [A B]. destruct (shapes_points (moved (0, 2) three_rects) [Normal; Normal; Normal] eq_refl) as [A' B'].
  split; [exact A|]. split; [exact A'|]. split; [exact B|]. split; [exact B'|]. split.
  { intros p c [I|I] J; cbn in I; destruct I as [<-|[<-|[<-|[]]]]; cbn in J; destruct J as [<-|[]];
      [apply (rct_rectangle 0 31 2 1)|apply (rct_rectangle 0 0 1 39)|apply (rct_rectangle 1 31 1 1)|apply (rct_rectangle 0 33 2 1)|apply (rct_rectangle 0 2 1 39)|apply (rct_rectangle 1 33 1 1)]; reflexivity. }
  intros std fuel op HL HS L. split.
  - apply (compute_more std 100 fuel); [|discriminate|exact L].
    rewrite (compute_ref std) by first [assumption|vm_compute; reflexivity]. rewrite (operation_ignored std_ref _ _ op Union). vm_compute. reflexivity.
  - destruct (compute std_ref 100 raised_input Union) as [r|e|p] eqn:E; [|vm_compute in E; discriminate..]. exists r. apply (compute_more std 100 fuel); [|discriminate|exact L].
    rewrite (compute_ref std) by first [assumption|vm_compute; reflexivity]. rewrite (operation_ignored std_ref _ _ op Union). exact E.
Qed.
