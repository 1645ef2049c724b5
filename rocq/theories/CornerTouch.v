(** A corner that touches a side: what happens where it is not a corner of both. *)

From Coq Require Import List ZArith Bool Arith Lia.
From Verif Require Import Base BaseFacts Float Geometry Sweep Contours Compute StdRef StdFacts SpecFloat64 SpecShape SpecCompute ShapeSamples ShapeFacts FuelFacts ComputeFacts SortFacts
  OverlaySamples CrossSamples TidySamples SpecOrder SpecTidy SpecOverlay SpecCross.
Import ListNotations.
Local Open Scope Z_scope.

(** A square, and a triangle above it whose leftmost corner is on the top side of the square. *)
Definition touch_marks : list (list (list mark)) :=
  [[[((0, 0), []); ((10, 0), []); ((10, 10), [(5, 10)]); ((0, 10), [])]]; [[((5, 10), []); ((9, 12), []); ((9, 14), [])]]].
Definition touch_modes : list polygon_mode := [Normal; Normal].

Lemma touch_panic : exists ms polys polys' n,
  tidy (marked ms) /\ (forall r, In r (routes ms) -> straight (snd r))
  /\ (forall j k r r' e f, nth_error (routes ms) j = Some r -> nth_error (routes ms) k = Some r' -> j <> k -> stretch r e -> stretch r' f -> fit e f)
  /\ Forall2 (fun p z => has_points (fst p) z) polys (plain ms) /\ Forall2 (fun p z => has_points (fst p) z) polys' (marked ms) /\ map snd polys = map snd polys'
  /\ forall std fuel op, std_laws std -> sorts std -> (n <= fuel)%nat ->
       compute std fuel polys op = Panic PAssert /\ exists r, compute std fuel polys' op = Ok r.
Proof.
  exists touch_marks, (shapes (plain touch_marks) touch_modes), (shapes (marked touch_marks) touch_modes), 100%nat.
  split; [apply tidyb_ok; vm_compute; reflexivity|].
  assert (S : forallb (fun r => straightb (snd r)) (routes touch_marks) = true) by (vm_compute; reflexivity). rewrite forallb_forall in S.
  split; [intros r Hr; apply straightb_ok; now apply S|].
  assert (F : othersb (fun r r' => forallb (fun e => forallb (fitb [(5, 10)] e) (stretches (fst r') (snd r'))) (stretches (fst r) (snd r))) [] (routes touch_marks) = true) by (vm_compute; reflexivity).
  split.
  { intros j k r r' e f Hr Hr' N He Hf. pose proof (othersb_ok _ _ _ F j k r r' Hr Hr' N) as X. cbv beta in X. rewrite forallb_forall in X. specialize (X e (stretches_ok _ _ He)). rewrite forallb_forall in X.
    eapply fitb_ok, X. now apply stretches_ok. }
  split; [apply shapes_points; reflexivity|]. split; [apply shapes_points; reflexivity|]. split; [vm_compute; reflexivity|].
  intros std fuel op HL HS L. split.
  - apply (compute_more std 100 fuel); [|discriminate|exact L]. rewrite (compute_ref std) by first [assumption|vm_compute; reflexivity]. rewrite (operation_ignored std_ref _ _ op Union). vm_compute. reflexivity.
  - destruct (compute std_ref 100 (shapes (marked touch_marks) touch_modes) Union) as [r|e|p] eqn:E; try (vm_compute in E; discriminate E). exists r.
    apply (compute_more std 100 fuel); [|discriminate|exact L]. rewrite (compute_ref std) by first [assumption|vm_compute; reflexivity]. rewrite (operation_ignored std_ref _ _ op Union). exact E.
Qed.
