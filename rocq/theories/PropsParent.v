(** C120: which contour a hole is listed with. *)

From Coq Require Import List ZArith QArith Lqa.
From Verif Require Import Base Contours Sweep Compute StdRef SpecShape SpecOrder SpecCompute SpecTidy SpecOverlay SpecParent ShapeSamples TidySamples OverlaySamples
  ParentFacts.
Import ListNotations.
Local Open Scope Z_scope.

(** C120. The holes listed with a contour are exactly those clockwise contours that have it
    straight below: looking down from the side with which the hole comes back to its first
    corner, close to that corner, one first sees a side of the contour. *)
Theorem C120_parent : forall std fuel polys op zs, std_laws std -> sorts std -> overlayable polys zs -> (2 * length (edges zs) <= fuel)%nat ->
  forall r rz, compute std fuel polys op = Ok r -> has_corners r rz -> forall i c l h ch lh,
  nth_error r i = Some c -> nth_error rz i = Some l -> nth_error r h = Some ch -> nth_error rz h = Some lh ->
  In h (c_holes c) <-> c_external ch = false /\ lies_above zs lh l.
Proof. exact overlay_parents. Qed.
Print Assumptions C120_parent.

(** A square with holes: the last of them is above another and listed with that one, not with
    the square. *)
Example C120_hypotheses : overlayable islands islands_z /\ (2 * length (edges islands_z) = 48)%nat
  /\ compute std_ref 56 islands Union = Ok (sample_contours islands 56) /\ has_corners (sample_contours islands 56) islands_lines
  /\ map c_holes (sample_contours islands 56) = [[1]; [3]; []; []; []]%nat.
Proof.
  split; [exact islands_compact|]. split; [reflexivity|]. split; [exact (proj1 islands_result)|]. split; [exact (proj2 islands_result)|vm_compute; reflexivity].
Qed.
(** The side from (8, 16) back to (6, 18) has the side from (4, 8) to (8, 12) below it. *)
Example C120_sight : lies_above islands_z (nth 3 islands_lines []) (nth 1 islands_lines []).
Proof.
  split; [reflexivity|]. exists (4, 8), (8, 12). split; [now left|]. split; [reflexivity|]. exists 8%Q. split; [reflexivity|].
  intros x X1 X2. exists (24 - x)%Q, (x + 4)%Q. cbn in X1. unfold inject_Z in X1.
  split; [exists ((x - 6) * (1 # 2))%Q; cbn; unfold inject_Z; repeat split; lra|]. split; [exists ((x - 4) * (1 # 4))%Q; cbn; unfold inject_Z; repeat split; lra|].
  split; [lra|]. intros e y He (t & T1 & T2 & T3 & T4) (Y1 & Y2). vm_compute in He.
  repeat (destruct He as [<-|He]; [cbn in T3, T4; unfold inject_Z in T3, T4; lra|]). contradiction.
Qed.
