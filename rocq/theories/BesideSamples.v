(** Samples of polygons beside each other. *)

From Coq Require Import List ZArith QArith Bool Lia.
From Verif Require Import Base Float Geometry Sweep Contours Compute StdRef SpecShape SpecOrder SpecIntersect SpecHandle SpecCompute SpecTidy TidySamples SpecOverlay OverlaySamples FollowSamples CrossSamples MeshSamples MoveSamples SpecCross SpecGrid SpecSlope SpecMesh SpecMove SpecBeside.
Import ListNotations.
Local Open Scope Z_scope.

(** The islands of C117, and the same islands moved by 1003 across and 517 down. *)
Definition both_islands_z : list corners := islands_z ++ moved (1003, -517) islands_z.
Definition both_islands : input := islands ++ far_islands.
Lemma both_islands_overlayable : overlayable both_islands both_islands_z.
Proof.
  split; [apply Forall2_app; [exact (proj1 islands_compact)|exact (proj1 far_islands_overlayable)]|]. split; [apply tidyb_ok; vm_compute; reflexivity|]. split; [apply (compactb_ok 1100); reflexivity|].
  apply plain_covered. cbn. intuition discriminate.
Qed.
Lemma islands_beside : beside islands_z (moved (1003, -517) islands_z).
Proof.
  assert (X : forallb (fun e => forallb (fun f => fst (e_right e) <? fst (e_left f)) (edges (moved (1003, -517) islands_z))) (edges islands_z) = true) by (vm_compute; reflexivity).
  intros e f He Hf. rewrite forallb_forall in X. specialize (X e He). rewrite forallb_forall in X. apply Z.ltb_lt. now apply X.
Qed.
Lemma both_islands_result : compute std_ref 112 both_islands Union = Ok (sample_contours both_islands 112) /\ has_corners (sample_contours both_islands 112) (islands_lines ++ moved_lines (1003, -517) islands_lines).
Proof. split; [vm_compute; reflexivity|]. apply z_points_at; [vm_compute; reflexivity|reflexivity]. Qed.

(** The diamonds of C137, and the same diamonds moved by 700 steps of their grid across and 500 down. *)
Definition both_diamonds_z : list corners := diamonds ++ moved far diamonds.
Definition both_diamonds : input := diamonds_input ++ far_diamonds.
Lemma both_diamonds_mesh : mesh 6 790 2 both_diamonds_z.
Proof. apply (meshb_ok 6 790 2 (map (fun v => (64 * fst v, 64 * snd v)) [(2, -2); (2, 2); (702, -502); (702, -498)])). vm_compute. reflexivity. Qed.
Lemma both_diamonds_points : Forall2 (fun p z => has_points (fst p) z) both_diamonds both_diamonds_z.
Proof. apply Forall2_app; [exact (proj1 diamonds_points)|exact (proj1 far_diamonds_points)]. Qed.
Lemma diamonds_beside : beside diamonds (moved far diamonds).
Proof.
  assert (X : forallb (fun e => forallb (fun f => fst (e_right e) <? fst (e_left f)) (edges (moved far diamonds))) (edges diamonds) = true) by (vm_compute; reflexivity).
  intros e f He Hf. rewrite forallb_forall in X. specialize (X e He). rewrite forallb_forall in X. apply Z.ltb_lt. now apply X.
Qed.
Lemma both_diamonds_result : compute std_ref 1386 both_diamonds Union = Ok (sample_contours both_diamonds 1386) /\ has_corners (sample_contours both_diamonds 1386) (diamond_lines ++ moved_lines far diamond_lines).
Proof. split; [vm_compute; reflexivity|]. apply z_points_at; [vm_compute; reflexivity|reflexivity]. Qed.
