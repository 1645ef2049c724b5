(** Samples of polygons moved elsewhere. *)

From Coq Require Import List ZArith QArith Bool Lia.
From Verif Require Import Base Float Geometry Sweep Contours Compute StdRef SpecShape SpecOrder SpecIntersect SpecHandle SpecCompute SpecTidy TidySamples SpecOverlay OverlaySamples FollowSamples CrossSamples SlopeSamples
  SpecCross SpecGrid SpecSlope MeshSamples SpecMesh SpecMove.
Import ListNotations.
Local Open Scope Z_scope.

(** The islands of C117, moved. *)
Definition far_islands_z : list corners := moved (1003, -517) islands_z.
Definition far_islands : input := map (fun z => (map (set_points contour_new) (z_points z), Normal)) far_islands_z.
Lemma far_islands_overlayable : overlayable far_islands far_islands_z.
Proof.
  split; [repeat constructor; apply pt_at; reflexivity|]. split; [apply tidyb_ok; vm_compute; reflexivity|]. split; [apply (compactb_ok 1100); reflexivity|].
  apply plain_covered. cbn. intros [H|[H|[]]]; discriminate.
Qed.
Lemma far_islands_result : compute std_ref 56 far_islands Union = Ok (sample_contours far_islands 56) /\ has_corners (sample_contours far_islands 56) (moved_lines (1003, -517) islands_lines).
Proof. split; [vm_compute; reflexivity|]. apply z_points_at; [vm_compute; reflexivity|reflexivity]. Qed.

(** The diamonds of C137, moved by 700 steps of the grid across and 500 down. *)
Definition far : Z * Z := (2 ^ 6 * 700, 2 ^ 6 * -500).
Definition far_diamonds : input := shapes (moved far diamonds) diamond_modes.
Lemma far_diamonds_points : Forall2 (fun p z => has_points (fst p) z) far_diamonds (moved far diamonds) /\ map snd far_diamonds = diamond_modes.
Proof. apply shapes_points. reflexivity. Qed.
Lemma far_diamonds_grid : forall e, In e (edges (moved far diamonds)) -> slope_point 6 790 (e_left e) /\ slope_point 6 790 (e_right e).
Proof.
  assert (H : forallb (fun e => slope_pointb 6 790 (e_left e) && slope_pointb 6 790 (e_right e)) (edges (moved far diamonds)) = true) by (vm_compute; reflexivity).
  rewrite forallb_forall in H. intros e I. apply H, andb_true_iff in I. destruct I. split; apply slope_pointb_ok; try lia; assumption.
Qed.
Lemma far_diamonds_result : has_corners (sample_contours far_diamonds 693) (moved_lines far diamond_lines).
Proof. apply z_points_at; [vm_compute; reflexivity|reflexivity]. Qed.
