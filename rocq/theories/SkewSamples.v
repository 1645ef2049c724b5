(** Samples of polygons stretched, skewed and moved. *)

From Coq Require Import List ZArith QArith Bool Lia.
From Verif Require Import Base Float Geometry Sweep Contours Compute StdRef SpecShape SpecOrder SpecIntersect SpecHandle SpecCompute SpecTidy TidySamples SpecOverlay OverlaySamples FollowSamples CrossSamples MeshSamples SpecCross SpecGrid SpecSlope SpecMesh SpecSkew.
Import ListNotations.
Local Open Scope Z_scope.

(** The islands of C117, twice as wide, three times as high, one unit higher for each across, and
    moved. *)
Definition slant : skew := mk_skew 2 3 1 (5, -70).
Definition slant_islands_z : list corners := skewed slant islands_z.
Definition slant_islands : input := map (fun z => (map (set_points contour_new) (z_points z), Normal)) slant_islands_z.
Lemma slant_islands_overlayable : overlayable slant_islands slant_islands_z.
Proof.
  split; [repeat constructor; apply pt_at; reflexivity|]. split; [apply tidyb_ok; vm_compute; reflexivity|]. split; [apply (compactb_ok 1100); reflexivity|].
  apply plain_covered. cbn. intros [H|[H|[]]]; discriminate.
Qed.
Lemma slant_islands_result : compute std_ref 56 slant_islands Union = Ok (sample_contours slant_islands 56) /\ has_corners (sample_contours slant_islands 56) (skewed_lines slant islands_lines).
Proof. split; [vm_compute; reflexivity|]. apply z_points_at; [vm_compute; reflexivity|reflexivity]. Qed.

(** The diamonds of C137, twice as large, lifted by as much as they are across, and moved. *)
Definition lean : skew := mk_skew (2 ^ 1) (2 ^ 1) (2 ^ 1 * 1) (384, -640).
Definition lean_diamonds : input := shapes (skewed lean diamonds) diamond_modes.
Lemma lean_diamonds_mesh : mesh (6 + 1) 490 5 (skewed lean diamonds).
Proof. apply (meshb_ok 7 490 5 (map (fun v => (128 * fst v, 128 * snd v)) [(5, -5); (5, -1)])). vm_compute. reflexivity. Qed.
Lemma lean_diamonds_points : Forall2 (fun p z => has_points (fst p) z) lean_diamonds (skewed lean diamonds) /\ map snd lean_diamonds = diamond_modes.
Proof. apply shapes_points. reflexivity. Qed.
Lemma lean_diamonds_result : compute std_ref 693 lean_diamonds Union = Ok (sample_contours lean_diamonds 693) /\ has_corners (sample_contours lean_diamonds 693) (skewed_lines lean diamond_lines).
Proof. split; [vm_compute; reflexivity|]. apply z_points_at; [vm_compute; reflexivity|reflexivity]. Qed.
