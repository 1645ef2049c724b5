(** Samples of polygons given more than once. *)

From Coq Require Import List ZArith QArith Bool Arith Lia.
From Verif Require Import Base Float Geometry Sweep Contours Compute StdRef SpecShape SpecOrder SpecIntersect SpecHandle SpecCompute SpecTidy TidySamples SpecOverlay OverlaySamples FollowSamples CrossSamples SpecCopies.
Import ListNotations.
Local Open Scope Z_scope.

(** The islands of C117, the first three times, the second twice, two with their edges removed. *)
Definition islet (i : nat) : nat := nth i [1; 0; 0; 1; 0]%nat 0%nat.
Definition crowd_z : list corners := map (fun i => nth (islet i) islands_z []) (seq 0 5).
Definition crowd : input := combine (map (fun z => map (set_points contour_new) (z_points z)) crowd_z) [RemoveEdges; Normal; RemoveEdges; Normal; Normal].
Lemma crowd_overlayable : overlayable crowd crowd_z.
Proof.
  split; [repeat constructor; apply pt_at; reflexivity|]. split; [apply tidyb_ok; vm_compute; reflexivity|]. split; [apply (compactb_ok 1100); reflexivity|].
  apply coveredb_ok. vm_compute. reflexivity.
Qed.
Lemma crowd_copies : copies islet islands_z crowd_z.
Proof.
  split.
  - intros i Hi. change (length crowd_z) with 5%nat in Hi. do 5 (destruct i as [|i]; [split; [apply Nat.ltb_lt; reflexivity|reflexivity]|]). lia.
  - intros k Hk. change (length islands_z) with 2%nat in Hk. destruct k as [|[|k]]; [exists 1%nat|exists 0%nat|lia]; (split; [apply Nat.ltb_lt; reflexivity|reflexivity]).
Qed.
Lemma crowd_modes : forall i, (i < length crowd)%nat -> nth_error (map snd crowd) i = Some RemoveInterior <-> nth_error (map snd islands) (islet i) = Some RemoveInterior.
Proof. intros i Hi. change (length crowd) with 5%nat in Hi. do 5 (destruct i as [|i]; [split; discriminate|]). lia. Qed.
Lemma crowd_result : compute std_ref 200 crowd Union = Ok (sample_contours crowd 200) /\ has_corners (sample_contours crowd 200) islands_lines.
Proof. split; [vm_compute; reflexivity|]. apply z_points_at; [vm_compute; reflexivity|reflexivity]. Qed.
