(** Samples of polygons put together. *)

From Coq Require Import List ZArith QArith Bool Arith Lia Lqa.
From Verif Require Import Base Float Geometry Sweep Contours Compute StdRef SpecShape SpecOrder SpecIntersect SpecHandle SpecCompute SpecTidy TidyGeo TidyParity TidySamples SpecOverlay OverlaySamples SpecFollow FollowFacts FollowSamples CrossSamples MoveSamples BesideGeo BesideSamples SpecMove SpecJoin.
Import ListNotations.
Local Open Scope Z_scope.

(** Polygons beside each other do not overlap. *)
Lemma inner_within : forall zs i x y, inner_below zs i x y -> exists e, In e (edges zs) /\ e_poly e = i /\ (inject_Z (fst (e_left e)) <= x)%Q /\ (x < inject_Z (fst (e_right e)))%Q.
Proof.
  intros zs i x y H. unfold inner_below, crossings in H. destruct (filter _ (edges zs)) as [|e l] eqn:E; [discriminate|].
  assert (I : In e (e :: l)) by now left. rewrite <- E in I. apply filter_In in I. destruct I as (I & P). apply andb_true_iff in P. destruct P as (P1 & P2). apply Nat.eqb_eq in P1. exists e. split; [exact I|]. split; [exact P1|]. split.
  - apply Qnot_lt_le. intros L. rewrite (left_of_edge e x y L) in P2. discriminate.
  - apply Qnot_le_lt. intros L. rewrite (right_of_edge e x y L) in P2. discriminate.
Qed.
Lemma above_within : forall zs e i x y, In e (edges zs) -> inside_edge e x y -> inner_above zs e i x y -> exists f, In f (edges zs) /\ e_poly f = i /\ (inject_Z (fst (e_left f)) <= x)%Q /\ (x <= inject_Z (fst (e_right f)))%Q.
Proof.
  intros zs e i x y He Ins [((f & F & P & L & R) & _)|(_ & B)].
  - exists f. split; [exact F|]. split; [exact P|]. rewrite L, R. apply (inside_between e x y); [now apply edges_lr in He|exact Ins].
  - apply inner_within in B. destruct B as (f & F & P & L & R). exists f. repeat split; auto. lra.
Qed.
Lemma beside_apart : forall zs i j, (forall e f, In e (edges zs) -> In f (edges zs) -> e_poly e = i -> e_poly f = j -> fst (e_right e) < fst (e_left f)) -> apart_inside zs i j.
Proof.
  intros zs i j H. split.
  - intros x y (A & B). apply inner_within in A, B. destruct A as (e & E1 & E2 & E3 & E4), B as (f & F1 & F2 & F3 & F4). specialize (H e f E1 F1 E2 F2). rewrite Zlt_Qlt in H. lra.
  - intros g x y Hg Ins (A & B). apply (above_within zs g) in A, B; auto. destruct A as (e & E1 & E2 & E3 & E4), B as (f & F1 & F2 & F3 & F4). specialize (H e f E1 F1 E2 F2). rewrite Zlt_Qlt in H. lra.
Qed.
Lemma apart_swap : forall zs i j, apart_inside zs i j -> apart_inside zs j i.
Proof. intros zs i j (A & B). split; [intros x y (X & Y); now apply (A x y)|intros e x y He Ins (X & Y); now apply (B e x y He Ins)]. Qed.

(** The islands of C117 and the same moved, the first of each put together. *)
Definition into_pair (i : nat) : nat := nth i [0; 1; 0; 2]%nat 3%nat.
Definition pair_z : list corners := [nth 0 both_islands_z [] ++ nth 2 both_islands_z []; nth 1 both_islands_z []; nth 3 both_islands_z []].
Definition pair_input : input := map (fun z => (map (set_points contour_new) (z_points z), Normal)) pair_z.
Lemma pair_overlayable : overlayable pair_input pair_z.
Proof.
  split; [repeat constructor; apply pt_at; reflexivity|]. split; [apply tidyb_ok; vm_compute; reflexivity|]. split; [apply (compactb_ok 1100); reflexivity|].
  apply plain_covered. cbn. intuition discriminate.
Qed.
Lemma pair_joined : joined into_pair both_islands_z pair_z.
Proof.
  assert (X : apart_inside both_islands_z 0 2).
  { apply beside_apart. intros e f He Hf E F. assert (X : forallb (fun e => forallb (fun f => negb (e_poly e =? 0)%nat || negb (e_poly f =? 2)%nat || (fst (e_right e) <? fst (e_left f))) (edges both_islands_z)) (edges both_islands_z) = true) by (vm_compute; reflexivity).
    rewrite forallb_forall in X. specialize (X e He). rewrite forallb_forall in X. specialize (X f Hf). rewrite E, F in X. cbn [Nat.eqb negb orb] in X. apply Z.ltb_lt. exact X. }
  pose proof (apart_swap _ _ _ X) as Y. split; [|split; [|split]].
  - intros i Hi. change (length both_islands_z) with 4%nat in Hi. do 4 (destruct i as [|i]; [apply Nat.ltb_lt; reflexivity|]). lia.
  - intros k Hk. change (length pair_z) with 3%nat in Hk. destruct k as [|[|[|k]]]; [exists 0%nat|exists 1%nat|exists 3%nat|lia]; (split; [apply Nat.ltb_lt; reflexivity|reflexivity]).
  - apply permb_ok. vm_compute. reflexivity.
  - intros i j Hi Hj N Q. change (length both_islands_z) with 4%nat in Hi, Hj. do 4 (destruct i as [|i]; [do 4 (destruct j as [|j]; [first [discriminate Q|exfalso; apply N; reflexivity|lazymatch goal with |- apart_inside _ 0 2 => exact X | |- _ => exact Y end]|]); lia|]). lia.
Qed.
Lemma pair_modes : forall i, (i < length both_islands)%nat -> nth_error (map snd pair_input) (into_pair i) = Some RemoveInterior <-> nth_error (map snd both_islands) i = Some RemoveInterior.
Proof. intros i Hi. change (length both_islands) with 4%nat in Hi. do 4 (destruct i as [|i]; [split; discriminate|]). lia. Qed.
Lemma pair_result : compute std_ref 112 pair_input Union = Ok (sample_contours pair_input 112) /\ has_corners (sample_contours pair_input 112) (islands_lines ++ moved_lines (1003, -517) islands_lines).
Proof. split; [vm_compute; reflexivity|]. apply z_points_at; [vm_compute; reflexivity|reflexivity]. Qed.
