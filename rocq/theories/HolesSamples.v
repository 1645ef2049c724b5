(** Samples for the holes of contours that do not cross. *)

From Coq Require Import List ZArith QArith Bool Arith Lia Lqa.
From Verif Require Import Base Float Geometry Sweep Contours Compute StdRef SpecShape SpecOrder SpecIntersect SpecHandle SpecTidy SpecOverlay SpecCompute SpecHoles
  ShapeSamples OrderFacts TidyGeo TidyParity TidySamples OverlaySamples NestGeo.
Import ListNotations.
Local Open Scope Z_scope.

(** *** Rectangles: [(x, y), (w, h)], and whether they are traversed with the clock *)

Definition box : Type := ((Z * Z) * (Z * Z)) * bool.
Definition box_line (b : box) : list (Z * Z) :=
  let '(x, y, (w, h), cw) := b in if cw : bool then rev (rect_z x y w h) else rect_z x y w h.
Definition box_contour (b : box) : contour :=
  let '(x, y, (w, h), cw) := b in if cw : bool then set_points contour_new (rev (c_points (rct x y w h))) else rct x y w h.
Definition in_box (b : box) (u v : Q) : Prop :=
  let '(x, y, (w, h), _) := b in
  (inject_Z x <= u)%Q /\ (u < inject_Z (x + w))%Q /\ (inject_Z y < v)%Q /\ (v <= inject_Z (y + h))%Q.

Lemma rect_winding : forall x y w h u v, 0 < w -> 0 < h ->
  (in_box (x, y, (w, h), false) u v /\ winding u v (rect_z x y w h) = 1) \/ (~ in_box (x, y, (w, h), false) u v /\ winding u v (rect_z x y w h) = 0).
Proof.
  intros x y w h u v Hw Hh. unfold winding, rect_z, sides, side_sign. cbn [combine map app fold_right fst snd].
  assert (L1 : lex_z (x, y) (x + w, y) = Lt) by (apply lex_lt; cbn; lia). assert (L2 : lex_z (x + w, y) (x + w, y + h) = Lt) by (apply lex_lt; cbn; lia).
  assert (L3 : lex_z (x + w, y + h) (x, y + h) = Gt) by (apply lex_gt, lex_lt; cbn; lia). assert (L4 : lex_z (x, y + h) (x, y) = Gt) by (apply lex_gt, lex_lt; cbn; lia).
  rewrite L1, L2, L3, L4. unfold passes_below. cbn [e_left e_right]. rewrite !Z.sub_diag. replace (x + w - x) with w by lia.
  assert (Qw : (0 < inject_Z w)%Q) by (change 0%Q with (inject_Z 0); now rewrite <- Zlt_Qlt). assert (Qh : (0 < inject_Z h)%Q) by (change 0%Q with (inject_Z 0); now rewrite <- Zlt_Qlt).
  assert (V : forall a k, negb (qlt u (inject_Z a)) && qlt u (inject_Z a) && k = false) by (intros a k; destruct (qlt u (inject_Z a)); reflexivity). rewrite !V.
  change (inject_Z 0) with 0%Q.
  assert (G : forall c, qlt (0 * (u - inject_Z x)) ((v - inject_Z c) * inject_Z w) = qlt (inject_Z c) v).
  { intros c. apply eq_true_iff_eq. rewrite !qlt_iff. split; intros Q; nra. }
  rewrite !G. unfold in_box. rewrite inject_Z_plus, inject_Z_plus.
  destruct (qlt u (inject_Z x)) eqn:Q1; cbn [negb andb]; [apply qlt_iff in Q1|apply qlt_false in Q1]; [right; split; [intros (A & _); lra|reflexivity]|].
  destruct (qlt u (inject_Z x + inject_Z w)) eqn:Q2; cbn [negb andb]; [apply qlt_iff in Q2|apply qlt_false in Q2]; [|right; split; [intros (_ & A & _); lra|reflexivity]].
  destruct (qlt (inject_Z y) v) eqn:Q3; [apply qlt_iff in Q3|apply qlt_false in Q3];
    (destruct (qlt (inject_Z y + inject_Z h) v) eqn:Q4; [apply qlt_iff in Q4|apply qlt_false in Q4]).
  - right. split; [intros (_ & _ & _ & A); lra|reflexivity].
  - left. split; [auto|reflexivity].
  - lra.
  - right. split; [intros (_ & _ & A & _); lra|reflexivity].
Qed.

Definition sized (b : box) : bool := (0 <? fst (snd (fst b))) && (0 <? snd (snd (fst b))).
Definition way (b : box) : Z := if snd b then -1 else 1.

Lemma box_winding : forall b u v, sized b = true -> (in_box b u v /\ winding u v (box_line b) = way b) \/ (~ in_box b u v /\ winding u v (box_line b) = 0).
Proof.
  intros [[[x y] [w h]] cw] u v H. unfold sized in H. cbn [fst snd] in H. apply andb_true_iff in H. rewrite !Z.ltb_lt in H. destruct H as (Hw & Hh).
  unfold box_line, way. cbn [snd]. destruct (rect_winding x y w h u v Hw Hh) as [(I & W)|(I & W)]; [left|right]; (split; [exact I|]); destruct cw; rewrite ?winding_rev, ?W; reflexivity.
Qed.
Lemma box_inside : forall b u v, sized b = true -> inside_of (box_line b) u v <-> in_box b u v.
Proof.
  intros b u v H. unfold inside_of. destruct (box_winding b u v H) as [(I & W)|(I & W)]; rewrite W; [|intuition]. split; [auto|]. intros _. unfold way. destruct (snd b); lia.
Qed.
Lemma box_once : forall b, sized b = true -> goes_once (way b) (box_line b).
Proof.
  intros b H. split; [|intros u v; destruct (box_winding b u v H) as [(_ & W)|(_ & W)]; auto].
  destruct b as [[[x y] [w h]] cw] eqn:Eb. exists (inject_Z x), (inject_Z (y + h)). change (inside_of (box_line (x, y, (w, h), cw)) (inject_Z x) (inject_Z (y + h))).
  apply box_inside; [exact H|]. unfold sized in H. cbn [fst snd] in H. apply andb_true_iff in H. rewrite !Z.ltb_lt in H. unfold in_box. rewrite <- !Zlt_Qlt. split; [lra|]. split; [lia|]. split; [lia|lra].
Qed.

Definition box_within (a b : box) : bool :=
  let '(x, y, (w, h), _) := a in let '(x', y', (w', h'), _) := b in
  (x <=? x') && (x' + w' <=? x + w) && (y <=? y') && (y' + h' <=? y + h).
Definition box_beside (a b : box) : bool :=
  let '(x, y, (w, h), _) := a in let '(x', y', (w', h'), _) := b in
  (x + w <=? x') || (x' + w' <=? x) || (y + h <=? y') || (y' + h' <=? y).

Lemma box_within_ok : forall a b u v, box_within a b = true -> in_box b u v -> in_box a u v.
Proof.
  intros [[[x y] [w h]] cw] [[[x' y'] [w' h']] cw'] u v H. unfold box_within in H. rewrite !andb_true_iff, !Z.leb_le in H. destruct H as (((H1 & H2) & H3) & H4).
  unfold in_box. rewrite Zle_Qle in H1, H2, H3, H4. intros (I1 & I2 & I3 & I4). repeat split; lra.
Qed.
Lemma box_beside_ok : forall a b u v, box_beside a b = true -> ~ (in_box a u v /\ in_box b u v).
Proof.
  intros [[[x y] [w h]] cw] [[[x' y'] [w' h']] cw'] u v H. unfold box_beside in H. rewrite !orb_true_iff, !Z.leb_le in H. rewrite !Zle_Qle in H.
  unfold in_box. intros ((I1 & I2 & I3 & I4) & (J1 & J2 & J3 & J4)). destruct H as [[[H|H]|H]|H]; lra.
Qed.

Fixpoint all_pairs (meet : edge -> edge -> bool) (l : list edge) : bool :=
  match l with
  | [] => true
  | e :: l' => forallb (meet e) l' && all_pairs meet l'
  end.
Definition ringsb (meet : edge -> edge -> bool) (bs : list box) : bool :=
  let z := map box_line bs in
  forallb sized bs && forallb (forallb (withinm 100)) z && all_pairs meet (ring_edges z)
  && forallb (fun i => forallb (fun j => (i =? j)%nat
       || match nth_error bs i, nth_error bs j with Some a, Some b => box_within a b || box_within b a || box_beside a b | _, _ => true end) (seq 0 (length bs))) (seq 0 (length bs)).

Lemma ringsb_ok : forall meetb (meet : edge -> edge -> Prop) bs, (forall e f, meetb e f = true -> meet e f) -> ringsb meetb bs = true -> rings_that meet (map box_line bs).
Proof.
  intros meetb meet bs M H. unfold ringsb in H. rewrite !andb_true_iff in H. destruct H as (((H1 & H2) & H3) & H4).
  assert (W : Forall (Forall (within 100)) (map box_line bs)).
  { revert H2. apply forallb_all. intros l. apply forallb_all. intros v Hv. unfold withinm in Hv. rewrite andb_true_iff, !Z.leb_le in Hv. exact Hv. }
  rewrite forallb_forall in H1. split; [|split; [|split; [|split]]].
  - revert W. apply Forall_impl. intros l. apply Forall_impl. intros v (A & B). split; lia.
  - induction (ring_edges (map box_line bs)) as [|e l IH]; [constructor|]. cbn [all_pairs] in H3. apply andb_true_iff in H3. destruct H3 as (K1 & K2). constructor; [|now apply IH].
    revert K1. apply forallb_all. auto.
  - apply Forall_forall. intros l Hl. apply in_map_iff in Hl. destruct Hl as (b & <- & Hb). pose proof (box_once b (H1 b Hb)) as O. unfold way in O. destruct (snd b); auto.
  - intros i j N. assert (Z : forall k a, nth_error (map box_line bs) k = Some a -> exists b, nth_error bs k = Some b /\ a = box_line b).
    { intros k a Ha. rewrite nth_error_map in Ha. destruct (nth_error bs k) as [b|]; [|discriminate]. injection Ha as <-. eauto. }
    destruct (nth_error bs i) as [a|] eqn:Ha; [|left; intros l m Hl; apply Z in Hl; destruct Hl as (b & Hb & _); congruence].
    destruct (nth_error bs j) as [b|] eqn:Hb; [|left; intros l m Hl Hm; apply Z in Hm; destruct Hm as (c & Hc & _); congruence].
    assert (Li : (i < length bs)%nat) by (apply nth_error_Some; congruence). assert (Lj : (j < length bs)%nat) by (apply nth_error_Some; congruence).
    rewrite forallb_forall in H4. specialize (H4 i). rewrite forallb_forall in H4. specialize (H4 ltac:(apply in_seq; lia) j ltac:(apply in_seq; lia)). rewrite Ha, Hb in H4.
    apply orb_true_iff in H4. destruct H4 as [H4|H4]; [apply Nat.eqb_eq in H4; contradiction|]. rewrite !orb_true_iff in H4.
    pose proof (H1 a (nth_error_In _ _ Ha)) as Sa. pose proof (H1 b (nth_error_In _ _ Hb)) as Sb. destruct H4 as [[H4|H4]|H4]; [left|right; left|right; right].
    + intros l m Hl Hm u v I. apply Z in Hl, Hm. destruct Hl as (a' & A1 & ->), Hm as (b' & B1 & ->). assert (a' = a) by congruence. assert (b' = b) by congruence. subst.
      apply box_inside; [exact Sa|]. apply box_inside in I; [|exact Sb]. now apply (box_within_ok a b).
    + intros l m Hl Hm u v I. apply Z in Hl, Hm. destruct Hl as (a' & A1 & ->), Hm as (b' & B1 & ->). assert (a' = b) by congruence. assert (b' = a) by congruence. subst.
      apply box_inside; [exact Sb|]. apply box_inside in I; [|exact Sa]. now apply (box_within_ok b a).
    + intros l m Hl Hm u v (I & J). apply Z in Hl, Hm. destruct Hl as (a' & A1 & ->), Hm as (b' & B1 & ->). assert (a' = a) by congruence. assert (b' = b) by congruence. subst.
      apply box_inside in I; [|exact Sa]. apply box_inside in J; [|exact Sb]. now apply (box_beside_ok a b u v H4).
  - apply Forall_forall. intros l Hl. exists 100. split; [rewrite Forall_forall in W; auto|]. apply in_map_iff in Hl. destruct Hl as ([[[x y] [w h]] cw] & <- & Hb).
    unfold box_line. destruct cw; cbn; lia.
Qed.

(** *** Samples *)

(** In a square, traversed with the clock, are two that touch in a corner, and in the
    first of these another one; there is one more beside them all. *)
Definition nest_boxes : list box :=
  [(3, 3, (4, 4), true); (1, 1, (8, 8), false); (0, 0, (20, 20), true); (9, 9, (4, 4), false); (30, 2, (4, 4), false)].
Definition nest : polygon := map box_contour nest_boxes.
Definition nest_z : corners := map box_line nest_boxes.

Lemma nest_rings : rings nest_z.
Proof. apply (ringsb_ok apartb); [exact apartb_ok|]. vm_compute. reflexivity. Qed.
Lemma nest_corners : has_corners nest nest_z.
Proof. repeat constructor; apply pt_at; reflexivity. Qed.
Lemma nest_raw : Forall raw nest.
Proof. repeat constructor. Qed.

(** Two squares above each other, with a common edge. *)
Definition stack_boxes : list box := [(0, 10, (10, 10), false); (0, 0, (10, 10), false)].
Definition stack : polygon := map box_contour stack_boxes.
Definition stack_z : corners := map box_line stack_boxes.

Lemma stack_rings : joined_rings stack_z.
Proof.
  apply (ringsb_ok (fun e f => coincideb e f || apartb e f)); [|vm_compute; reflexivity].
  intros e f H. apply orb_true_iff in H. destruct H as [H|H]; [left|right; now apply apartb_ok].
  unfold coincideb in H. rewrite !andb_true_iff, negb_true_iff, Nat.eqb_neq in H. destruct H as ((C1 & C2) & C3). apply z_eqb_eq in C1, C2. split; auto.
Qed.
Lemma stack_corners : has_corners stack stack_z.
Proof. repeat constructor; apply pt_at; reflexivity. Qed.
Lemma stack_raw : Forall raw stack.
Proof. repeat constructor. Qed.

Definition holes_shown (r : outcome polygon) : outcome (list (list nat * bool * option bool)) :=
  let* l := r in Ok (map (fun c => (c_holes c, c_external c, c_cache c)) l).

Lemma stack_beside : ~ lies_in stack_z 1 0.
Proof.
  intros (_ & _ & _ & H). specialize (H _ _ eq_refl eq_refl (5 # 1)%Q (15 # 1)%Q).
  assert (I : inside_of (box_line (0, 10, (10, 10), false)) (5 # 1) (15 # 1)) by (apply box_inside; [reflexivity|]; unfold in_box; cbn; repeat split; unfold Qle, Qlt; cbn; lia).
  apply H in I. apply (box_inside (0, 0, (10, 10), false)) in I; [|reflexivity]. destruct I as (_ & _ & _ & I). unfold Qle in I. cbn in I. lia.
Qed.

Lemma stack_wrong : exists r, compute_holes std_ref stack = Ok r /\ ~ holes_found stack_z stack r.
Proof.
  destruct (compute_holes std_ref stack) as [r|e|p] eqn:E; vm_compute in E; inversion E as [E1].
  eexists. split; [reflexivity|]. intros (_ & H). specialize (H 1%nat _ eq_refl). destruct H as (_ & _ & H). cbn [c_holes] in H.
  apply stack_beside, (H 0%nat). now left.
Qed.
