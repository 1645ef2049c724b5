(** A check for tidy polygons, and samples. *)

From Coq Require Import List ZArith QArith Bool Arith Lia Lqa.
From Verif Require Import Base Float Geometry Sweep Contours Compute SpecShape SpecOrder SpecIntersect SpecHandle SpecTidy OrderFacts TidyGeo ShapeSamples.
Import ListNotations.
Local Open Scope Z_scope.

(** *** Separating edges by a linear function *)

Definition val (g v : Z * Z) : Z := fst g * fst v + snd g * snd v.
Definition clearb (u v : Z * Z) : bool :=
  negb (vcross u v =? 0) && (1001 * (vlen2 u * vlen2 v) <=? 10 ^ 10 * (vcross u v * vcross u v)).
Definition tellableb (l1 r1 l2 r2 : Z * Z) : bool :=
  clearb (vsub r1 l1) (vsub r2 l2)
  || ((vcross (vsub r1 l1) (vsub r2 l2) =? 0) && (clearb (vsub l2 l1) (vsub r1 l1) || (vcross (vsub l2 l1) (vsub r1 l1) =? 0))).
Definition belowb (g : Z * Z) (e f : edge) : bool :=
  let m := Z.max (val g (e_left e)) (val g (e_right e)) in (m <? val g (e_left f)) && (m <? val g (e_right f)).
Definition z_eqb (a b : Z * Z) : bool := (fst a =? fst b) && (snd a =? snd b).
(** [e] is below [f] but for the end [v] of [f]. *)
Definition touchb (g : Z * Z) (v w : Z * Z) (e : edge) : bool :=
  (z_eqb v (e_left e) || z_eqb v (e_right e))
  && (Z.max (val g (e_left e)) (val g (e_right e)) <=? val g v) && (val g v <? val g w).
Definition sepb (g : Z * Z) (e f : edge) : bool :=
  belowb g e f || touchb g (e_left f) (e_right f) e || touchb g (e_right f) (e_left f) e.
Definition turn (v : Z * Z) : Z * Z := (- snd v, fst v).
Definition opp (v : Z * Z) : Z * Z := (- fst v, - snd v).
Definition apartb (e f : edge) : bool :=
  let u := vsub (e_right e) (e_left e) in
  let w := vsub (e_right f) (e_left f) in
  tellableb (e_left e) (e_right e) (e_left f) (e_right f)
  && existsb (fun g => sepb g e f || sepb g f e) [turn u; opp (turn u); turn w; opp (turn w); u; opp u].
Definition coincideb (e f : edge) : bool :=
  z_eqb (e_left e) (e_left f) && z_eqb (e_right e) (e_right f) && negb (e_poly e =? e_poly f)%nat.
Fixpoint pairsb (l : list edge) : bool :=
  match l with
  | [] => true
  | e :: l' => forallb (fun f => coincideb e f || apartb e f) l' && pairsb l'
  end.
Definition withinb (v : Z * Z) : bool := (- 2 ^ 24 <? fst v) && (fst v <? 2 ^ 24) && (- 2 ^ 24 <? snd v) && (snd v <? 2 ^ 24).
Definition tidyb (zs : list corners) : bool := forallb (forallb (forallb withinb)) zs && pairsb (edges zs).

Lemma z_eqb_eq : forall a b, z_eqb a b = true -> a = b.
Proof. intros [a b] [c d] H. apply andb_true_iff in H. cbn in H. rewrite !Z.eqb_eq in H. destruct H. now subst. Qed.

Lemma clearb_ok : forall u v, clearb u v = true -> clearly_crossing u v.
Proof. intros u v H. apply andb_true_iff in H. rewrite negb_true_iff, Z.eqb_neq, Z.leb_le in H. exact H. Qed.
Lemma tellableb_ok : forall a b c d, tellableb a b c d = true -> tellable a b c d.
Proof.
  intros a b c d H. apply orb_true_iff in H. destruct H as [H|H]; [left; now apply clearb_ok|right].
  apply andb_true_iff in H. rewrite orb_true_iff, !Z.eqb_eq in H. destruct H as [H [K|K]]; split; auto. left. now apply clearb_ok.
Qed.

Definition valq (g : Z * Z) (x y : Q) : Q := (inject_Z (fst g) * x + inject_Z (snd g) * y)%Q.
Lemma val_on : forall g a b x y, on_segment a b x y ->
  exists t, (0 <= t)%Q /\ (t <= 1)%Q /\ (valq g x y == (1 - t) * inject_Z (val g a) + t * inject_Z (val g b))%Q
    /\ (x == inject_Z (fst a) + t * inject_Z (fst b - fst a))%Q /\ (y == inject_Z (snd a) + t * inject_Z (snd b - snd a))%Q.
Proof.
  intros g a b x y (t & T1 & T2 & T3 & T4). exists t. repeat split; try assumption. unfold valq, val. rewrite T3, T4.
  unfold Zminus. rewrite !inject_Z_plus, !inject_Z_mult, !inject_Z_opp. ring.
Qed.
Lemma val_most : forall g a b x y m, on_segment a b x y -> Z.max (val g a) (val g b) <= m -> (valq g x y <= inject_Z m)%Q.
Proof.
  intros g a b x y m H M. destruct (val_on g a b x y H) as (t & T1 & T2 & -> & _).
  assert (A : (inject_Z (val g a) <= inject_Z m)%Q) by (rewrite <- Zle_Qle; lia).
  assert (B : (inject_Z (val g b) <= inject_Z m)%Q) by (rewrite <- Zle_Qle; lia). nra.
Qed.

Lemma between : forall t a b m, (0 <= t)%Q -> (t <= 1)%Q -> (m < a)%Q -> (m < b)%Q -> (m < (1 - t) * a + t * b)%Q.
Proof.
  intros t a b m T1 T2 A B. destruct (Qlt_le_dec 0 t) as [T|T].
  - assert (P : (0 < t * (b - m))%Q) by (apply Qmult_lt_0_compat; lra).
    assert (N : (0 <= (1 - t) * (a - m))%Q) by (apply Qmult_le_0_compat; lra). lra.
  - assert (Z0 : (t == 0)%Q) by lra. rewrite Z0. lra.
Qed.

Lemma belowb_ok : forall g e f, belowb g e f = true -> disjoint (e_left e) (e_right e) (e_left f) (e_right f).
Proof.
  intros g e f H x y (A & B). apply andb_true_iff in H. rewrite !Z.ltb_lt in H. destruct H as (H1 & H2).
  pose proof (val_most g _ _ x y _ A (Z.le_refl _)) as M. destruct (val_on g _ _ x y B) as (t & T1 & T2 & T3 & _).
  rewrite T3 in M. rewrite Zlt_Qlt in H1, H2. pose proof (between t _ _ _ T1 T2 H1 H2). lra.
Qed.

Lemma touchb_ok : forall g e v w x y, touchb g v w e = true -> on_both (e_left e) (e_right e) v w x y ->
  is_end v e /\ same_point x y (inject_Z (fst v)) (inject_Z (snd v)).
Proof.
  intros g e v w x y H (A & B). apply andb_true_iff in H. destruct H as (H & H3). apply andb_true_iff in H. destruct H as (H1 & H2).
  split. { apply orb_true_iff in H1. destruct H1 as [H1|H1]; apply z_eqb_eq in H1; [now left|now right]. }
  apply Z.leb_le in H2. apply Z.ltb_lt in H3. pose proof (val_most g _ _ x y _ A H2) as M. destruct (val_on g _ _ x y B) as (t & T1 & T2 & T3 & T4 & T5).
  rewrite T3 in M. rewrite Zlt_Qlt in H3. assert (T : (t == 0)%Q) by nra. rewrite T in T4, T5. split; [rewrite T4|rewrite T5]; ring.
Qed.
Lemma touchb_end : forall g e v w, touchb g v w e = true -> is_end v e.
Proof.
  intros g e v w H. apply andb_true_iff in H. destruct H as (H & H3). apply andb_true_iff in H. destruct H as (H1 & H2).
  apply orb_true_iff in H1. destruct H1 as [H1|H1]; apply z_eqb_eq in H1; [now left|now right].
Qed.
Lemma on_seg_sym : forall a b x y, on_segment a b x y -> on_segment b a x y.
Proof.
  intros a b x y (t & T1 & T2 & T3 & T4). exists (1 - t)%Q. repeat split; try lra; [rewrite T3|rewrite T4];
  unfold Zminus; rewrite !inject_Z_plus, !inject_Z_opp; ring.
Qed.
Lemma on_end : forall v e, is_end v e -> on_segment (e_left e) (e_right e) (inject_Z (fst v)) (inject_Z (snd v)).
Proof.
  intros v e [->| ->]; [exists 0%Q|exists 1%Q]; repeat split; try lra; unfold Zminus; rewrite ?inject_Z_plus, ?inject_Z_opp; ring.
Qed.

Lemma sepb_ok : forall g e f, sepb g e f = true ->
  disjoint (e_left e) (e_right e) (e_left f) (e_right f)
  \/ exists v, is_end v e /\ is_end v f /\ meet_at (e_left e) (e_right e) (e_left f) (e_right f) (inject_Z (fst v)) (inject_Z (snd v)).
Proof.
  intros g e f H. unfold sepb in H. rewrite !orb_true_iff in H. destruct H as [[H|H]|H].
  - left. now apply (belowb_ok g).
  - right. pose proof (touchb_end _ _ _ _ H) as V. exists (e_left f). split; [exact V|]. split; [now left|]. split.
    + split; apply on_end; [exact V|now left].
    + intros x y (A & B). apply (touchb_ok g e (e_left f) (e_right f) x y H). split; assumption.
  - right. pose proof (touchb_end _ _ _ _ H) as V. exists (e_right f). split; [exact V|]. split; [now right|]. split.
    + split; apply on_end; [exact V|now right].
    + intros x y (A & B). apply (touchb_ok g e (e_right f) (e_left f) x y H). split; [assumption|now apply on_seg_sym].
Qed.

Lemma apartb_ok : forall e f, apartb e f = true -> apart e f.
Proof.
  intros e f H. unfold apartb in H. apply andb_true_iff in H. destruct H as (H & K). split; [now apply tellableb_ok|].
  apply existsb_exists in K. destruct K as (g & _ & K). apply orb_true_iff in K. destruct K as [K|K]; apply sepb_ok in K; [exact K|].
  destruct K as [K|(v & V1 & V2 & V3 & V4)].
  - left. intros x y N. apply (K x y). now apply on_both_sym.
  - right. exists v. split; [exact V2|]. split; [exact V1|]. split; [now apply on_both_sym|].
    intros x y N. apply V4. now apply on_both_sym.
Qed.

Lemma tidyb_ok : forall zs, tidyb zs = true -> tidy zs.
Proof.
  intros zs H. apply andb_true_iff in H. destruct H as (H & K). split.
  - rewrite Forall_forall. rewrite forallb_forall in H. intros z Hz. specialize (H z Hz). rewrite Forall_forall. rewrite forallb_forall in H.
    intros c Hc. specialize (H c Hc). rewrite Forall_forall. rewrite forallb_forall in H. intros v Hv. specialize (H v Hv).
    unfold withinb in H. rewrite !andb_true_iff, !Z.ltb_lt in H. unfold within. lia.
  - induction (edges zs) as [|e l IH]; [constructor|]. cbn [pairsb] in K. apply andb_true_iff in K. destruct K as (K1 & K2).
    constructor; [|now apply IH]. apply Forall_forall. rewrite forallb_forall in K1. intros f Hf. specialize (K1 f Hf).
    apply orb_true_iff in K1. destruct K1 as [K1|K1]; [left|right; now apply apartb_ok].
    unfold coincideb in K1. rewrite !andb_true_iff, negb_true_iff, Nat.eqb_neq in K1. destruct K1 as ((C1 & C2) & C3).
    apply z_eqb_eq in C1, C2. split; auto.
Qed.

(** *** Samples *)

(** No edges to be removed, no edges to be covered. *)
Lemma plain_covered : forall modes zs, ~ In RemoveEdges modes -> covered modes zs.
Proof. intros modes zs N e _ Q. exfalso. apply N. now apply nth_error_In in Q. Qed.

Definition rect_z (x y w h : Z) : list (Z * Z) := [(x, y); (x + w, y); (x + w, y + h); (x, y + h)].

(** Two squares side by side with a common edge, and a diamond cut out of the second. *)
Definition neighbours : input :=
  [([rct 0 0 10 10], Normal); ([rct 10 0 10 10], Normal);
   ([set_points contour_new [pt 12 5; pt 15 2; pt 18 5; pt 15 8]], RemoveInterior)].
Definition neighbours_z : list corners :=
  [[rect_z 0 0 10 10]; [rect_z 10 0 10 10]; [[(12, 5); (15, 2); (18, 5); (15, 8)]]].

Lemma neighbours_tidy : tidy neighbours_z.
Proof. apply tidyb_ok. vm_compute. reflexivity. Qed.
Lemma neighbours_corners : Forall2 (fun p z => has_corners (fst p) z) neighbours neighbours_z.
Proof. repeat constructor; apply pt_at; reflexivity. Qed.

(** The ends kept: the number of the edge and the end. *)
Definition sides_shown (polys : input) (fuel : nat) : outcome (list (nat * seg_end)) :=
  let* w := add_polygons (length polys) 0 polys (mk_sweep [] [] [] [] []) in
  let* w := sweep_loop fuel (length polys) w in
  let* (_, ends) := include_all (map snd polys) (w_packets w) (w_swept w) in
  Ok (map (fun e => (s_index (fst e), snd e)) ends).
