(** The sweep over tidy polygons, event by event. *)

From Coq Require Import List ZArith QArith Bool Arith Lia Lqa Permutation.
From Verif Require Import Base Float SpecShape SpecOrder SpecIntersect SpecHandle SpecTidy SpecContainers Geometry Sweep
  Contours Compute FloatFacts ShapeFacts OrderFacts ContainerFacts HandleFacts TidyGeo TidyParity TidySetup TidyLine TidyPackets.
Import ListNotations.

Section Sweep.
Variables (zs : list corners) (S : list bseg) (modes : list polygon_mode).
Notation E := (edges zs).
Notation n := (length modes).
Notation eg := (eg (edges zs)).
Notation L s := (e_left (eg s)).
Notation R s := (e_right (eg s)).
Notation poly s := (e_poly (eg s)).
Notation LS := (LS zs).
Notation RS := (RS zs).
Definition mode_at (i : nat) : polygon_mode := nth i modes Normal.
Hypothesis (D : drawn E S) (Polys : forall s, In s S -> (poly s < n)%nat).

(** The segment that is noted as the one below [s]. *)
Definition noted (s : bseg) (o : option nat) : Prop :=
  match o with
  | None => forall i, RS (eg s) i = false
  | Some j => exists b, In b S /\ s_index b = j /\ (forall f, In f S -> same_ends (eg f) (eg b) = true -> (poly f <= poly b)%nat)
      /\ (forall i, LS (eg b) i = RS (eg s) i)
      /\ (lex_z (L b) (L s) = Lt \/ (L b = L s /\ (0 < orient (L s) (R b) (R s))%Z)) /\ next_below zs (eg b) (eg s)
  end.

(** The packet of a segment that has been started, when the events [q] are to come. *)
Definition good (q : list bend) (s : bseg) (k : packet) : Prop :=
  k_polygon k = poly s /\ k_mode k = mode_at (poly s) /\ faced n k (LS (eg s)) (RS (eg s))
  /\ (is_non_contributing (k_edge k) = true <->
      exists t, In t S /\ ~ In (t, LeftEnd) q /\ same_ends (eg t) (eg s) = true /\ (poly s < poly t)%nat)
  /\ k_in_result k = is_in_result k /\ noted s (k_below k) /\ fresh k.

Record inv (q : list bend) (ks : list packet) (act sw : list bseg) : Prop := mk_inv {
  v_len : length ks = length S;
  v_heap : heap cmp_of q;
  v_nodup : NoDup q;
  v_in : forall e, In e q -> In (fst e) S;
  v_order : forall d e, In (fst d) S -> ~ In d q -> In e q -> cmp_of d e <> Gt;
  v_act : forall s, In s act <-> In s S /\ ~ In (s, LeftEnd) q /\ In (s, RightEnd) q;
  v_sorted : strictly_sorted sc act;
  v_swept : forall s, In s sw <-> In s S /\ ~ In (s, RightEnd) q;
  v_once : NoDup sw;
  v_new : forall s, In s S -> In (s, LeftEnd) q -> nth_error ks (s_index s) = Some (packet_new (poly s) (mode_at (poly s)) n);
  v_done : forall s, In s S -> ~ In (s, LeftEnd) q -> exists k, nth_error ks (s_index s) = Some k /\ good q s k }.

(** *** Events *)

Lemma ev : forall a b : bend, In (fst a) S -> In (fst b) S ->
  cmp_of a b = cmp_then (event_before_z (end_z (L (fst a)) (R (fst a)) (snd a)) (end_z (L (fst b)) (R (fst b)) (snd b)) (snd a) (snd b)
      (other_z (L (fst a)) (R (fst a)) (snd a)) (other_z (L (fst b)) (R (fst b)) (snd b)))
    (Nat.compare (poly (fst a)) (poly (fst b))).
Proof using D Polys.
  intros a b Ha Hb. destruct (seg_spec _ _ D _ Ha) as (A1 & A2 & _), (seg_spec _ _ D _ Hb) as (B1 & B2 & _).
  unfold cmp_of. rewrite (endpoint_cmp_int _ a b _ _ _ _ A1 B1). now rewrite A2, B2.
Qed.

Lemma ev_lr : forall a b, In a S -> In b S -> cmp_of (a, LeftEnd) (b, RightEnd) <> Gt -> lex_z (L a) (R b) = Lt.
Proof using D Polys.
  intros a b Ha Hb H. rewrite ev in H by assumption. unfold event_before_z in H. cbn [fst snd end_z] in H.
  destruct (lex_z (L a) (R b)); [exfalso; now apply H|reflexivity|exfalso; now apply H].
Qed.
Lemma ev_rl : forall a b, In a S -> In b S -> cmp_of (a, RightEnd) (b, LeftEnd) <> Gt -> lex_z (R a) (L b) <> Gt.
Proof using D Polys.
  intros a b Ha Hb H Q. rewrite ev in H by assumption. unfold event_before_z in H. cbn [fst snd end_z] in H. now rewrite Q in H.
Qed.
Lemma ev_ll : forall a b, In a S -> In b S -> cmp_of (a, LeftEnd) (b, LeftEnd) <> Gt ->
  lex_z (L a) (L b) = Lt \/ (L a = L b /\ ((orient (L b) (R b) (R a) < 0)%Z
    \/ (orient (L b) (R b) (R a) = 0%Z /\ (poly a <= poly b)%nat))).
Proof using D Polys.
  intros a b Ha Hb H. rewrite ev in H by assumption. unfold event_before_z in H. cbn [fst snd end_z other_z] in H.
  destruct (lex_z (L a) (L b)) eqn:Q; [right|now left|exfalso; now apply H]. split; [now apply lex_eq|].
  destruct (orient (L b) (R b) (R a) ?= 0)%Z eqn:O; [right|left|exfalso; now apply H].
  - apply Z.compare_eq in O. split; [exact O|]. cbn [cmp_then] in H. destruct (Nat.compare_spec (poly a) (poly b)); [lia|lia|congruence].
  - exact O.
Qed.
Lemma ev_rr : forall a b, In a S -> In b S -> cmp_of (a, RightEnd) (b, RightEnd) <> Gt -> same_ends (eg a) (eg b) = true ->
  (poly a <= poly b)%nat.
Proof using D Polys.
  intros a b Ha Hb H SE. rewrite ev in H by assumption. unfold event_before_z in H. cbn [fst snd end_z other_z] in H.
  apply same_ends_iff in SE. destruct SE as [S1 S2]. rewrite S1, S2, lex_refl in H.
  replace (orient (R b) (L b) (L b)) with 0%Z in H by (unfold orient; ring). cbn [cmp_then Z.compare] in H.
  destruct (Nat.compare_spec (poly a) (poly b)); [lia|lia|congruence].
Qed.


Lemma in_or : forall (d : bend) q, In (fst d) S -> (forall e, In e q -> In (fst e) S) -> In d q \/ ~ In d q.
Proof using D Polys.
  intros [a e] q Ha. induction q as [|[b f] q IH]; intros H; [right; auto|].
  destruct IH as [I|I]; [intros; apply H; now right|left; now right|].
  destruct (Nat.eq_dec (s_index a) (s_index b)) as [Q|Q].
  - assert (a = b) by (apply (index_eq _ _ D); auto; apply (H (b, f)); now left). subst b.
    destruct e, f; [left; now left|right|right|left; now left]; intros [X|X]; auto; discriminate.
  - right. intros [X|X]; [|auto]. inversion X. congruence.
Qed.

Lemma ends_later : forall q ks act sw s, inv q ks act sw -> In (s, LeftEnd) q -> In (s, RightEnd) q.
Proof using D Polys.
  intros q ks act sw s V H. pose proof (v_in _ _ _ _ V _ H) as Is. cbn in Is.
  destruct (in_or (s, RightEnd) q Is (v_in _ _ _ _ V)) as [I|I]; [exact I|exfalso].
  apply (ev_rl s s Is Is); [apply (v_order _ _ _ _ V); auto|].
  apply lex_gt. now apply (seg_spec _ _ D).
Qed.

Lemma act_together : forall q ks act sw a b, inv q ks act sw -> In a act -> In b act -> together E a b.
Proof using D Polys.
  intros q ks act sw a b V Ha Hb. apply (v_act _ _ _ _ V) in Ha, Hb. destruct Ha as (A1 & A2 & A3), Hb as (B1 & B2 & B3).
  split; apply ev_lr; auto; apply (v_order _ _ _ _ V); auto.
Qed.

Lemma act_forall : forall q ks act sw, inv q ks act sw -> Forall (fun x => In x S) act.
Proof using D Polys. intros q ks act sw V. apply Forall_forall. intros x Hx. now apply (v_act _ _ _ _ V). Qed.

(** The next event is taken. *)
Section Next.
Variables (q0 q : list bend) (ks : list packet) (act sw : list bseg) (s : bseg) (e : seg_end).
Hypothesis (V : inv q0 ks act sw) (Perm : Permutation q0 ((s, e) :: q)) (Heap : heap cmp_of q)
  (Min : forall b, In b q0 -> cmp_of (s, e) b <> Gt).

Lemma next_in : In (s, e) q0.
Proof using Perm. apply (Permutation_in _ (Permutation_sym Perm)). now left. Qed.
Lemma next_seg : In s S.
Proof using V Perm. exact (v_in _ _ _ _ V _ next_in). Qed.
Lemma next_rest : forall d, In d q <-> In d q0 /\ d <> (s, e).
Proof using V Perm.
  intros d. pose proof (Permutation_NoDup Perm (v_nodup _ _ _ _ V)) as ND. inversion ND as [|x l NI ND' Q]; subst. split.
  - intros H. split; [apply (Permutation_in _ (Permutation_sym Perm)); now right|]. intros ->. contradiction.
  - intros [H N]. apply (Permutation_in _ Perm) in H. destruct H as [H|H]; [congruence|exact H].
Qed.
Lemma next_nodup : NoDup q.
Proof using V Perm. pose proof (Permutation_NoDup Perm (v_nodup _ _ _ _ V)) as ND. now inversion ND. Qed.
Lemma next_segs : forall d, In d q -> In (fst d) S.
Proof using V Perm. intros d H. apply next_rest in H. now apply (v_in _ _ _ _ V). Qed.
Lemma next_order : forall d f, In (fst d) S -> ~ In d q -> In f q -> cmp_of d f <> Gt.
Proof using D Polys V Perm Min.
  intros d f Hd Nd Hf. apply next_rest in Hf. destruct Hf as [Hf _].
  destruct (in_or d q0 Hd (v_in _ _ _ _ V)) as [I|I]; [|now apply (v_order _ _ _ _ V)].
  destruct d as [a x]. cbn in Hd.
  assert (Q : (a, x) = (s, e)).
  { destruct (Nat.eq_dec (s_index a) (s_index s)) as [Q|Q].
    - apply (index_eq _ _ D) in Q; auto using next_seg. subst a.
      pose proof next_rest as NR. destruct x, e; try reflexivity; exfalso; apply Nd, NR; split; auto; discriminate.
    - exfalso. apply Nd, next_rest. split; auto. intros X. inversion X. congruence. }
  rewrite Q. now apply Min.
Qed.
End Next.

Lemma noted_same : forall a b o, same_ends (eg a) (eg b) = true -> noted a o -> noted b o.
Proof using.
  clear D Polys. intros a b o SE. apply same_ends_iff in SE as (S1 & S2).
  assert (H : forall i, RS (eg a) i = RS (eg b) i) by (intros i; now apply RS_same, same_ends_iff).
  destruct o as [j|]; cbn; [|intros N i; now rewrite <- H].
  intros (c & C1 & C2 & C3 & C4 & C5 & C6). exists c. split; [exact C1|]. split; [exact C2|]. split; [exact C3|]. split; [|split].
  - intros i. now rewrite C4.
  - now rewrite <- S1, <- S2.
  - unfold next_below, lower_at, under in *. now rewrite <- S1, <- S2.
Qed.

Lemma flat_vertical : forall c : bseg, In c S -> sloped (eg c) -> vertical c = false.
Proof using D.
  clear Polys. intros c Ic H. destruct (seg_spec _ _ D c Ic) as (Z & _). unfold vertical.
  destruct Z as (Z1 & Z2 & _ & (Z4 & Z4') & Z5 & Z5').
  assert (B : (2 ^ 24 < 2 ^ 53)%Z) by reflexivity.
  destruct (at_z_int _ _ Z1) as [P1 _]; [lia..|]. destruct (at_z_int _ _ Z2) as [P2 _]; [lia..|].
  rewrite (eq_int _ _ _ _ P1 P2). apply Z.eqb_neq. unfold sloped in H. lia.
Qed.

(** *** A segment ends *)
Lemma right_step : forall q0 q ks act sw s, inv q0 ks act sw -> Permutation q0 ((s, RightEnd) :: q) -> heap cmp_of q ->
  (forall b, In b q0 -> cmp_of (s, RightEnd) b <> Gt) ->
  exists act', sweep_right n (mk_sweep S ks q act sw) s = Ok (mk_sweep S ks q act' (sw ++ [s])) /\ inv q ks act' (sw ++ [s]).
Proof using D Polys.
  intros q0 q ks act sw s V Perm Heap Min.
  pose proof (next_in q0 q s RightEnd Perm) as Hin. pose proof (next_seg q0 q ks act sw s RightEnd V Perm) as Is.
  pose proof (next_rest q0 q ks act sw s RightEnd V Perm) as Rest.
  assert (NL : ~ In (s, LeftEnd) q0).
  { intros H. apply (ev_rl s s Is Is); [now apply Min|]. apply lex_gt. now apply (seg_spec _ _ D). }
  assert (Ha : In s act) by (apply (v_act _ _ _ _ V); auto).
  pose proof (lawful_list _ sc (fun x => In x S) (sc_anti _ _ D) (sc_eq _ _ D) sc_refl act segment_cmp (v_sorted _ _ _ _ V)
    (act_forall _ _ _ _ V) (sc_ok _ _ D)) as LW.
  destruct (@lawful_remove_neighbors (sseg unit) (fun x => In x act) segment_cmp sc act s LW) as (found & bl & ab & act' & E1 & F1 & F2 & F3 & F4 & F5 & F6);
    [apply Forall_forall; auto|apply (v_sorted _ _ _ _ V)|exact Ha|].
  assert (found = true) by (apply F3; exists s; split; [exact Ha|apply sc_refl]). subst found.
  exists act'. split.
  - unfold sweep_right. cbn [w_active w_segs w_packets w_queue w_swept]. rewrite E1. cbn [obind w_segs w_packets w_queue w_swept].
    destruct ab as [a|]; [|reflexivity]. destruct bl as [b|]; [|reflexivity].
    destruct F5 as (B1 & B2 & _), F6 as (A1 & A2 & _).
    assert (Ib : In b S) by (now apply (v_act _ _ _ _ V)). assert (Ia : In a S) by (now apply (v_act _ _ _ _ V)).
    assert (Csa : sc s a = Lt) by (rewrite (sc_anti _ _ D a s), A2 by auto; reflexivity).
    assert (Cba : sc b a = Lt) by (apply (sorted_trans _ sc (fun x => In x S) (sc_anti _ _ D) (sc_eq _ _ D) sc_refl act b s a);
      auto using (v_sorted _ _ _ _ V); now apply (act_forall _ _ _ _ V)).
    assert (SE : same_ends (eg b) (eg a) = false).
    { apply not_true_iff_false. intros SE. destruct (same_ends (eg b) (eg s)) eqn:SB.
      - assert (Pbs : (poly b < poly s)%nat).
        { rewrite (sc_same _ _ D b s) in B2; auto using sc_lt_neq. now apply Nat.compare_lt_iff. }
        assert (Psb : (poly s <= poly b)%nat); [|lia]. apply ev_rr; auto.
        + apply Min. now apply (v_act _ _ _ _ V).
        + now rewrite same_sym.
      - rewrite (sc_like _ _ D b a s) in B2; auto; [congruence|]. now apply (act_together _ _ _ _ _ _ V). }
    change (sseg unit) with bseg. destruct (handle_apart ks b a (eg b) (eg a)) as (m & -> & _).
    { now apply (seg_spec _ _ D). }
    { now apply (seg_spec _ _ D). }
    { now apply (pairs_apart _ _ D). }
    reflexivity.
  - assert (Keep : forall d, d <> (s, RightEnd) -> (In d q <-> In d q0)) by (intros d N; rewrite Rest; tauto).
    assert (KeepL : forall t, In (t, LeftEnd) q <-> In (t, LeftEnd) q0) by (intros t; apply Keep; discriminate).
    constructor.
    + apply (v_len _ _ _ _ V).
    + exact Heap.
    + apply (next_nodup q0 q ks act sw s RightEnd V Perm).
    + apply (next_segs q0 q ks act sw s RightEnd V Perm).
    + apply (next_order q0 q ks act sw s RightEnd V Perm Min).
    + intros t. rewrite F4, (v_act _ _ _ _ V), KeepL, Rest. split.
      * intros ((H1 & H2 & H3) & H4). repeat split; auto. intros X. inversion X; subst. apply H4, sc_refl.
      * intros (H1 & H2 & H3 & H4). repeat split; auto. intros X. apply (sc_eq _ _ D) in X; auto. subst. now apply H4.
    + exact F2.
    + intros t. rewrite in_app_iff, (v_swept _ _ _ _ V). cbn [In]. rewrite Rest. split.
      * intros [[H1 H2]|[<-|[]]]; [split; [exact H1|tauto]|]. split; [exact Is|]. intros [_ X]. now apply X.
      * intros [H1 H2]. destruct (in_or (t, RightEnd) q0 H1 (v_in _ _ _ _ V)) as [I|I]; [right; left|left; auto].
        destruct (Nat.eq_dec (s_index s) (s_index t)) as [Q|Q]; [now apply (index_eq _ _ D)|].
        exfalso. apply H2. split; [exact I|]. intros X. inversion X. congruence.
    + apply (Permutation_NoDup (Permutation_cons_append sw s)). constructor; [|apply (v_once _ _ _ _ V)].
      intros H. apply (v_swept _ _ _ _ V) in H. tauto.
    + intros t Ht Hq. apply (v_new _ _ _ _ V); auto. now apply KeepL.
    + intros t Ht Hq. rewrite KeepL in Hq. destruct (v_done _ _ _ _ V t Ht Hq) as (k & Hk & G1 & G2 & G3 & G4 & G5).
      exists k. split; [exact Hk|]. split; [exact G1|]. split; [exact G2|]. split; [exact G3|]. split; [|exact G5].
      rewrite G4. split; intros (u & U1 & U2 & U3); exists u; split; auto; split; auto; now rewrite KeepL in *.
Qed.

(** *** A segment starts *)
Section Left.
Variables (q0 q : list bend) (ks : list packet) (act sw : list bseg) (s : bseg).
Hypothesis (V : inv q0 ks act sw) (Perm : Permutation q0 ((s, LeftEnd) :: q)) (Heap : heap cmp_of q)
  (Min : forall b, In b q0 -> cmp_of (s, LeftEnd) b <> Gt).

Let Is : In s S := next_seg q0 q ks act sw s LeftEnd V Perm.
Let Rest := next_rest q0 q ks act sw s LeftEnd V Perm.
Let Hin : In (s, LeftEnd) q0 := next_in q0 q s LeftEnd Perm.

Lemma left_not_active : ~ In s act.
Proof using D Polys V Perm. intros H. apply (v_act _ _ _ _ V) in H. tauto. Qed.

(** What has been started and reaches beyond is active. *)
Lemma left_alive : forall a, In a S -> ~ In (a, LeftEnd) q0 -> lex_z (L s) (R a) = Lt -> In a act.
Proof using D Polys V Perm.
  intros a Ia Na H. apply (v_act _ _ _ _ V). split; [exact Ia|]. split; [exact Na|].
  destruct (in_or (a, RightEnd) q0 Ia (v_in _ _ _ _ V)) as [I|I]; [exact I|exfalso].
  apply (ev_rl a s Ia Is); [apply (v_order _ _ _ _ V); auto|]. now apply lex_gt.
Qed.

Lemma left_al : forall a, In a act -> alive E S (L s) a /\ a <> s
  /\ (L a = L s -> (0 <= orient (L s) (R a) (R s))%Z /\ (R a = R s -> (poly a < poly s)%nat)).
Proof using D Polys V Perm Min.
  intros a Ha. assert (Na : a <> s) by (intros ->; now apply left_not_active). apply (v_act _ _ _ _ V) in Ha. destruct Ha as (Ia & A1 & A2).
  assert (C1 : cmp_of (a, LeftEnd) (s, LeftEnd) <> Gt) by (apply (v_order _ _ _ _ V); auto).
  assert (C2 : cmp_of (s, LeftEnd) (a, RightEnd) <> Gt) by (now apply Min).
  apply ev_ll in C1; auto. apply ev_lr in C2; auto. split; [|split; [exact Na|]].
  - split; [exact Ia|]. split; [|exact C2]. destruct C1 as [C1|[C1 _]].
    + intros X. apply lex_gt in X. rewrite lex_anti in X. rewrite lex_anti in C1. destruct (lex_z (L s) (L a)); discriminate.
    + rewrite C1, lex_refl. discriminate.
  - intros Q. rewrite Q, lex_refl in C1. destruct C1 as [C1|[_ C1]]; [discriminate|].
    assert (O : orient (L s) (R a) (R s) = (- orient (L s) (R s) (R a))%Z) by (unfold orient; ring).
    split; [lia|]. intros QR. assert (SE : same_ends (eg a) (eg s) = true) by (apply same_ends_iff; auto).
    pose proof (pairs_same _ _ D a s Ia Is Na SE) as NP. destruct C1 as [C1|[_ C1]]; [|lia].
    rewrite QR in C1. unfold orient in C1. lia.
Qed.

Lemma left_full : forall a, In a S -> under (eg a) (eg s) = true -> In a act.
Proof using D Polys V Perm Min.
  intros a Ia U. destruct (under_alive _ _ D (L s) s (start_alive zs S D (L s) s Is eq_refl) eq_refl a Ia U) as ((_ & A1 & A2) & SE & C).
  apply left_alive; auto. intros H. pose proof (Min _ H) as M. apply ev_ll in M; auto. destruct M as [M|[M1 M2]]; [contradiction|].
  rewrite (sc_apart _ _ D a s) in C; auto.
  - rewrite M1, lex_refl in C. destruct (Z.ltb_spec 0 (orient (L a) (R a) (R s))) as [O|O]; [lia|discriminate].
  - apply (alive_together E S (L s)); [now split|]. apply (start_alive zs S D); auto.
Qed.

Lemma left_same : forall a, In a S -> same_ends (eg a) (eg s) = true -> (poly a < poly s)%nat -> In a act.
Proof using D Polys V Perm Min.
  intros a Ia SE P. pose proof SE as SE'. apply same_ends_iff in SE'. destruct SE' as [S1 S2]. apply left_alive; auto.
  - intros H. pose proof (Min _ H) as M. apply ev_ll in M; auto. rewrite S1, lex_refl in M. destruct M as [M|[_ M]]; [discriminate|].
    rewrite S2 in M. replace (orient (L s) (R s) (R s)) with 0%Z in M by (unfold orient; ring). lia.
  - rewrite S2. now apply (seg_spec _ _ D).
Qed.

Let Facing := facing zs S D (L s) s act Is eq_refl left_al left_full left_same (v_sorted _ _ _ _ V).
Let Lower := same_lower zs S D (L s) s act Is eq_refl left_al.

(** No later polygon along [s] has been started. *)
Lemma left_top : forall t, In t S -> ~ In (t, LeftEnd) q0 -> same_ends (eg t) (eg s) = true -> (poly t < poly s)%nat.
Proof using D Polys V Perm Min.
  intros t It Nt SE. apply Lower; auto. apply left_alive; auto. apply same_ends_iff in SE. destruct SE as [_ ->]. now apply (seg_spec _ _ D).
Qed.

Lemma left_keep : forall d, d <> (s, LeftEnd) -> (In d q <-> In d q0).
Proof using V Perm. intros d N. rewrite Rest. tauto. Qed.
Lemma left_neq : forall t x, t <> s -> (t, x) <> (s, LeftEnd) :> bend.
Proof using. intros t x N Q. inversion Q. congruence. Qed.
Lemma left_gone : ~ In (s, LeftEnd) q.
Proof using V Perm. rewrite Rest. tauto. Qed.
Lemma seg_dec : forall t, In t S -> t = s \/ t <> s.
Proof using D Polys V Perm.
  intros t It. destruct (Nat.eq_dec (s_index t) (s_index s)) as [Q|Q]; [left; now apply (index_eq _ _ D)|right; congruence].
Qed.

(** The rest of the invariant. *)
Lemma left_inv : forall ks' act', length ks' = length S -> strictly_sorted sc act' -> (forall y, In y act' <-> y = s \/ In y act) ->
  (forall t, In t S -> In (t, LeftEnd) q -> nth_error ks' (s_index t) = nth_error ks (s_index t)) ->
  (forall t, In t S -> ~ In (t, LeftEnd) q -> exists k, nth_error ks' (s_index t) = Some k /\ good q t k) -> inv q ks' act' sw.
Proof using D Polys V Perm Heap Min.
  intros ks' act' H1 H2 H3 H4 H5. constructor; auto.
  - apply (next_nodup q0 q ks act sw s LeftEnd V Perm).
  - apply (next_segs q0 q ks act sw s LeftEnd V Perm).
  - apply (next_order q0 q ks act sw s LeftEnd V Perm Min).
  - intros t. rewrite H3, (v_act _ _ _ _ V). split.
    + intros [->|(I1 & I2 & I3)].
      * split; [exact Is|]. split; [apply left_gone|]. apply Rest. split; [now apply (ends_later _ _ _ _ _ V)|discriminate].
      * split; [exact I1|]. rewrite !Rest. split; [tauto|]. split; [exact I3|discriminate].
    + intros (I1 & I2 & I3). destruct (seg_dec t I1) as [->|N]; [now left|right]. rewrite left_keep in I2, I3 by now apply left_neq. auto.
  - intros t. rewrite (v_swept _ _ _ _ V), (left_keep (t, RightEnd)) by discriminate. tauto.
  - apply (v_once _ _ _ _ V).
  - intros t It Hq. rewrite H4 by assumption. apply (v_new _ _ _ _ V); auto. now apply Rest.
Qed.

(** Packets that are left alone stay good. *)
Lemma left_good : forall t k, In t S -> t <> s -> good q0 t k ->
  (same_ends (eg t) (eg s) = true -> (poly t < poly s)%nat -> is_non_contributing (k_edge k) = true) -> good q t k.
Proof using D Polys V Perm.
  intros t k It N (G1 & G2 & G3 & G4 & G5) H. split; [exact G1|]. split; [exact G2|]. split; [exact G3|]. split; [|exact G5].
  split.
  - intros NC. apply G4 in NC. destruct NC as (u & U1 & U2 & U3). exists u. split; [exact U1|]. split; [|exact U3]. rewrite Rest. tauto.
  - intros (u & U1 & U2 & U3 & U4). destruct (seg_dec u U1) as [->|Nu].
    + apply H; [now rewrite same_sym|exact U4].
    + apply G4. exists u. rewrite left_keep in U2 by now apply left_neq. auto.
Qed.

Lemma left_line : exists (bl ab : option bseg) (act' : list bseg), sl_insert_neighbors segment_cmp act s = Ok (bl, ab, act') /\ strictly_sorted sc act'
  /\ (forall y, In y act' <-> y = s \/ In y act) /\ predecessor sc (s :: act) s bl
  /\ forall ks1, exists m, handle_intersections ks1 (Some s) ab = Ok (m, None, None, ks1) /\ (m =? 2)%nat = false.
Proof using D Polys V Perm Min.
  pose proof (start_lawful zs S D (L s) s act Is eq_refl left_al (v_sorted _ _ _ _ V)) as LW.
  destruct (lawful_insert_neighbors (fun x => x = s \/ In x act) segment_cmp sc act s LW) as (bl & ab & act' & E1 & F1 & F2 & F3 & F4 & F5);
    [apply Forall_forall; auto|apply (v_sorted _ _ _ _ V)|now left|].
  exists bl, ab, act'. split; [exact E1|]. split; [exact F2|]. split; [|split].
  - intros y. rewrite F3. split; [tauto|]. intros [->|H]; [right|now left]. split; [reflexivity|]. intros (z & Hz & C).
    apply (sc_eq _ _ D) in C; [subst; now apply left_not_active|now apply (v_act _ _ _ _ V)|exact Is].
  - destruct bl as [b|]; cbn in F4 |- *.
    + destruct F4 as (B1 & B2 & B3). split; [now right|]. split; [exact B2|]. intros y [<-|Hy] C; [|auto]. rewrite sc_refl in C. discriminate.
    + intros y [<-|Hy]; [rewrite sc_refl; discriminate|auto].
  - intros ks1. destruct ab as [a|]; [|exists 0%nat; split; reflexivity]. destruct F5 as (A1 & A2 & _).
    assert (Ia : In a S) by (now apply (v_act _ _ _ _ V)).
    apply (handle_apart ks1 s a (eg s) (eg a)); [now apply (seg_spec _ _ D)..|]. apply (pairs_apart _ _ D); auto.
    apply not_true_iff_false. intros SE. rewrite same_sym in SE. destruct (Lower a A1 SE) as [_ C]. congruence.
Qed.

Let k0 := packet_new (poly s) (mode_at (poly s)) n.
Lemma left_new : nth_error ks (s_index s) = Some k0 /\ length (k_left k0) = n /\ length (k_right k0) = n /\ (k_polygon k0 < n)%nat.
Proof using D Polys V Perm.
  split; [now apply (v_new _ _ _ _ V)|]. cbn. rewrite repeat_length. auto.
Qed.

Lemma left_finish : forall act' k1, strictly_sorted sc act' -> (forall y, In y act' <-> y = s \/ In y act) -> good q s k1 ->
  (forall t, In t S -> same_ends (eg t) (eg s) = true -> (poly t < poly s)%nat -> False) -> inv q (put_packet ks s k1) act' sw.
Proof using D Polys V Perm Heap Min.
  intros act' k1 H1 H2 G NS. assert (LN : (s_index s < length ks)%nat) by (apply nth_error_Some; rewrite (proj1 left_new); discriminate).
  apply left_inv; auto.
  - unfold put_packet. rewrite set_nth_length by exact LN. apply (v_len _ _ _ _ V).
  - intros t It Hq. apply nth_set_other; [exact LN|]. intros Q. apply left_gone. apply (index_eq _ _ D) in Q; auto. now subst.
  - intros t It Hq. destruct (seg_dec t It) as [->|N].
    + exists k1. split; [now apply nth_set_same|exact G].
    + rewrite left_keep in Hq by now apply left_neq. destruct (v_done _ _ _ _ V t It Hq) as (k & Hk & Gk). exists k. split.
      * unfold put_packet. rewrite nth_set_other; [exact Hk|exact LN|]. intros Q. apply N, (index_eq _ _ D); auto.
      * apply left_good; auto. intros SE P. exfalso. eauto.
Qed.

Lemma left_good_new : forall k1, k_polygon k1 = poly s -> k_mode k1 = mode_at (poly s) -> is_non_contributing (k_edge k1) = false ->
  faced n k1 (LS (eg s)) (RS (eg s)) -> k_in_result k1 = is_in_result k1 -> noted s (k_below k1) -> fresh k1 -> good q s k1.
Proof using D Polys V Perm Min.
  intros k1 H1 H2 H3 H4 H5 H6 H7. split; [exact H1|]. split; [exact H2|]. split; [exact H4|]. split; [|auto]. split; [congruence|].
  intros (t & T1 & T2 & T3 & T4). exfalso. destruct (seg_dec t T1) as [->|N]; [lia|]. rewrite left_keep in T2 by now apply left_neq.
  pose proof (left_top t T1 T2 T3). lia.
Qed.

Lemma faced_ext : forall m k f g f' g', faced m k f g -> (forall i, f i = f' i) -> (forall i, g i = g' i) -> faced m k f' g'.
Proof using.
  intros m k f g f' g' (H1 & H2 & H3) Hf Hg. split; [rewrite H1; now apply bits_ext|]. split; [rewrite H2; now apply bits_ext|].
  now rewrite H3, Hf.
Qed.

Lemma active_done : forall b, In b act -> exists k, nth_error ks (s_index b) = Some k /\ good q0 b k.
Proof using D Polys V. intros b Hb. apply (v_act _ _ _ _ V) in Hb. apply (v_done _ _ _ _ V); tauto. Qed.

Lemma good_lengths : forall q' b k, In b S -> good q' b k -> length (k_left k) = n /\ length (k_right k) = n /\ (k_polygon k < n)%nat.
Proof using D Polys. intros q' b k Ib (G1 & _ & (G3 & G4 & _) & _). rewrite G1, G3, G4, !bits_length. auto. Qed.

(** What lies below a new segment is not upright. *)
Lemma left_flat : forall c t, In c act -> t = s \/ In t act -> same_ends (eg t) (eg s) = true -> same_ends (eg c) (eg t) = false -> sc c t = Lt ->
  sloped (eg c) /\ (lex_z (L c) (L t) = Lt \/ (L c = L t /\ (0 < orient (L t) (R c) (R t))%Z)).
Proof using D Polys V Perm Min.
  intros c t Hc Ht SE SC C. pose proof (left_al c Hc) as (Ac & _ & _). destruct Ac as (Ic & A1 & A2).
  assert (It : In t S) by (destruct Ht as [->|Ht]; [exact Is|now apply (v_act _ _ _ _ V)]).
  assert (Lt' : L t = L s) by (now apply same_ends_iff in SE).
  destruct (seg_spec _ _ D c Ic) as (_ & _ & Lc & _). destruct (seg_spec _ _ D t It) as (_ & _ & LRt & _).
  rewrite (sc_apart _ _ D c t Ic It SC) in C.
  2:{ split; [|rewrite Lt'; exact A2]. apply (lex_le_trans _ (L s)); [exact A1|]. rewrite <- Lt'. exact LRt. }
  rewrite <- Lt' in A1, A2. clear Lt'. split.
  - unfold lr in Lc. unfold sloped. destruct (Z.lt_ge_cases (fst (L c)) (fst (R c))) as [X|X]; [exact X|exfalso].
    apply lex_lt in Lc. assert (X' : fst (L c) = fst (R c)) by lia.
    assert (B : fst (L t) = fst (L c)).
    { apply lex_lt in A2. assert (A1' : ~ (fst (L t) < fst (L c))%Z) by (intros Y; apply A1, lex_lt; now left). lia. }
    assert (O : on (eg c) (inject_Z (fst (L t))) (inject_Z (snd (L t)))).
    { apply on_line; auto.
      - now apply lex_lt.
      - unfold orient. rewrite B, X'. ring.
      - intros Y. rewrite lex_anti, A2 in Y. discriminate. }
    destruct (apart_end (eg c) (eg t) _ _ (pairs_apart _ _ D c t Ic It SC) O (on_left _)) as (v & V1 & V2 & Y1 & Y2).
    assert (Q : L t = v) by (apply point_ext; [exact Y1|exact Y2]). subst v.
    destruct V1 as [V1|V1]; [|rewrite V1, lex_refl in A2; discriminate]. rewrite V1, lex_refl in C.
    destruct (Z.ltb_spec 0 (orient (L c) (R c) (R t))) as [Z|Z]; [|discriminate].
    unfold lr in LRt. rewrite V1 in LRt. apply lex_lt in LRt. unfold orient in Z. rewrite <- X' in Z. nia.
  - destruct (lex_z (L c) (L t)) eqn:Q; [right|now left|exfalso].
    + apply lex_eq in Q. split; [exact Q|]. rewrite <- Q. destruct (Z.ltb_spec 0 (orient (L c) (R c) (R t))) as [Z|Z]; [exact Z|discriminate].
    + apply A1. rewrite lex_anti, Q. reflexivity.
Qed.

Lemma left_step : exists ks' act', sweep_left n (mk_sweep S ks q act sw) s = Ok (mk_sweep S ks' q act' sw) /\ inv q ks' act' sw.
Proof using D Polys V Perm Heap Min.
  destruct left_line as (bl & ab & act' & E1 & F2 & F3 & Pr & HB).
  destruct left_new as (K0 & K1 & K2 & K3).
  assert (LN : (s_index s < length ks)%nat) by (apply nth_error_Some; rewrite K0; discriminate).
  unfold sweep_left. cbn [w_active w_segs w_packets w_queue w_swept].
  replace (sl_insert_neighbors segment_cmp act s) with (Ok (bl, ab, act')) by (symmetry; exact E1).
  cbn [obind w_segs w_packets w_queue w_swept].
  pose proof (Facing s bl (or_introl eq_refl)) as Fs. unfold same_ends in Fs at 1. rewrite !lex_refl in Fs. specialize (Fs eq_refl Pr).
  destruct bl as [b|].
  - assert (Hb : In b act).
    { destruct Pr as ([<-|Hb] & C & _); [rewrite sc_refl in C; discriminate|exact Hb]. }
    assert (Ib : In b S) by (now apply (v_act _ _ _ _ V)).
    assert (Nbs : b <> s) by (intros ->; now apply left_not_active).
    assert (Nix : s_index b <> s_index s) by (intros Q; apply Nbs; now apply (index_eq _ _ D)).
    destruct (active_done b Hb) as (kb & Kb & Gb). pose proof Gb as (Gb1 & Gb2 & Gb3 & Gb4 & Gb5 & Gb6 & Gb7).
    destruct (update_some n ks s k0 K0 K1 K2 K3 b kb _ _ Kb Nix Gb3) as (k1 & U1 & (Q1 & Q2 & Q3) & U2 & U3 & U4' & U5').
    rewrite U1. cbn [obind]. destruct (HB (put_packet ks s k1)) as (m & HB1 & HB2). rewrite HB1. cbn [obind maybe_split maybe_split_opt with_packets].
    rewrite HB2. cbn [obind w_packets with_packets w_segs w_queue w_active w_swept]. destruct Fs as (FR & FL & FS & FN). destruct (same_ends (eg b) (eg s)) eqn:SE.
    + (* along [b] *)
      assert (Kb' : nth_error (put_packet ks s k1) (s_index b) = Some kb) by (unfold put_packet; rewrite nth_set_other; auto).
      assert (Ks' : nth_error (put_packet ks s k1) (s_index s) = Some k1) by (now apply nth_set_same).
      assert (NP : k_polygon kb <> k_polygon k1).
      { rewrite Gb1, Q1. cbn. now apply (pairs_same _ _ D). }
      destruct (handle_coincide (put_packet ks s k1) b s (eg b) (eg s) kb k1) as (ks2 & ty & H2 & L2 & T2 & B2 & S2 & O2); auto;
        [now apply (seg_spec _ _ D)..|rewrite Q3; reflexivity|].
      rewrite H2. cbn [obind maybe_split maybe_split_opt with_packets w_packets w_active w_segs w_queue w_swept unwrap Nat.eqb].
      assert (LK : length ks2 = length ks) by (rewrite L2; unfold put_packet; now rewrite set_nth_length).
      (* below [b] *)
      assert (FA : Forall (fun x => In x S) act').
      { apply Forall_forall. intros y Hy. apply F3 in Hy. destruct Hy as [->|Hy]; [exact Is|now apply (v_act _ _ _ _ V)]. }
      pose proof (lawful_list _ sc (fun x => In x S) (sc_anti _ _ D) (sc_eq _ _ D) sc_refl act' segment_cmp F2 FA (sc_ok _ _ D)) as LW.
      assert (Hb' : In b act') by (apply F3; now right).
      destruct (lawful_previous (fun x => In x act') segment_cmp sc act' b LW) as (pv & P1 & P2 & _);
        [apply Forall_forall; auto|exact F2|exact Hb'|].
      specialize (P2 (ex_intro _ b (conj Hb' (sc_refl b)))).
      replace (sl_previous segment_cmp act' b) with (Ok pv) by (symmetry; exact P1). cbn [obind].
      assert (Pp : predecessor sc (s :: act) b pv).
      { destruct pv as [c|]; cbn in P2 |- *.
        - destruct P2 as (C1 & C2 & C3). apply F3 in C1. split; [destruct C1 as [->|C1]; auto|]. split; [exact C2|].
          intros y Hy. apply C3, F3. destruct Hy as [<-|Hy]; auto.
        - intros y Hy. apply P2, F3. destruct Hy as [<-|Hy]; auto. }
      pose proof (Facing b pv (or_intror Hb) SE Pp) as Fb.
      destruct (good_lengths _ b kb Ib Gb) as (Lb1 & Lb2 & Lb3).
      assert (UB : exists k3, update_polygon_facing ks2 b pv = Ok (put_packet ks2 b k3) /\ same_kind (with_edge kb ENonContributing) k3
        /\ faced n k3 (LS (eg b)) (RS (eg b)) /\ k_in_result k3 = is_in_result k3 /\ noted b (k_below k3) /\ fresh k3).
      { destruct pv as [c|].
        - destruct Pp as (C1 & C2 & _).
          assert (Ncs : c <> s).
          { intros ->. destruct (Lower b Hb SE) as [_ C]. rewrite (sc_anti _ _ D b s), C in C2 by auto. discriminate. }
          assert (Hc : In c act) by (destruct C1 as [<-|C1]; [now contradict Ncs|exact C1]).
          assert (Ic : In c S) by (now apply (v_act _ _ _ _ V)). pose proof (sc_lt_neq c b C2) as Ncb.
          destruct (active_done c Hc) as (kc & Kc & Gc). pose proof Gc as (Gc1 & Gc2 & Gc3 & Gc4 & Gc5 & Gc6 & Gc7).
          assert (Kc' : nth_error ks2 (s_index c) = Some kc).
          { rewrite O2; [|intros Q; apply Ncb; now apply (index_eq _ _ D)|intros Q; apply Ncs; now apply (index_eq _ _ D)].
            unfold put_packet. rewrite nth_set_other; [exact Kc|exact LN|]. intros Q. apply Ncs. now apply (index_eq _ _ D). }
          destruct (update_some n ks2 b _ B2 Lb1 Lb2 Lb3 c kc (LS (eg c)) (RS (eg c)) Kc') as (k3 & X1 & X2 & X3 & X4 & X5 & X6); [|exact Gc3|].
          { intros Q. apply Ncb. now apply (index_eq _ _ D). }
          exists k3. split; [exact X1|]. split; [exact X2|]. destruct Fb as (Fb1 & Fb2 & Fb3 & Fb4).
          split; [|split; [exact X4|split; [|exact (X6 Gb7)]]]; cycle 1.
          { rewrite X5. destruct (same_ends (eg c) (eg b)) eqn:SC.
            - replace (is_non_contributing (k_edge kc)) with true; [rewrite orb_true_r; now apply (noted_same c)|].
              symmetry. apply Gc4. exists b.
              split; [exact Ib|]. split; [now apply (v_act _ _ _ _ V) in Hb|]. split; [now rewrite same_sym|].
              rewrite (sc_same _ _ D c b) in C2 by auto. now apply Nat.compare_lt_iff.
            - destruct (left_flat c b Hc (or_intror Hb) SE SC C2) as [FL1 FL2]. rewrite (flat_vertical c Ic FL1). cbn [orb].
              replace (is_non_contributing (k_edge kc)) with false.
              + exists c. split; [exact Ic|]. split; [reflexivity|]. split; [exact (Fb3 eq_refl)|]. split; [|split; [exact FL2|exact (Fb4 eq_refl)]]. intros i. now rewrite Fb1.
              + symmetry. apply not_true_iff_false. rewrite Gc4. intros (u & U4 & _ & U5 & U6). specialize (Fb3 eq_refl u U4 U5). lia. }
          apply (faced_ext _ _ _ _ _ _ X3).
          + intros i. rewrite Fb2. cbn [with_edge k_polygon]. now rewrite Gb1.
          + intros i. rewrite Fb1. destruct (same_ends (eg c) (eg b)) eqn:SC.
            * replace (is_non_contributing (k_edge kc)) with true; [reflexivity|]. symmetry. apply Gc4. exists b.
              split; [exact Ib|]. split; [now apply (v_act _ _ _ _ V) in Hb|]. split; [now rewrite same_sym|].
              rewrite (sc_same _ _ D c b) in C2 by auto. now apply Nat.compare_lt_iff.
            * replace (is_non_contributing (k_edge kc)) with false; [reflexivity|]. symmetry. apply not_true_iff_false.
              rewrite Gc4. intros (u & U4 & _ & U5 & U6). specialize (Fb3 eq_refl u U4 U5). lia.
        - destruct (update_none n ks2 b _ B2 Lb1 Lb2 Lb3) as (k3 & X1 & X2 & X3 & X4 & X5 & X6).
          exists k3. split; [exact X1|]. split; [exact X2|]. split; [|split; [exact X4|split; [rewrite X5; exact Gb6|exact (X6 Gb7)]]]. destruct Fb as (Fb1 & Fb2).
          apply (faced_ext _ _ _ _ _ _ X3).
          + intros i. rewrite Fb2. cbn [with_edge k_polygon]. now rewrite Gb1.
          + intros i. now rewrite Fb1. }
      destruct UB as (k3 & X1 & (Y1 & Y2 & Y3) & X3 & X4 & X5 & X6). change (sseg unit) with bseg in X1 |- *. rewrite X1. cbn [obind].
      assert (LB2 : (s_index b < length ks2)%nat) by (apply nth_error_Some; rewrite B2; discriminate).
      assert (S3 : nth_error (put_packet ks2 b k3) (s_index s) = Some (with_edge k1 ty)) by (unfold put_packet; rewrite nth_set_other; auto).
      assert (B3 : nth_error (put_packet ks2 b k3) (s_index b) = Some k3) by (now apply nth_set_same).
      assert (LS3 : (s_index s < length (put_packet ks2 b k3))%nat) by (apply nth_error_Some; rewrite S3; discriminate).
      destruct U2 as (U21 & U22 & U23).
      destruct (update_some n (put_packet ks2 b k3) s (with_edge k1 ty) S3) with (b := b) (bk := k3) (f := LS (eg b)) (g := RS (eg b))
        as (k4 & Z1 & (W1 & W2 & W3) & Z3 & Z4 & Z5 & Z6); auto.
      { cbn. now rewrite U21, bits_length. }
      { cbn. now rewrite U22, bits_length. }
      { cbn. rewrite Q1. exact K3. }
      change (sseg unit) with bseg in Z1 |- *. rewrite Z1. cbn [obind with_packets w_segs w_queue w_active w_swept].
      exists (put_packet (put_packet ks2 b k3) s k4), act'. split; [reflexivity|].
      assert (G4 : good q s k4).
      { apply left_good_new.
        - rewrite W1. exact Q1.
        - rewrite W2. exact Q2.
        - rewrite W3. exact T2.
        - apply (faced_ext _ _ _ _ _ _ Z3).
          + intros i. rewrite FL. cbn [with_edge k_polygon]. now rewrite Q1.
          + intros i. rewrite FR, Y3. reflexivity.
        - exact Z4.
        - rewrite Z5, Y3. cbn [with_edge k_edge is_non_contributing]. rewrite orb_true_r. now apply (noted_same b).
        - apply Z6. exact (U5' (conj eq_refl (conj eq_refl (conj eq_refl eq_refl)))). }
      assert (G3 : good q b k3).
      { split; [rewrite Y1; exact Gb1|]. split; [rewrite Y2; exact Gb2|]. split; [exact X3|]. split; [|auto].
        rewrite Y3. cbn. split; [intros _|reflexivity]. exists s. split; [exact Is|]. split; [apply left_gone|].
        split; [now rewrite same_sym|]. now apply Lower. }
      assert (Other : forall t, In t S -> t <> s -> t <> b ->
        nth_error (put_packet (put_packet ks2 b k3) s k4) (s_index t) = nth_error ks (s_index t)).
      { intros t It N1 N2.
        assert (M1 : s_index s <> s_index t) by (intros Q; apply N1; symmetry; now apply (index_eq _ _ D)).
        assert (M2 : s_index b <> s_index t) by (intros Q; apply N2; symmetry; now apply (index_eq _ _ D)).
        unfold put_packet at 1. rewrite nth_set_other by auto. unfold put_packet. rewrite nth_set_other by auto.
        rewrite O2 by auto. unfold put_packet. now rewrite nth_set_other by auto. }
      apply left_inv; auto.
      * unfold put_packet at 1. rewrite set_nth_length by exact LS3. unfold put_packet. rewrite set_nth_length by exact LB2.
        rewrite LK. apply (v_len _ _ _ _ V).
      * intros t It Hq. apply Other; auto.
        -- intros ->. now apply left_gone.
        -- intros ->. apply Rest in Hq. apply (v_act _ _ _ _ V) in Hb. tauto.
      * intros t It Hq. destruct (seg_dec t It) as [->|N1]; [exists k4; split; [now apply nth_set_same|exact G4]|].
        destruct (Nat.eq_dec (s_index t) (s_index b)) as [Q|Q].
        -- apply (index_eq _ _ D) in Q; auto. subst t. exists k3. split; [|exact G3].
           unfold put_packet at 1. rewrite nth_set_other by auto. exact B3.
        -- rewrite left_keep in Hq by now apply left_neq. destruct (v_done _ _ _ _ V t It Hq) as (k & Hk & Gk). exists k.
           assert (N2 : t <> b) by congruence. split; [now rewrite Other|]. apply left_good; auto. intros SEt Pt.
           pose proof Gk as (_ & _ & _ & Gk4 & _). apply Gk4. exists b. split; [exact Ib|]. split; [now apply (v_act _ _ _ _ V) in Hb|].
           assert (SEb : same_ends (eg t) (eg b) = true).
           { rewrite (same_trans _ _ (eg b) SEt), same_sym. exact SE. }
           split; [now rewrite same_sym|]. pose proof (pairs_same _ _ D t b It Ib N2 SEb) as NPt.
           assert (Ht : In t act) by (now apply left_same). destruct (Lower t Ht SEt) as [_ Ct].
           destruct Pr as (_ & _ & Max). assert (M : sc t b <> Gt) by (apply Max; [now right|exact Ct]).
           rewrite (sc_same _ _ D t b) in M by auto. destruct (Nat.compare_spec (poly t) (poly b)); [contradiction|assumption|congruence].
    + (* apart from [b] *)
      destruct (handle_apart (put_packet ks s k1) b s (eg b) (eg s)) as (m2 & HC1 & HC2);
        [now apply (seg_spec _ _ D)..|now apply (pairs_apart _ _ D)|].
      rewrite HC1. cbn [obind maybe_split maybe_split_opt with_packets w_segs w_queue w_active w_swept]. rewrite HC2. exists (put_packet ks s k1), act'. split; [reflexivity|].
      apply left_finish; auto.
      * assert (NCb : is_non_contributing (k_edge kb) = false).
        { apply not_true_iff_false. rewrite Gb4. intros (u & U4 & _ & U5 & U6). specialize (FS eq_refl u U4 U5). lia. }
        apply left_good_new; [exact Q1|exact Q2|rewrite Q3; reflexivity| |exact U3| |exact (U5' (conj eq_refl (conj eq_refl (conj eq_refl eq_refl))))].
        2:{ assert (SS : same_ends (eg s) (eg s) = true) by (unfold same_ends; now rewrite !lex_refl).
            assert (Cb : sc b s = Lt) by apply Pr.
            destruct (left_flat b s Hb (or_introl eq_refl) SS SE Cb) as [FL1 FL2]. rewrite U4', (flat_vertical b Ib FL1), NCb. cbn [orb].
            exists b. split; [exact Ib|]. split; [reflexivity|]. split; [exact (FS eq_refl)|]. split; [|split; [exact FL2|exact (FN eq_refl)]]. intros i. now rewrite FR. }
        apply (faced_ext _ _ _ _ _ _ U2).
        -- intros i. rewrite FL. reflexivity.
        -- intros i. rewrite FR, NCb. reflexivity.
      * intros t It SEt Pt. assert (Ht : In t act) by (now apply left_same). destruct (Lower t Ht SEt) as [_ Ct].
        destruct Pr as (_ & Cb & Max). assert (M : sc t b <> Gt) by (apply Max; [now right|exact Ct]). apply M.
        pose proof (left_al t Ht) as (At & _ & _). pose proof (left_al b Hb) as (Ab & _ & _).
        rewrite (sc_like _ _ D t s b); auto.
        -- rewrite (sc_anti _ _ D b s), Cb by auto. reflexivity.
        -- rewrite (same_trans _ _ (eg b) SEt), same_sym. exact SE.
        -- now apply (alive_together E S (L s)).
  - destruct (update_none n ks s k0 K0 K1 K2 K3) as (k1 & U1 & (Q1 & Q2 & Q3) & U2 & U3 & U4' & U5').
    rewrite U1. cbn [obind]. destruct (HB (put_packet ks s k1)) as (m & HB1 & HB2). rewrite HB1. cbn [obind maybe_split maybe_split_opt with_packets].
    rewrite HB2. cbn [obind w_packets handle_intersections maybe_split maybe_split_opt with_packets w_segs w_queue w_active w_swept Nat.eqb].
    exists (put_packet ks s k1), act'. split; [reflexivity|]. destruct Fs as [FR FL].
    apply left_finish; auto.
    + apply left_good_new; [exact Q1|exact Q2|rewrite Q3; reflexivity| |exact U3| |exact (U5' (conj eq_refl (conj eq_refl (conj eq_refl eq_refl))))].
      * apply (faced_ext _ _ _ _ _ _ U2); intros i; [now rewrite FL|now rewrite FR].
      * rewrite U4'. exact FR.
    + intros t It SEt Pt. assert (Ht : In t act) by (now apply left_same). destruct (Lower t Ht SEt) as [_ Ct].
      apply (Pr t); [now right|exact Ct].
Qed.
End Left.

(** *** The whole sweep *)

Lemma sweep_ok : forall fuel q ks act sw, inv q ks act sw -> (length q <= fuel)%nat ->
  exists ks' act' sw', sweep_loop fuel n (mk_sweep S ks q act sw) = Ok (mk_sweep S ks' [] act' sw') /\ inv [] ks' act' sw'.
Proof using D Polys.
  destruct (endpoint_lawful unit) as (H1 & H2 & H3).
  induction fuel as [|fuel IH]; intros q ks act sw V LE.
  - destruct q as [|x q]; [|cbn in LE; lia]. exists ks, act, sw. split; [reflexivity|exact V].
  - assert (HP : Forall int_event q).
    { apply Forall_forall. intros e He. apply (v_in _ _ _ _ V) in He. eexists _, _. now apply (seg_spec _ _ D). }
    pose proof (pop_spec int_event endpoint_cmp cmp_of H1 H2 H3 q HP (v_heap _ _ _ _ V)) as Po. cbn [sweep_loop w_queue].
    destruct q as [|x q].
    + replace (heap_pop endpoint_cmp []) with (@Ok (option (bend * list bend)) None) by (symmetry; exact Po). exists ks, act, sw. split; [reflexivity|exact V].
    + destruct Po as ([s e] & q' & Po & HH & Pm & Min).
      replace (heap_pop endpoint_cmp (x :: q)) with (@Ok (option (bend * list bend)) (Some (s, e, q'))) by (symmetry; exact Po).
      cbn [obind w_segs w_packets w_active w_swept].
      assert (LE' : (length q' <= fuel)%nat).
      { apply Permutation_length in Pm. apply le_S_n. etransitivity; [|exact LE]. apply Nat.eq_le_incl. symmetry. exact Pm. }
      destruct e.
      * destruct (left_step _ _ _ _ _ _ V Pm HH Min) as (ks' & act' & -> & V'). cbn [obind]. apply IH; auto.
      * destruct (right_step _ _ _ _ _ _ V Pm HH Min) as (act' & -> & V'). cbn [obind]. apply IH; auto.
Qed.
End Sweep.
