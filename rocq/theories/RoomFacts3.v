(** Overlaying the sectors of a well drawn map, put together. *)

From Coq Require Import List ZArith QArith Bool Lia Permutation.
From Coq Require Import ZifyBool ZifyNat.
From Verif Require Import Base Float MapModel SectorPolys Contours Compute SpecMapModel SpecSector SpecShape SpecOrder SpecIntersect SpecHandle SpecTurn SpecTidy SpecOverlay SpecCompute
  TurnFacts5 NestGeo MapSectorFacts OverlayFacts SpecRooms RoomFacts RoomFacts2.
Import ListNotations.
Local Open Scope Z_scope.

Lemma pick_all : forall {A} (Q : nat -> A -> Prop) n j, (forall i, (j <= i < j + n)%nat -> exists x, Q i x) -> exists xs, Forall2 Q (seq j n) xs.
Proof.
  intros A Q n. induction n as [|n IH]; intros j H; cbn [seq]; [exists []; constructor|].
  destruct (H j ltac:(lia)) as (x & X). destruct (IH (S j)) as (xs & XS); [intros i L; apply H; lia|]. exists (x :: xs). now constructor.
Qed.

Lemma Forall2_seq : forall {A} (Q : nat -> A -> Prop) n j xs, Forall2 Q (seq j n) xs ->
  length xs = n /\ forall i x, nth_error xs i = Some x -> Q (j + i)%nat x.
Proof.
  intros A Q n. induction n as [|n IH]; intros j xs F; cbn [seq] in F; inversion F as [|? x ? xs' X F']; subst.
  - split; [reflexivity|]. intros [|i] x E; discriminate E.
  - destruct (IH _ _ F') as (L & H). split; [cbn [length]; congruence|]. intros [|i] y E.
    + injection E as <-. now rewrite Nat.add_0_r.
    + rewrite Nat.add_succ_r. exact (H i y E).
Qed.

Lemma pairs_flat : forall {A B} (f : A -> list B) (R : B -> B -> Prop) K, NoDup K -> (forall a, In a K -> exists e, f a = [e]) ->
  (forall a b e g, In a K -> In b K -> a <> b -> In e (f a) -> In g (f b) -> R e g) -> ForallOrdPairs R (flat_map f K).
Proof.
  intros A B f R K N. induction N as [|a K NI N IH]; intros S H; cbn [flat_map]; [constructor|].
  destruct (S a (or_introl eq_refl)) as (e & E). rewrite E. cbn [app]. constructor.
  - apply Forall_forall. intros g I. apply in_flat_map in I. destruct I as (b & Ib & I).
    apply (H a b); [left; reflexivity|right; exact Ib|congruence|rewrite E; left; reflexivity|exact I].
  - apply IH; [intros b Ib; apply S; right; exact Ib|]. intros b c e' g Ib Ic D. apply H; [right; exact Ib|right; exact Ic|exact D].
Qed.

Lemma flat_single : forall {A B} (f : A -> list B) K, (forall a, In a K -> exists e, f a = [e]) -> length (flat_map f K) = length K.
Proof.
  intros A B f K. induction K as [|a K IH]; intros S; [reflexivity|]. cbn [flat_map length]. destruct (S a (or_introl eq_refl)) as (e & ->).
  cbn [app length]. rewrite IH; [reflexivity|]. intros b I. apply S. right. exact I.
Qed.

Section Drawn.
Variables (m : gmap) (place : handle -> Z * Z).
Hypothesis TR : traced m place.
Let n := length (g_sectors m).

Variable xs : list (list (list point) * (corners * list nat)).
Hypothesis XS : Forall2 (drawn_sector m place) (seq 0 n) xs.
Let outs := map fst xs.
Let zs := map (fun x => fst (snd x)) xs.
Let pss := map (fun x => snd (snd x)) xs.

Lemma xs_len : length xs = n.
Proof using XS. exact (proj1 (Forall2_seq _ _ _ _ XS)). Qed.
Lemma xs_at : forall i x, nth_error xs i = Some x -> drawn_sector m place i x.
Proof using XS. exact (proj2 (Forall2_seq _ _ _ _ XS)). Qed.
Lemma sector_at : forall i x, nth_error xs i = Some x -> is_sector m (Z.of_nat i).
Proof using XS.
  intros i x E. assert (L : (i < length xs)%nat) by (apply nth_error_Some; congruence). rewrite xs_len in L.
  unfold is_sector, has_item. fold n. clear - L. lia.
Qed.

Lemma pss_keys : forall k p, In (k, p) (keys 0 pss) <-> (k < n)%nat /\ bordering m (Z.of_nat k) p.
Proof using XS.
  intros k p. pose proof (keys_in place pss 0 k p) as KI. rewrite Nat.sub_0_r in KI. unfold pss in KI at 2. split.
  - intros IK. apply KI in IK. destruct IK as (ps & _ & E & I). rewrite nth_error_map in E. destruct (nth_error xs k) as [x|] eqn:X; [|discriminate E]. injection E as <-.
    split; [rewrite <- xs_len; apply nth_error_Some; congruence|]. destruct (xs_at _ _ X) as (_ & _ & _ & _ & H & _). apply H, I.
  - intros (L & B). rewrite <- xs_len in L. apply nth_error_Some in L. apply KI. rewrite nth_error_map. destruct (nth_error xs k) as [x|] eqn:X; [|contradiction].
    exists (snd (snd x)). split; [apply Nat.le_0_l|]. split; [reflexivity|]. destruct (xs_at _ _ X) as (_ & _ & _ & _ & H & _). apply H, B.
Qed.
Lemma pss_nodup : NoDup (keys 0 pss).
Proof using XS.
  apply (keys_nodup place). apply Forall_forall. intros ps I. unfold pss in I. apply in_map_iff in I. destruct I as (x & <- & I).
  apply In_nth_error in I. destruct I as (i & I). apply (xs_at _ _ I).
Qed.
Lemma zs_edges : edges zs = flat_map (key_edges m place) (keys 0 pss).
Proof using XS.
  unfold edges. apply keys_edges. unfold zs, pss. assert (H : forall x, In x xs -> forall j, polygon_edges j (fst (snd x)) = flat_map (line_side m place j) (snd (snd x))).
  { intros x I. apply In_nth_error in I. destruct I as (i & I). apply (xs_at _ _ I). }
  clear - H. induction xs as [|x l IH]; cbn [map]; constructor; [apply H; left; reflexivity|]. apply IH. intros y I. apply H. right. exact I.
Qed.

Lemma small_sector : forall k, (k < n)%nat -> is_sector m (Z.of_nat k).
Proof using. intros k L. unfold is_sector, has_item. fold n. clear - L. lia. Qed.

Lemma key_single : forall k, In k (keys 0 pss) -> exists e, key_edges m place k = [e].
Proof using TR XS.
  intros [k p] I. apply pss_keys in I. destruct I as (L & B).
  destruct (key_one m place TR (Z.of_nat k) k p (small_sector k L) B) as (l & e & _ & _ & E & _). exists e. exact E.
Qed.

Lemma zs_corner : forall z l v, In z zs -> In l z -> In v l -> exists p k, border_line m p k /\ (v = place (ln_start k) \/ v = place (ln_end k)).
Proof using XS.
  intros z l v I J K. unfold zs in I. apply in_map_iff in I. destruct I as (x & <- & I). apply In_nth_error in I. destruct I as (i & I).
  destruct (xs_at _ _ I) as (_ & _ & _ & _ & _ & H & _). eauto.
Qed.
Lemma all_corners : forall P : Z * Z -> Prop, (forall p k, border_line m p k -> P (place (ln_start k)) /\ P (place (ln_end k))) -> Forall (Forall (Forall P)) zs.
Proof using XS.
  intros P H. apply Forall_forall. intros z Iz. apply Forall_forall. intros l Il. apply Forall_forall. intros v Iv.
  destruct (zs_corner z l v Iz Il Iv) as (p & k & B & D). destruct (H p k B) as [H1 H2]. destruct D as [->| ->]; assumption.
Qed.

(** Each line borders at most two sectors. *)
Definition in_front (k : nat * nat) : bool :=
  match nth_error (g_lines m) (snd k) with
  | Some l =>
      match ln_front l with
      | Some h => match nth_error (g_sides m) (Z.to_nat h) with Some sd => si_sector sd =? Z.of_nat (fst k) | None => false end
      | None => false
      end
  | None => false
  end.

Lemma keys_few : (length (keys 0 pss) <= 2 * length (g_lines m))%nat.
Proof using XS.
  set (f := fun k : nat * nat => (snd k, in_front k)).
  assert (INJ : forall a b, In a (keys 0 pss) -> In b (keys 0 pss) -> f a = f b -> a = b).
  { intros [i p] [j q] I J E. unfold f in E. cbn [snd] in E. injection E as <- E. f_equal.
    apply pss_keys in I, J. destruct I as (_ & l & El & [Bi _]). destruct J as (_ & l' & El' & [Bj _]). rewrite El in El'. injection El' as <-.
    assert (F : forall k, m_side_in m (Z.of_nat k) (ln_front l) -> in_front (k, p) = true).
    { intros k (h & sd & H & [_ IT] & S). unfold in_front. cbn [fst snd]. rewrite El, H, IT, S. apply Z.eqb_refl. }
    assert (G : forall k, in_front (k, p) = true -> exists h sd, ln_front l = Some h /\ nth_error (g_sides m) (Z.to_nat h) = Some sd /\ si_sector sd = Z.of_nat k).
    { intros k H. unfold in_front in H. cbn [fst snd] in H. rewrite El in H. destruct (ln_front l) as [h|]; [|discriminate H].
      destruct (nth_error (g_sides m) (Z.to_nat h)) as [sd|] eqn:SD; [|discriminate H]. apply Z.eqb_eq in H. eauto. }
    destruct (in_front (i, p)) eqn:X; symmetry in E.
    - destruct (G i X) as (h & sd & A1 & A2 & A3). destruct (G j E) as (h' & sd' & B1 & B2 & B3).
      assert (h = h') by congruence. subst h'. assert (sd = sd') by congruence. subst sd'. apply Nat2Z.inj. congruence.
    - destruct Bi as [Bi|Bi]; [rewrite (F i Bi) in X; discriminate X|]. destruct Bj as [Bj|Bj]; [rewrite (F j Bj) in E; discriminate E|].
      destruct Bi as (h & sd & A1 & [_ A2] & A3). destruct Bj as (h' & sd' & B1 & [_ B2] & B3).
      assert (h = h') by congruence. subst h'. assert (sd = sd') by congruence. subst sd'. apply Nat2Z.inj. congruence. }
  assert (ND : NoDup (map f (keys 0 pss))).
  { pose proof pss_nodup as N. clear - INJ N. induction N as [|a K NI N IH]; cbn [map]; constructor.
    - intros I. apply in_map_iff in I. destruct I as (b & E & I). apply NI. rewrite (INJ a b); auto; [left; reflexivity|right; exact I].
    - apply IH. intros b c I J. apply INJ; right; assumption. }
  assert (INC : incl (map f (keys 0 pss)) (list_prod (seq 0 (length (g_lines m))) [true; false])).
  { intros [p b] I. apply in_map_iff in I. destruct I as ([i q] & E & I). unfold f in E. cbn [snd] in E. injection E as <- E.
    apply pss_keys in I. destruct I as (_ & l & El & _). apply in_prod; [|destruct b; cbn [In]; auto].
    apply in_seq. split; [apply Nat.le_0_l|]. apply nth_error_Some. congruence. }
  apply (NoDup_incl_length ND) in INC. rewrite map_length, prod_length, seq_length in INC. cbn [length] in INC. clear - INC. lia.
Qed.

Lemma edges_few : (length (edges zs) <= 2 * length (g_lines m))%nat.
Proof using TR XS. rewrite zs_edges, (flat_single _ _ key_single). exact keys_few. Qed.

Lemma vsub_opposite : forall a b, short (vsub a b) -> short (vsub b a).
Proof using.
  intros [a1 a2] [b1 b2] [W N]. unfold short, within, vsub in *. cbn [fst snd] in *. split; [clear - W; lia|].
  intros E. apply N. injection E as E1 E2. f_equal; [clear - E1; lia|clear - E2; lia].
Qed.

(** *** Which places are in a sector *)

Definition below (x y : Q) (p : nat) : bool := existsb (fun e => passes_below e x y) (line_side m place 0 p).

Lemma below_poly : forall i x y a b, filter (fun e => (e_poly e =? i)%nat && passes_below e x y) (left_to_right i (a, b))
  = filter (fun e => passes_below e x y) (left_to_right i (a, b)).
Proof using. intros i x y a b. unfold left_to_right. cbn [fst snd]. destruct (lex_z a b); cbn [filter e_poly]; rewrite ?Nat.eqb_refl; reflexivity. Qed.

Lemma side_below : forall i p x y, length (filter (fun e => (e_poly e =? i)%nat && passes_below e x y) (line_side m place i p)) = if below x y p then 1%nat else 0%nat.
Proof using.
  intros i p x y. unfold below, line_side. destruct (nth_error (g_lines m) p) as [l|]; [|reflexivity]. unfold line_as_edge. rewrite below_poly.
  unfold left_to_right. cbn [fst snd]. destruct (lex_z _ _); cbn [filter existsb]; [reflexivity|..];
    match goal with |- context [passes_below (mk_edge i ?a ?b) x y] => change (passes_below (mk_edge i a b) x y) with (passes_below (mk_edge 0 a b) x y);
      destruct (passes_below (mk_edge 0 a b) x y); reflexivity end.
Qed.
Lemma side_other : forall i j p x y, j <> i -> filter (fun e => (e_poly e =? i)%nat && passes_below e x y) (line_side m place j p) = [].
Proof using.
  intros i j p x y N. unfold line_side. destruct (nth_error (g_lines m) p) as [l|]; [|reflexivity]. unfold line_as_edge, left_to_right. cbn [fst snd].
  apply Nat.eqb_neq in N. destruct (lex_z _ _); cbn [filter e_poly]; rewrite ?N; reflexivity.
Qed.

Lemma keys_below : forall qss j i x y, length (filter (fun e => (e_poly e =? i)%nat && passes_below e x y) (flat_map (key_edges m place) (keys j qss)))
  = if (j <=? i)%nat then length (filter (below x y) (nth (i - j) qss [])) else 0%nat.
Proof using.
  induction qss as [|qs qss IH]; intros j i x y; cbn [keys].
  - cbn [flat_map filter length]. destruct (j <=? i)%nat; [|reflexivity]. destruct (i - j)%nat; reflexivity.
  - rewrite flat_map_app, filter_app, app_length, IH.
    assert (H : length (filter (fun e => (e_poly e =? i)%nat && passes_below e x y) (flat_map (key_edges m place) (map (pair j) qs)))
      = if (j =? i)%nat then length (filter (below x y) qs) else 0%nat).
    { clear IH. induction qs as [|q qs IH]; cbn [map flat_map]; [destruct (j =? i)%nat; reflexivity|]. rewrite filter_app, app_length, IH.
      unfold key_edges at 1. cbn [fst snd]. destruct (Nat.eqb_spec j i) as [->|N].
      - rewrite side_below. cbn [filter]. destruct (below x y q); reflexivity.
      - rewrite (side_other i j q x y N). reflexivity. }
    rewrite H. destruct (Nat.eqb_spec j i) as [->|N].
    + rewrite Nat.sub_diag, Nat.leb_refl. cbn [nth]. replace (S i <=? i)%nat with false by (symmetry; apply Nat.leb_gt; apply Nat.lt_succ_diag_r). apply Nat.add_0_r.
    + cbn [Nat.add]. destruct (Nat.leb_spec (S j) i), (Nat.leb_spec j i); try (exfalso; clear - N H0 H1; lia); [|reflexivity].
      replace (i - j)%nat with (S (i - S j)) by (clear - H0; lia). reflexivity.
Qed.

Lemma place_in : forall k x y, (k < n)%nat -> (inner_below zs k x y <-> in_sector m place (Z.of_nat k) x y).
Proof using TR XS.
  intros k x y L. unfold inner_below, crossings. rewrite zs_edges, keys_below. cbn [Nat.leb]. rewrite Nat.sub_0_r.
  set (ps := nth k pss []).
  assert (X : exists x0, nth_error xs k = Some x0 /\ ps = snd (snd x0)).
  { rewrite <- xs_len in L. apply nth_error_Some in L. destruct (nth_error xs k) as [x0|] eqn:E; [|contradiction]. exists x0. split; [reflexivity|].
    unfold ps, pss. apply nth_error_nth. rewrite nth_error_map, E. reflexivity. }
  destruct X as (x0 & X & P). destruct (xs_at _ _ X) as (_ & _ & _ & ND & IN & _). rewrite <- P in ND, IN.
  assert (M : forall p, In p (filter (below x y) ps) <-> exists l, nth_error (g_lines m) p = Some l /\ m_borders m (Z.of_nat k) l /\ line_below place l x y).
  { intros p. rewrite filter_In, IN. unfold bordering, below, line_below, line_side. split.
    - intros ((l & E & B) & H). rewrite E in H. apply existsb_exists in H. exists l. auto.
    - intros (l & E & B & e & I & H). split; [exists l; auto|]. rewrite E. apply existsb_exists. eauto. }
  split.
  - intros O. exists (filter (below x y) ps). split; [now apply NoDup_filter|]. split; [exact M|exact O].
  - intros (qs & NQ & MQ & O). rewrite <- O. f_equal. apply Permutation_length, NoDup_Permutation; [now apply NoDup_filter|exact NQ|].
    intros p. rewrite M, MQ. reflexivity.
Qed.

Lemma kept_in : forall x y, kept_at (map snd (map sector_polygon outs)) zs x y <-> exists s, is_sector m s /\ in_sector m place s x y.
Proof using TR XS.
  intros x y. unfold kept_at, kept_place. assert (LEN : length (map snd (map sector_polygon outs)) = n) by (unfold outs; rewrite !map_length; exact xs_len).
  rewrite LEN. split.
  - intros ((i & L & I) & _). exists (Z.of_nat i). split; [apply small_sector, L|]. now apply place_in.
  - intros (s & IS & I). unfold is_sector, has_item in IS. fold n in IS. split.
    + exists (Z.to_nat s). assert (L : (Z.to_nat s < n)%nat) by (clear - IS; lia). split; [exact L|]. apply place_in; [exact L|].
      rewrite Z2Nat.id; [exact I|apply IS].
    + intros i _ E. rewrite map_map in E. apply nth_error_In in E. apply in_map_iff in E. destruct E as (o & E & _). discriminate E.
Qed.

Lemma place_nth : forall x y s, is_sector m s -> (nth_error (place_of zs x y) (Z.to_nat s) = Some true <-> in_sector m place s x y).
Proof using TR XS.
  intros x y s IS. unfold is_sector, has_item in IS. fold n in IS. assert (L : (Z.to_nat s < n)%nat) by (clear - IS; lia).
  rewrite <- (Z2Nat.id s) at 2 by apply IS. rewrite <- (place_in _ x y L). unfold place_of, inner_below.
  assert (LEN : length zs = n) by (unfold zs; rewrite map_length; exact xs_len). rewrite LEN, nth_error_map.
  assert (SQ : nth_error (seq 0 n) (Z.to_nat s) = Some (Z.to_nat s)).
  { rewrite (nth_error_nth' _ 0%nat) by (rewrite seq_length; exact L). rewrite seq_nth by exact L. reflexivity. }
  rewrite SQ. cbn [option_map]. split; [intros E; now injection E|intros ->; reflexivity].
Qed.

(** *** Sides *)

Lemma side_key : forall f, In f (edges zs) -> exists p, (e_poly f < n)%nat /\ bordering m (Z.of_nat (e_poly f)) p /\ In f (line_side m place (e_poly f) p).
Proof using TR XS.
  intros f I. rewrite zs_edges in I. apply in_flat_map in I. destruct I as ([k p] & I & J). apply pss_keys in I. destruct I as (L & B).
  unfold key_edges in J. cbn [fst snd] in J.
  destruct (key_one m place TR (Z.of_nat k) k p (small_sector k L) B) as (l & e & E & Bl & LE & P & _). pose proof J as J'. rewrite LE in J. destruct J as [<-|[]].
  exists p. rewrite P. auto.
Qed.

Lemma side_ends : forall i j p e, In e (line_side m place i p) -> In (mk_edge j (e_left e) (e_right e)) (line_side m place j p).
Proof using.
  intros i j p e. unfold line_side. destruct (nth_error (g_lines m) p) as [l|]; [|intros []]. unfold line_as_edge, left_to_right. cbn [fst snd].
  destruct (lex_z _ _); cbn [In]; intuition; subst e; auto.
Qed.

Lemma line_max : forall k p, (k < n)%nat -> bordering m (Z.of_nat k) p ->
  exists i, (i < n)%nat /\ bordering m (Z.of_nat i) p /\ forall j, (j < n)%nat -> bordering m (Z.of_nat j) p -> (j <= i)%nat.
Proof using XS.
  intros k p L B. assert (G : forall K : list (nat * nat), In (k, p) K -> exists i, In (i, p) K /\ forall j, In (j, p) K -> (j <= i)%nat).
  { clear. intros K. revert k. induction K as [|[a q] K IH]; intros k I; [destruct I|].
    destruct (in_dec (fun x y : nat => Nat.eq_dec x y) p (map snd K)) as [D|D].
    - apply in_map_iff in D. destruct D as ([b q'] & X & D). cbn [snd] in X. subst q'. destruct (IH b D) as (i & Ii & M).
      destruct (Nat.eq_dec q p) as [->|N].
      + destruct (Nat.le_gt_cases a i).
        * exists i. split; [right; exact Ii|]. intros j [X|X]; [injection X as <-; assumption|auto].
        * exists a. split; [left; reflexivity|]. intros j [X|X]; [injection X as <-; apply Nat.le_refl|]. apply M in X. lia.
      + exists i. split; [right; exact Ii|]. intros j [X|X]; [injection X as _ X; contradiction|auto].
    - assert (NK : forall j, ~ In (j, p) K) by (intros j J; apply D, in_map_iff; exists (j, p); auto).
      destruct I as [X|X]; [|destruct (NK _ X)]. injection X as <- <-. exists a. split; [left; reflexivity|].
      intros j [X|X]; [injection X as <-; apply Nat.le_refl|destruct (NK _ X)]. }
  destruct (G (keys 0 pss)) as (i & I & M); [apply pss_keys; auto|]. apply pss_keys in I. destruct I as (Li & Bi). exists i. split; [exact Li|]. split; [exact Bi|].
  intros j Lj Bj. apply M, pss_keys. auto.
Qed.

Lemma all_normal : forall i, nth_error (map snd (map sector_polygon outs)) i <> Some RemoveInterior /\ nth_error (map snd (map sector_polygon outs)) i <> Some RemoveEdges.
Proof using.
  intros i. rewrite map_map, nth_error_map. destruct (nth_error outs i); split; discriminate.
Qed.
Lemma normal_kept : forall inner, kept_place (map snd (map sector_polygon outs)) inner <-> exists i, (i < n)%nat /\ inner i.
Proof using XS.
  intros inner. unfold kept_place. assert (LEN : length (map snd (map sector_polygon outs)) = n) by (unfold outs; rewrite !map_length; exact xs_len).
  rewrite LEN. split; [intros [H _]; exact H|]. intros H. split; [exact H|]. intros i _. apply all_normal.
Qed.

Lemma sector_nat : forall s, is_sector m s -> (Z.to_nat s < n)%nat /\ Z.of_nat (Z.to_nat s) = s.
Proof using. intros s IS. unfold is_sector, has_item in IS. fold n in IS. split; [clear - IS; lia|apply Z2Nat.id, IS]. Qed.

Lemma line_bordering : forall p l s, nth_error (g_lines m) p = Some l -> (bordering m s p <-> m_borders m s l).
Proof using. intros p l s E. unfold bordering. split; [intros (l' & E' & B); congruence|intros B; eauto]. Qed.

Lemma inside_ends : forall i j a b x y, inside_edge (mk_edge i a b) x y -> inside_edge (mk_edge j a b) x y.
Proof using. intros i j a b x y H. exact H. Qed.

(** *** Lines that meet only in vertices *)

Section Tidy.
Hypothesis WD : well_drawn m place.

Lemma zs_tidy : tidy zs.
Proof using TR WD XS.
  split.
  - apply all_corners. intros p k (E & s & IS & B). destruct WD as (W & _). destruct (W s IS) as (_ & SB & _).
    destruct (SB k (nth_error_In _ _ E) B) as ((V1 & _) & (V2 & _) & _). split; assumption.
  - rewrite zs_edges. apply pairs_flat; [exact pss_nodup|exact key_single|].
    intros [i p] [j q] e g I J D Ie Ig. apply pss_keys in I, J. destruct I as (Li & Bi). destruct J as (Lj & Bj).
    unfold key_edges in Ie, Ig. cbn [fst snd] in Ie, Ig.
    destruct (Nat.eq_dec p q) as [->|N].
    + left. destruct (key_one m place TR (Z.of_nat i) i q (small_sector i Li) Bi) as (l & e' & E & B & L & P & _).
      destruct (key_one m place TR (Z.of_nat j) j q (small_sector j Lj) Bj) as (l' & g' & E' & B' & L' & P' & _).
      rewrite L in Ie. rewrite L' in Ig. destruct Ie as [<-|[]]. destruct Ig as [<-|[]]. unfold line_side in L, L'. rewrite E in L, L'.
      unfold line_as_edge, left_to_right in L, L'. cbn [fst snd] in L, L'.
      destruct (lex_z _ _); try discriminate L; injection L as <-; injection L' as <-; (split; [reflexivity|]; split; [reflexivity|]; cbn [e_poly]; congruence).
    + right. exact (keys_apart m place WD _ _ i j p q e g (small_sector i Li) (small_sector j Lj) Bi Bj N Ie Ig).
Qed.

Lemma zs_compact : compact zs.
Proof using TR WD XS.
  split.
  - intros e I. rewrite zs_edges in I. apply in_flat_map in I. destruct I as ([k p] & I & J). apply pss_keys in I. destruct I as (L & B).
    unfold key_edges in J. cbn [fst snd] in J.
    destruct (key_one m place TR (Z.of_nat k) k p (small_sector k L) B) as (l & e' & E & Bl & LE & _ & _ & D). rewrite LE in J. destruct J as [<-|[]].
    destruct WD as (W & _). destruct (W (Z.of_nat k) (small_sector k L)) as (_ & SB & _). destruct (SB l (nth_error_In _ _ E) Bl) as (_ & _ & S).
    destruct D as [[-> ->]|[-> ->]]; [exact S|apply vsub_opposite, S].
  - pose proof WD as W. destruct W as (_ & _ & _ & bound & HB & LT). exists bound. split; [apply all_corners; exact HB|].
    pose proof edges_few as F. apply Z.le_lt_trans with (Z.of_nat (length (g_lines m)) * (4 * (bound * bound))); [|exact LT].
    assert (Q : 0 <= bound * bound) by apply Z.square_nonneg. clear - F Q. nia.
Qed.

Lemma zs_overlayable : overlayable (map sector_polygon outs) zs.
Proof using TR WD XS.
  split; [|split; [exact zs_tidy|split; [exact zs_compact|]]].
  - unfold outs, zs. rewrite map_map. assert (H : forall x, In x xs -> has_corners (map (set_points contour_new) (fst x)) (fst (snd x))).
    { intros x I. apply In_nth_error in I. destruct I as (i & I). apply (xs_at _ _ I). }
    clear - H. induction xs as [|x l IH]; cbn [map]; constructor; [cbn [sector_polygon fst]; apply H; left; reflexivity|]. apply IH. intros y I. apply H. right. exact I.
  - intros e _ Q. exfalso. rewrite map_map in Q. apply nth_error_In, in_map_iff in Q. destruct Q as (o & E & _). discriminate E.
Qed.

Lemma has_line : forall s p j e i, is_sector m s -> bordering m s p -> In e (line_side m place j p) ->
  (has_edge zs i e <-> (i < n)%nat /\ bordering m (Z.of_nat i) p).
Proof using TR WD XS.
  intros s p j e i IS B I. split.
  - intros (f & F & P & L & R). destruct (side_key f F) as (q & Lq & Bq & Fq). rewrite P in Lq, Bq, Fq. destruct (Nat.eq_dec p q) as [->|N]; [auto|]. exfalso.
    destruct (key_one m place TR s j p IS B) as (l & e' & E & Bl & LE & _ & _ & D). rewrite LE in I. destruct I as [<-|[]].
    apply (same_not_apart e' f); auto.
    + destruct WD as (W & _). destruct (W s IS) as (_ & SB & _). destruct (SB l (nth_error_In _ _ E) Bl) as (_ & _ & _ & NZ).
      intros EQ. apply NZ. assert (X : place (ln_end l) = place (ln_start l)) by (destruct D as [[<- <-]|[<- <-]]; congruence).
      rewrite X. unfold vsub. now rewrite !Z.sub_diag.
    + apply (keys_apart m place WD s (Z.of_nat i) j i p q e' f IS (small_sector i Lq) B Bq N); [rewrite LE; left; reflexivity|exact Fq].
  - intros (L & Bi). exists (mk_edge i (e_left e) (e_right e)). split; [|split; [reflexivity|split; reflexivity]].
    rewrite zs_edges. apply in_flat_map. exists (i, p). split; [apply pss_keys; auto|]. exact (side_ends j i p e I).
Qed.

Lemma above_in : forall s p l j e k x y, is_sector m s -> nth_error (g_lines m) p = Some l -> m_borders m s l -> In e (line_side m place j p) -> (k < n)%nat ->
  (inner_above zs e k x y <-> in_sector_above m place (Z.of_nat k) l x y).
Proof using TR WD XS.
  intros s p l j e k x y IS E B I L. unfold inner_above, in_sector_above. rewrite (has_line s p j e k IS (proj2 (line_bordering p l s E) B) I).
  rewrite (place_in k x y L), (line_bordering p l (Z.of_nat k) E). tauto.
Qed.

Lemma line_sides : forall a b, (exists e, In e (edges zs) /\ kept_sides (map snd (map sector_polygon outs)) zs e a b) <-> room_side m place a b.
Proof using TR WD XS.
  intros a b. split.
  - intros (e & Ie & _ & x & y & IN & D). destruct (side_key e Ie) as (p & L & B & Ip). destruct B as (l & E & Bl).
    exists p, l, (mk_edge 0 (e_left e) (e_right e)), x, y. cbn [e_left e_right].
    split; [split; [exact E|exists (Z.of_nat (e_poly e)); split; [apply small_sector, L|exact Bl]]|].
    split; [pose proof (side_ends _ 0 p e Ip) as S; unfold line_side in S; rewrite E in S; exact S|].
    split; [destruct e as [i u v]; exact IN|].
    destruct D as [(-> & -> & K)|(-> & -> & K)]; [left|right]; (split; [reflexivity|split; [reflexivity|]]);
      apply normal_kept in K; destruct K as (k & Lk & K); exists (Z.of_nat k); (split; [apply small_sector, Lk|]).
    + apply (above_in (Z.of_nat (e_poly e)) p l (e_poly e) e k x y); auto. apply small_sector, L.
    + now apply place_in.
  - intros (p & l & e0 & x & y & (E & s & IS & B) & I0 & IN & D). destruct (sector_nat s IS) as (Ls & Es).
    destruct (line_max (Z.to_nat s) p) as (i & Li & Bi & MX); [exact Ls|rewrite Es; now apply (line_bordering p l)|].
    assert (S0 : In e0 (line_side m place 0 p)) by (unfold line_side; rewrite E; exact I0).
    exists (mk_edge i (e_left e0) (e_right e0)). pose proof (side_ends 0 i p e0 S0) as Si. split.
    + rewrite zs_edges. apply in_flat_map. exists (i, p). split; [apply pss_keys; auto|exact Si].
    + split; [split; [apply all_normal|]|].
      * intros j Hj. apply (has_line s p i _ j IS (proj2 (line_bordering p l s E) B) Si) in Hj. destruct Hj as (Lj & Bj). exact (MX j Lj Bj).
      * exists x, y. split; [destruct e0 as [i0 u v]; exact IN|]. cbn [e_left e_right].
        destruct D as [(-> & -> & t & IT & T)|(-> & -> & t & IT & T)]; [left|right]; (split; [reflexivity|split; [reflexivity|]]);
          destruct (sector_nat t IT) as (Lt & Et); rewrite <- Et in T; apply normal_kept; exists (Z.to_nat t); (split; [exact Lt|]).
        -- apply (above_in s p l i _ (Z.to_nat t) x y IS E B Si Lt). exact T.
        -- apply place_in; assumption.
Qed.
End Tidy.
End Drawn.


Theorem sector_rooms : forall std fuel m place op, std_laws std -> sorts std -> well_drawn m place -> (4 * length (g_lines m) <= fuel)%nat ->
  exists outs r rz, Forall2 (fun k o => map_sector_to_polygons m (Z.of_nat k) = Ok o) (seq 0 (length (g_sectors m))) outs
    /\ compute std fuel (map sector_polygon outs) op = Ok r /\ has_corners r rz
    /\ (forall x y, (exists s, is_sector m s /\ in_sector m place s x y) ->
          exists i, outer r i /\ (exists js, region_of r i js /\ goes_round rz js x y = 1)
            /\ forall k js, outer r k -> region_of r k js -> goes_round rz js x y = 1 -> k = i)
    /\ (forall x y i c js, outer r i -> nth_error r i = Some c -> region_of r i js -> goes_round rz js x y = 1 ->
          (exists s, is_sector m s /\ in_sector m place s x y)
          /\ forall s, is_sector m s -> (nth_error (c_from c) (Z.to_nat s) = Some true <-> in_sector m place s x y))
    /\ NoDup (flat_map sides rz) /\ (forall a b, In (a, b) (flat_map sides rz) <-> room_side m place a b)
    /\ (forall i j ci li lj, nth_error r i = Some ci -> nth_error rz i = Some li -> nth_error rz j = Some lj ->
          nth_error (c_neighbors ci) j = Some true <-> exists a b, In (a, b) (sides li) /\ In (b, a) (sides lj)).
Proof.
  intros std fuel m place op SL SO WD HF. pose proof (drawn_traced m place WD) as TR.
  destruct (pick_all (drawn_sector m place) (length (g_sectors m)) 0) as (xs & XS).
  { intros i L. apply (sector_drawn m place TR). apply small_sector. apply L. }
  set (outs := map fst xs). set (zs := map (fun x => fst (snd x)) xs).
  assert (OV : overlayable (map sector_polygon outs) zs) by (apply (zs_overlayable m place TR xs XS WD)).
  assert (HF' : (2 * length (edges zs) <= fuel)%nat).
  { pose proof (edges_few m place TR xs XS) as F. fold zs in F. clear - F HF. lia. }
  destruct (overlay_ends std fuel _ op zs SL SO OV HF') as (r & rz & C & H).
  exists outs, r, rz. split.
  { unfold outs. clear - XS. induction XS as [|k x ks xs D F IH]; cbn [map]; constructor; [apply D|exact IH]. }
  split; [exact C|]. split; [exact H|]. split; [|split; [|split; [|split]]].
  - intros x y I. apply (overlay_places std fuel _ op zs SL SO OV HF' r rz C H x y). apply (kept_in m place TR xs XS). exact I.
  - intros x y i c js O E R G. destruct (proj2 (overlay_places std fuel _ op zs SL SO OV HF' r rz C H x y) i c js O E R G) as (K & F).
    split; [apply (kept_in m place TR xs XS); exact K|]. intros s IS. rewrite F. apply (place_nth m place TR xs XS x y s IS).
  - apply (overlay_sides std fuel _ op zs SL SO OV HF' r rz C H).
  - intros a b. rewrite (proj2 (overlay_sides std fuel _ op zs SL SO OV HF' r rz C H)). apply (line_sides m place TR xs XS WD).
  - intros i j ci li lj. apply (overlay_neighbours std fuel _ op zs SL SO OV HF' r rz C H).
Qed.
