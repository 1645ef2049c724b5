(** Overlaying the sectors of a well drawn map: the outlines. *)

From Coq Require Import List ZArith QArith Bool Lia Permutation.
From Coq Require Import ZifyBool ZifyNat.
From Verif Require Import Base Float MapModel SectorPolys Contours Compute SpecMapModel SpecSector SpecShape SpecOrder SpecIntersect SpecTurn SpecTidy SpecOverlay
  TurnFacts5 NestGeo MapSectorFacts SpecRooms.
Import ListNotations.
Local Open Scope Z_scope.

Lemma NoDup_app_intro_single : forall {A} (l : list A) x, NoDup l -> ~ In x l -> NoDup (l ++ [x]).
Proof.
  intros A l x N I. apply (Permutation_NoDup (Permutation_app_comm [x] l)). constructor; assumption.
Qed.

Section Walks.
Variables (m : gmap) (place : handle -> Z * Z) (s : Z).
Hypothesis (SB : short_border m s place) (CB : closed_border m s).
Hypothesis (PI : forall p l q k v w, nth_error (g_lines m) p = Some l -> nth_error (g_lines m) q = Some k -> m_borders m s l -> m_borders m s k ->
  v = ln_start l \/ v = ln_end l -> w = ln_start k \/ w = ln_end k -> place v = place w -> v = w).

(** Line number [p] has an end at [v]. *)
Definition touch (v : handle) (p : nat) : bool :=
  match nth_error (g_lines m) p with
  | Some l => (ln_start l =? v) || (ln_end l =? v)
  | None => false
  end.
Definition count (W : list nat) (v : handle) : nat := length (filter (touch v) W).
Definition bordering (p : nat) : Prop := exists l, nth_error (g_lines m) p = Some l /\ m_borders m s l.

Lemma ends_differ : forall p l, nth_error (g_lines m) p = Some l -> m_borders m s l -> ln_start l <> ln_end l.
Proof using SB.
  intros p l E B EQ. destruct (SB l (nth_error_In _ _ E) B) as (_ & _ & _ & N). apply N. rewrite EQ. unfold vsub.
  destruct (place (ln_end l)) as [x y]. cbn [fst snd]. now rewrite !Z.sub_diag.
Qed.

Lemma joins_touch : forall p v, bordering p -> touch v p = true <-> exists w, m_joins m s p v w.
Proof using.
  intros p v (l & E & B). unfold touch. rewrite E. split.
  - intros H. apply orb_true_iff in H. destruct H as [H|H]; apply Z.eqb_eq in H; subst v.
    + exists (ln_end l), l. auto.
    + exists (ln_start l), l. auto.
  - intros (w & l' & E' & _ & [[<- _]|[_ <-]]); rewrite E in E'; injection E' as <-; rewrite Z.eqb_refl; [reflexivity|apply orb_true_r].
Qed.
Lemma joins_bordering : forall p v w, m_joins m s p v w -> bordering p.
Proof using. intros p v w (l & E & B & _). exists l. auto. Qed.

(** Adding a line changes the count at its two ends. *)
Lemma count_add : forall W p v w u, m_joins m s p v w ->
  Nat.odd (count (W ++ [p]) u) = xorb (Nat.odd (count W u)) (xorb (u =? v) (u =? w)).
Proof using SB.
  intros W p v w u J. unfold count. rewrite filter_app, app_length, Nat.odd_add. f_equal. cbn [filter].
  destruct J as (l & E & B & J). pose proof (ends_differ p l E B) as D. unfold touch. rewrite E.
  destruct J as [[<- <-]|[<- <-]];
    destruct (Z.eqb_spec (ln_start l) u), (Z.eqb_spec (ln_end l) u), (Z.eqb_spec u (ln_start l)), (Z.eqb_spec u (ln_end l)); try congruence; reflexivity.
Qed.

(** All lines at [v] are walked: an even number. *)
Lemma count_all : forall W v, NoDup W -> (forall p, In p W -> bordering p) -> (forall p w, m_joins m s p v w -> In p W) ->
  Nat.odd (count W v) = false.
Proof using CB.
  intros W v N B A. destruct (CB v) as (ps & Np & Ip & E).
  assert (P : Permutation (filter (touch v) W) ps).
  { apply NoDup_Permutation; [now apply NoDup_filter|exact Np|]. intros p. rewrite filter_In, Ip. split.
    - intros [I T]. apply joins_touch in T; auto.
    - intros (w & J). split; [eauto|]. apply joins_touch; [eapply joins_bordering; eauto|eauto]. }
  unfold count. rewrite (Permutation_length P), <- Nat.negb_even, E. reflexivity.
Qed.

(** The lines lead from [v] through the vertices [vs], the first of which is [v], to [z]. *)
Inductive trail : handle -> list nat -> list handle -> handle -> Prop :=
| trail_nil : forall v, trail v [] [] v
| trail_cons : forall v p w ps vs z, m_joins m s p v w -> trail w ps vs z -> trail v (p :: ps) (v :: vs) z.

Lemma walk_trail : forall first W prev next rest vs, left_walk m s place first W prev next rest vs ->
  NoDup W -> (forall p, In p W -> bordering p) -> (exists p l, nth_error (g_lines m) p = Some l /\ m_borders m s l /\ first = ln_start l) ->
  (exists p v, m_joins m s p v next) ->
  (forall u, Nat.odd (count W u) = xorb (u =? first) (u =? next)) ->
  trail next rest vs first /\ NoDup (W ++ rest) /\ (forall p, In p rest -> bordering p)
  /\ (forall u, Nat.odd (count (W ++ rest) u) = false).
Proof using SB CB PI.
  intros first W prev next rest vs LW. induction LW as [W prev next C|W prev next C S|W prev next p w rest vs C [J NI] L LW IH]; intros N B F J0 P.
  - assert (next = first).
    { destruct F as (q & k & Eq & Bq & ->). destruct J0 as (p & v & l & E & Bl & J0).
      eapply (PI p l q k); eauto. destruct J0 as [[_ <-]|[<- _]]; auto. }
    subst next. rewrite app_nil_r. split; [constructor|]. split; [assumption|]. split; [intros p []|].
    intros u. rewrite P. apply xorb_nilpotent.
  - exfalso. assert (H : Nat.odd (count W next) = false).
    { apply count_all; auto. intros p w J. destruct (in_dec Nat.eq_dec p W); [assumption|]. exfalso. eapply S. split; eauto. }
    rewrite P in H. rewrite Z.eqb_refl in H. destruct (Z.eqb_spec next first); [subst; contradiction|discriminate].
  - destruct IH as (T & N' & B' & P').
    + apply NoDup_app_intro_single; auto.
    + intros q I. apply in_app_or in I. destruct I as [I|[<-|[]]]; [auto|eapply joins_bordering; eauto].
    + assumption.
    + eauto.
    + intros u. rewrite (count_add W p next w u J), P. destruct (u =? first), (u =? next), (u =? w); reflexivity.
    + rewrite <- app_assoc in N', P'. cbn [app] in N', P'. split; [econstructor; eauto|]. split; [assumption|]. split; [|assumption].
      intros q [<-|I]; [eapply joins_bordering; eauto|auto].
Qed.

(** A walk: its lines lead from its first vertex back to it. *)
Definition round (w : list handle * list nat) : Prop := exists v, trail v (snd w) (fst w) v /\ snd w <> [].

Lemma walks_round : forall W walks, sector_walks m s place W walks ->
  NoDup W -> (forall p, In p W -> bordering p) -> (forall u, Nat.odd (count W u) = false) ->
  Forall round walks /\ NoDup (W ++ concat (map snd walks)) /\ (forall p, In p (W ++ concat (map snd walks)) <-> bordering p).
Proof using SB CB PI.
  intros W walks SW. induction SW as [W A|W p l rest vs walks E B NI L LW SW IH]; intros N HB P.
  - cbn [map concat]. rewrite app_nil_r. split; [constructor|]. split; [assumption|]. intros p. split; [auto|].
    intros (l & E & B). apply (A p (ln_start l) (ln_end l)). exists l. auto.
  - assert (J : m_joins m s p (ln_start l) (ln_end l)) by (exists l; auto).
    assert (N1 : NoDup (W ++ [p])) by (apply NoDup_app_intro_single; auto).
    assert (B1 : forall q, In q (W ++ [p]) -> bordering q).
    { intros q I. apply in_app_or in I. destruct I as [I|[<-|[]]]; [auto|exists l; auto]. }
    destruct (walk_trail _ _ _ _ _ _ LW N1 B1) as (T & N2 & B2 & P2); eauto.
    { intros u. rewrite (count_add W p _ _ u J), P. apply xorb_false_l. }
    rewrite <- app_assoc in N2, P2. cbn [app] in N2, P2. destruct IH as (R & N3 & B3); auto.
    { intros q I. apply in_app_or in I. destruct I as [I|[<-|I]]; [auto|exists l; auto|auto]. }
    cbn [map concat snd]. rewrite <- app_assoc in N3, B3. split; [|split; assumption].
    constructor; [|assumption]. exists (ln_start l). cbn [fst snd]. split; [econstructor; eauto|discriminate].
Qed.
End Walks.

(** *** The edges of the outlines *)

Section Edges.
Variables (m : gmap) (place : handle -> Z * Z).

Definition line_side (i p : nat) : list edge :=
  match nth_error (g_lines m) p with
  | Some l => line_as_edge place i l
  | None => []
  end.

Lemma joins_side : forall s p v w i, m_joins m s p v w -> left_to_right i (place v, place w) = line_side i p.
Proof.
  intros s p v w i (l & E & _ & J). unfold line_side. rewrite E. unfold line_as_edge.
  destruct J as [[<- <-]|[<- <-]]; [reflexivity|]. rewrite <- left_swap. reflexivity.
Qed.

Lemma trail_edges : forall s i v ps vs z, trail m s v ps vs z ->
  flat_map (left_to_right i) (combine (map place vs) (tl (map place vs) ++ [place z])) = flat_map (line_side i) ps.
Proof.
  intros s i v ps vs z T. induction T as [v|v p w ps vs z J T IH]; [reflexivity|]. cbn [map tl flat_map].
  rewrite <- (joins_side s p v w i J), <- IH. destruct T as [w|w q u ps vs z J' T]; cbn [map tl app combine flat_map]; reflexivity.
Qed.

Lemma round_edges : forall s i w, round m s w -> flat_map (left_to_right i) (sides (map place (fst w))) = flat_map (line_side i) (snd w).
Proof.
  intros s i w (v & T & N). rewrite <- (trail_edges s i v _ _ v T). destruct w as [vs ps]. cbn [fst snd] in *. inversion T; subst; reflexivity.
Qed.

Lemma rounds_edges : forall s i ws, Forall (round m s) ws ->
  polygon_edges i (map (map place) (map fst ws)) = flat_map (line_side i) (concat (map snd ws)).
Proof.
  intros s i ws F. unfold polygon_edges. induction F as [|w ws R _ IH]; [reflexivity|]. cbn [map flat_map concat].
  rewrite !flat_map_app, IH, (round_edges s i w R). reflexivity.
Qed.

(** *** All sectors *)

Fixpoint keys (i : nat) (pss : list (list nat)) : list (nat * nat) :=
  match pss with
  | [] => []
  | ps :: rest => map (pair i) ps ++ keys (S i) rest
  end.

Lemma keys_in : forall pss i k p, In (k, p) (keys i pss) <-> exists ps, (i <= k)%nat /\ nth_error pss (k - i) = Some ps /\ In p ps.
Proof.
  induction pss as [|ps pss IH]; intros i k p; cbn [keys].
  - split; [intros []|]. intros (ps & _ & E & _). destruct (k - i)%nat; discriminate E.
  - rewrite in_app_iff, IH, in_map_iff. split.
    + intros [(q & E & I)|(qs & L & E & I)].
      * injection E as <- <-. exists ps. rewrite Nat.sub_diag. auto.
      * exists qs. split; [lia|]. split; [|assumption]. replace (k - i)%nat with (S (k - S i)) by lia. exact E.
    + intros (qs & L & E & I). destruct (Nat.eq_dec k i) as [->|D].
      * left. rewrite Nat.sub_diag in E. injection E as ->. eauto.
      * right. exists qs. split; [lia|]. split; [|assumption]. replace (k - i)%nat with (S (k - S i)) in E by lia. exact E.
Qed.

Lemma keys_nodup : forall pss i, Forall (@NoDup nat) pss -> NoDup (keys i pss).
Proof.
  induction pss as [|ps pss IH]; intros i F; cbn [keys]; [constructor|]. inversion F as [|? ? N F']; subst.
  apply NoDup_app_intro.
  - apply FinFun.Injective_map_NoDup; [|assumption]. intros a b E. now injection E.
  - now apply IH.
  - intros [k p] I J. apply in_map_iff in I. destruct I as (q & E & _). injection E as <- <-.
    apply keys_in in J. destruct J as (? & L & _). lia.
Qed.

Definition key_edges (k : nat * nat) : list edge := line_side (fst k) (snd k).

Lemma keys_edges : forall zs pss i, Forall2 (fun z ps => forall j, polygon_edges j z = flat_map (line_side j) ps) zs pss ->
  edges_from i zs = flat_map key_edges (keys i pss).
Proof.
  intros zs pss i F. revert i. induction F as [|z ps zs pss E F IH]; intros i; [reflexivity|]. cbn [edges_from keys].
  rewrite flat_map_app, <- IH, E. f_equal. clear. induction ps as [|p ps IH]; [reflexivity|]. cbn [map flat_map]. now rewrite IH.
Qed.
End Edges.
