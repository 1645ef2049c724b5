(** The flood fill of the route command. *)

From Coq Require Import List ZArith Bool Arith Lia Sorting.Permutation ZifyBool ZifyNat.
From Verif Require Import Base BaseFacts Float MapModel Sweep Contours Compute Route SpecRoute ContainerFacts SweepFacts TraceFacts SpecCompute ComputeFacts.
Import ListNotations.
Local Open Scope Z_scope.

(** ** Outcomes *)

(** [m] returns something satisfying [P], or panics in a way allowed by [q]. *)
Definition wp {A} (q : panic -> Prop) (m : outcome A) (P : A -> Prop) : Prop :=
  match m with Ok a => P a | Err _ => False | Panic p => q p end.

Section Wp.
  Variable q : panic -> Prop.
  Lemma wp_bind : forall {A B} (m : outcome A) (k : A -> outcome B) P Q,
    wp q m P -> (forall a, m = Ok a -> P a -> wp q (k a) Q) -> wp q (obind m k) Q.
  Proof using. intros A B [a|e|p] k P Q H K; cbn in *; auto. Qed.
  Lemma wp_ok : forall {A} (a : A) (P : A -> Prop), P a -> wp q (Ok a) P.
  Proof using. auto. Qed.
  Lemma wp_weaken : forall {A} (m : outcome A) (P Q : A -> Prop), wp q m P -> (forall a, P a -> Q a) -> wp q m Q.
  Proof using. intros A [a|e|p] P Q H K; cbn in *; auto. Qed.
  Lemma wp_index : forall {A} (l : list A) i (P : A -> Prop), (forall a, nth_error l i = Some a -> P a) ->
    ((i < length l)%nat \/ q PIndex) -> wp q (index_nat l i) P.
  Proof using.
    intros A l i P H L. unfold index_nat. destruct (nth_error l i) eqn:E; cbn; auto.
    destruct L as [L|L]; auto. apply nth_error_None in E. lia.
  Qed.
  Lemma wp_omap : forall {A B} (f : A -> outcome B) (R : A -> B -> Prop) l, (forall a, In a l -> wp q (f a) (R a)) ->
    wp q (omap f l) (Forall2 R l).
  Proof using.
    intros A B f R l H. induction l as [|x l IH]; cbn [omap]; [constructor|].
    eapply wp_bind; [apply H; left; auto|]. intros y _ Hy. eapply wp_bind; [apply IH; intros; apply H; right; auto|].
    intros ys _ Hys. cbn. constructor; auto.
  Qed.
  Lemma wp_ofold : forall {A S} (f : S -> A -> outcome S) (I : list A -> S -> Prop) l s,
    I l s -> (forall x l' s', incl (x :: l') l -> I (x :: l') s' -> wp q (f s' x) (I l')) -> wp q (ofold f l s) (I []).
  Proof using.
    intros A S f I l. induction l as [|x l IH]; intros s H K; cbn [ofold]; [auto|].
    eapply wp_bind; [apply K; [apply incl_refl|exact H]|]. intros s' _ Hs'. apply IH; auto.
    intros y l' s'' Hl. apply K. intros z Hz. right. auto.
  Qed.
End Wp.

(** ** Sectors of a contour *)

Lemma index_at : forall {A} (l : list A) h a, index l h = Ok a <-> 0 <= h /\ nth_error l (Z.to_nat h) = Some a.
Proof.
  intros A l h a. unfold index. split.
  - destruct ((0 <=? h) && (h <? zlen l)) eqn:E; [|discriminate]. destruct (nth_error l (Z.to_nat h)) eqn:N; [|discriminate].
    intros H. inv H. split; [lia|auto].
  - intros [H N]. pose proof (nth_lt _ _ _ N). unfold zlen. replace ((0 <=? h) && (h <? Z.of_nat (length l))) with true by lia.
    now rewrite N.
Qed.
Lemma index_cases : forall {A} (l : list A) h, (exists a, index l h = Ok a) \/ index l h = Panic PIndex.
Proof.
  intros A l h. unfold index. destruct (_ && _); [|auto]. destruct (nth_error l (Z.to_nat h)); eauto.
Qed.
Lemma wp_index_z : forall q {A} (l : list A) h (P : A -> Prop), (forall a, 0 <= h -> nth_error l (Z.to_nat h) = Some a -> P a) ->
  ((exists a, index l h = Ok a) \/ q PIndex) -> wp q (index l h) P.
Proof.
  intros q A l h P H K. destruct (index_cases l h) as [[a E]|E]; rewrite E; cbn.
  - apply index_at in E. apply H; tauto.
  - destruct K as [[a K]|K]; [congruence|auto].
Qed.

Section Sectors.
  Variable q : panic -> Prop.
  Variable m : gmap.
  Variable refs : list polygon_ref.
  (** Either the references are right or indexing may fail. *)
  Hypothesis REFS : q PIndex \/ refs_ok m refs.

  Lemma side_total : forall l o, In (RLine l) refs -> o = ln_front l \/ o = ln_back l -> refs_ok m refs ->
    exists r, oopt (map_side m) o = Ok r.
  Proof using.
    intros l o Hin Ho R. specialize (R _ Hin). cbn in R. destruct (R o Ho) as [->|(s & sec & (h & sd & -> & P & N & _) & _)].
    - exists None. reflexivity.
    - cbn. unfold map_side. rewrite (proj2 (index_at _ _ _) (conj P N)). cbn. eauto.
  Qed.

  Lemma side_spec : forall o r s, oopt (map_side m) o = Ok r ->
    (In s (match r with Some sd => [si_sector sd] | None => [] end) <-> side_faces m o s).
  Proof using.
    intros o r s H. unfold side_faces. destruct o as [h|]; cbn in H.
    - bind H sd E. inv H. apply index_at in E. destruct E as [P N]. cbn. split.
      + intros [<-|[]]. exists h, sd. auto.
      + intros (h' & sd' & E & _ & N' & <-). inv E. left. congruence.
    - inv H. cbn. split; [intros []|]. intros (h & sd & E & _). discriminate.
  Qed.

  Lemma line_sectors_spec : forall l, In (RLine l) refs ->
    wp q (line_sectors m l) (fun hs => forall s, In s hs <-> side_faces m (ln_front l) s \/ side_faces m (ln_back l) s).
  Proof using REFS.
    intros l Hin. unfold line_sectors, bound_front, bound_back.
    assert (T : forall o, o = ln_front l \/ o = ln_back l -> wp q (oopt (map_side m) o) (fun r => oopt (map_side m) o = Ok r)).
    { intros o Ho. destruct (oopt (map_side m) o) as [r|e|p] eqn:E; cbn; auto.
      - destruct o as [h|]; cbn in E; [|discriminate]. unfold map_side in E. destruct (index_cases (g_sides m) h) as [[a E']|E']; rewrite E' in E; discriminate.
      - destruct REFS as [Q|R]; [|destruct (side_total l o Hin Ho R) as [r Er]; congruence].
        destruct o as [h|]; cbn in E; [|discriminate]. unfold map_side in E. destruct (index_cases (g_sides m) h) as [[a E']|E']; rewrite E' in E; [discriminate|].
        inv E. auto. }
    eapply wp_bind; [apply T; auto|]. intros f _ Hf. eapply wp_bind; [apply T; auto|]. intros b _ Hb.
    cbn. intros s. rewrite in_app_iff, (side_spec _ _ s Hf), (side_spec _ _ s Hb). tauto.
  Qed.

  (** The sectors of the polygons from number [p] on. *)
  Definition from_part (bits : list bool) (p : nat) (r : polygon_ref) : Prop :=
    exists k, nth_error bits k = Some true /\ nth_error refs (p + k) = Some r.
  Definition in_part (bits : list bool) (p : nat) (s : handle) : Prop :=
    from_part bits p (RSector s)
    \/ exists l, from_part bits p (RLine l) /\ (side_faces m (ln_front l) s \/ side_faces m (ln_back l) s).
  Definition blocked_part (bits : list bool) (p : nat) : Prop :=
    exists l, from_part bits p (RLine l) /\ blocks_player l = true.

  Lemma from_part_cons : forall b bits p r, from_part (b :: bits) p r <->
    (b = true /\ nth_error refs p = Some r) \/ from_part bits (S p) r.
  Proof using.
    intros b bits p r. split.
    - intros ([|k] & H0 & E); [left; rewrite Nat.add_0_r in E; cbn in H0; split; congruence|]. right. exists k. split; auto.
      now replace (S p + k)%nat with (p + S k)%nat by lia.
    - intros [[-> E]|(k & H & E)]; [exists 0%nat; rewrite Nat.add_0_r; auto|]. exists (S k). split; auto.
      now replace (p + S k)%nat with (S p + k)%nat by lia.
  Qed.

  Lemma in_part_cons : forall b bits p s, in_part (b :: bits) p s <->
    (b = true /\ exists r, nth_error refs p = Some r /\ match r with RSector h => h = s
        | RLine l => side_faces m (ln_front l) s \/ side_faces m (ln_back l) s end) \/ in_part bits (S p) s.
  Proof using.
    intros b bits p s. unfold in_part. rewrite from_part_cons. split.
    - intros [[[-> E]|H]|(l & H & F)]; [left; split; [auto|exists (RSector s); auto]|auto|].
      destruct (proj1 (from_part_cons _ _ _ _) H) as [[-> E]|H']; [left; split; [auto|exists (RLine l); auto]|]. right. right. eauto.
    - intros [(-> & r & E & H)|[H|(l & H & F)]]; [|auto|].
      + destruct r as [h|l]; [subst; auto|]. right. exists l. split; auto. apply from_part_cons. auto.
      + right. exists l. split; auto. apply from_part_cons. auto.
  Qed.

  Lemma sectors_here_spec : forall bits p, (q PIndex \/ (p + length bits <= length refs)%nat) ->
    wp q (sectors_here m refs bits p) (fun hs => forall s, In s hs <-> in_part bits p s).
  Proof using REFS.
    induction bits as [|b bits IH]; intros p L; cbn [sectors_here].
    - cbn. intros s. split; [intros []|]. intros [(k & H & _)|(l & (k & H & _) & _)]; destruct k; discriminate.
    - apply wp_bind with (P := fun hs => forall s, In s hs <-> b = true /\ exists r, nth_error refs p = Some r /\ match r with RSector h => h = s
        | RLine l => side_faces m (ln_front l) s \/ side_faces m (ln_back l) s end).
      + destruct b; [|cbn; intros s; split; [intros []|intros [? _]; discriminate]].
        eapply wp_bind; [apply wp_index with (P := fun r => nth_error refs p = Some r); auto; cbn [length] in L; destruct L; [auto|left; lia]|].
        intros r _ Er. destruct r as [h|l].
        * cbn. intros s. split; [intros [<-|[]]; split; [auto|exists (RSector h); auto]|]. intros (_ & r & E & H). rewrite Er in E. inv E. auto.
        * eapply wp_weaken; [apply line_sectors_spec; eapply nth_error_In; eauto|]. cbn. intros hs H s. rewrite H. split; [intros; split; [auto|exists (RLine l); auto]|].
          intros (_ & r & E & F). rewrite Er in E. inv E. auto.
      + intros here _ Hh. eapply wp_bind; [apply IH; destruct L; [auto|right; cbn [length] in *; lia]|].
        intros rest _ Hr. cbn beta in Hh, Hr. cbn. intros s. rewrite in_app_iff, Hh, Hr, in_part_cons. tauto.
  Qed.

  Lemma sectors_open_spec : forall bits p, (q PIndex \/ (p + length bits <= length refs)%nat) ->
    wp q (sectors_open m refs bits p) (fun r => if fst r then ~ blocked_part bits p /\ (forall s, In s (snd r) <-> in_part bits p s)
        else blocked_part bits p /\ (forall s, In s (snd r) -> in_part bits p s)).
  Proof using REFS.
    induction bits as [|b bits IH]; intros p L; cbn [sectors_open].
    - cbn. split.
      + intros (l & (k & H & _) & _). destruct k; discriminate.
      + intros s. split; [intros []|]. intros [(k & H & _)|(l & (k & H & _) & _)]; destruct k; discriminate.
    - assert (L' : q PIndex \/ (S p + length bits <= length refs)%nat) by (destruct L; [auto|right; cbn [length] in *; lia]).
      assert (BP : forall bb, blocked_part (bb :: bits) p <->
         (bb = true /\ exists l, nth_error refs p = Some (RLine l) /\ blocks_player l = true) \/ blocked_part bits (S p)).
      { intros bb. unfold blocked_part. split.
        - intros (l & H & B). destruct (proj1 (from_part_cons _ _ _ _) H) as [[-> E]|H2]; [left; eauto|right; eauto].
        - intros [(-> & l & E & B)|(l & H & B)]; exists l; split; auto; apply from_part_cons; auto. }
      destruct b.
      + eapply wp_bind; [apply wp_index with (P := fun r => nth_error refs p = Some r); auto; cbn [length] in L; destruct L; [auto|left; lia]|].
        intros r _ Er. destruct r as [h|l].
        * eapply wp_bind; [apply IH, L'|]. intros [ok rest] _ H. cbn [fst snd] in H. cbn -[In]. destruct ok.
          -- destruct H as [H1 H2]. split.
             ++ rewrite BP. intros [(_ & l & E & _)|H]; [congruence|auto].
             ++ intros s. rewrite in_part_cons. cbn [In]. rewrite H2. split; [intros [<-|H]; [left; split; [auto|exists (RSector h); auto]|auto]|].
                intros [(_ & r & E & F)|H]; [rewrite Er in E; inv E; auto|auto].
          -- destruct H as [H1 H2]. split; [apply BP; auto|]. intros s [<-|H]; apply in_part_cons; [left; split; [auto|exists (RSector h); auto]|auto].
        * destruct (blocks_player l) eqn:Bl.
          -- cbn. split; [apply BP; left; eauto|intros s []].
          -- eapply wp_bind; [apply line_sectors_spec; eapply nth_error_In; eauto|]. intros here _ Hh. cbn beta in Hh.
             eapply wp_bind; [apply IH, L'|]. intros [ok rest] _ H. cbn [fst snd] in H. cbn. destruct ok.
             ++ destruct H as [H1 H2]. split.
                ** rewrite BP. intros [(_ & l' & E & B)|H]; [congruence|auto].
                ** intros s. rewrite in_part_cons, in_app_iff, Hh, H2. split; [intros [H|H]; [left; split; [auto|exists (RLine l); auto]|auto]|].
                   intros [(_ & r & E & F)|H]; [rewrite Er in E; inv E; auto|auto].
             ++ destruct H as [H1 H2]. split; [apply BP; auto|]. intros s H. apply in_app_iff in H. apply in_part_cons.
                destruct H as [H|H]; [left; split; auto; exists (RLine l); split; auto; now apply Hh|auto].
      + eapply wp_weaken; [apply IH, L'|]. intros [ok hs]. cbn [fst snd]. destruct ok; intros [H1 H2]; split.
        * rewrite BP. intros [[? _]|H]; [discriminate|auto].
        * intros s. rewrite H2, in_part_cons. split; [auto|]. intros [[? _]|H]; [discriminate|auto].
        * apply BP. auto.
        * intros s H. apply in_part_cons. auto.
  Qed.

  Lemma in_part_0 : forall c s, in_part (c_from c) 0 s <-> in_sector m refs c s.
  Proof using. intros. reflexivity. Qed.
  Lemma blocked_0 : forall c, blocked_part (c_from c) 0 <-> is_blocked refs c.
  Proof using.
    intros c. unfold blocked_part, is_blocked, blocks_player.
    assert (B : forall l, negb (Z.land (ln_flags l) 1 =? 0) = Z.testbit (ln_flags l) 0).
    { intros l. rewrite Z.bit0_odd. change 1 with (Z.ones 1). rewrite Z.land_ones by lia. change (2 ^ 1) with 2.
      rewrite Zmod_odd. destruct (Z.odd (ln_flags l)); reflexivity. }
    split; intros (l & F & H); exists l; (split; [exact F|]); [rewrite <- B|rewrite B]; auto.
  Qed.

  (** Looking sectors up. *)
  Lemma lookup_spec : forall hs, (forall s, In s hs -> q PIndex \/ exists sec, sector_at m s sec) ->
    wp q (omap (map_sector m) hs) (fun l => forall sec, In sec l <-> exists s, In s hs /\ sector_at m s sec).
  Proof using.
    intros hs H. eapply wp_weaken; [apply wp_omap with (R := fun s sec => sector_at m s sec)|].
    - intros s Hs. unfold map_sector. apply wp_index_z; [intros; split; auto|]. destruct (H s Hs) as [Q|(sec & A & B)]; [auto|].
      left. exists sec. apply index_at. auto.
    - intros l F sec. split.
      + intros Hin. apply In_nth_error in Hin. destruct Hin as [i Hi]. destruct (Forall2_nth_l _ _ _ _ _ F Hi) as (s & Hs & R).
        exists s. split; auto. eapply nth_error_In; eauto.
      + intros (s & Hs & R). apply In_nth_error in Hs. destruct Hs as [i Hi].
        destruct (nth_error_lt l i) as [sec' Hs']; [rewrite <- (Forall2_len _ _ _ F); eapply nth_lt; eauto|].
        pose proof (Forall2_nth _ _ _ _ _ _ F Hi Hs') as R'. destruct R as [_ R], R' as [_ R']. rewrite R in R'. inv R'.
        eapply nth_error_In; eauto.
  Qed.

  Lemma in_sector_valid : forall c s, in_sector m refs c s -> q PIndex \/ exists sec, sector_at m s sec.
  Proof using REFS.
    intros c s H. destruct REFS as [Q|R]; [auto|right]. destruct H as [(p & _ & E)|(l & (p & _ & E) & F)].
    - exact (R _ (nth_error_In _ _ E)).
    - specialize (R _ (nth_error_In _ _ E)). cbn in R.
      assert (G : forall o, (o = ln_front l \/ o = ln_back l) -> side_faces m o s -> exists sec, sector_at m s sec).
      { intros o Ho (h & sd & Eo & P & N & Sx). destruct (R o Ho) as [->|(s' & sec & (h' & sd' & Eo' & _ & N' & Sx') & A)]; [discriminate|].
        assert (h = h') by congruence. subst h'. assert (sd = sd') by congruence. subst sd'. exists sec. congruence. }
      destruct F; eauto.
  Qed.
End Sectors.

Lemma fold_max_spec : forall l z, (forall x, In x l -> x <= fold_left Z.max l z) /\ z <= fold_left Z.max l z
  /\ (fold_left Z.max l z = z \/ In (fold_left Z.max l z) l).
Proof.
  induction l as [|y l IH]; intros z; cbn [fold_left]; [split; [intros x []|split; [lia|auto]]|].
  destruct (IH (Z.max z y)) as (A & B & C). split; [|split].
  - intros x [->|H]; [lia|auto].
  - lia.
  - destruct C as [C|C]; [|right; right; auto]. rewrite C. destruct (Z.max_dec z y) as [->| ->]; [left; auto|right; left; auto].
Qed.

Section Floor.
  Variable q : panic -> Prop.
  Variable m : gmap.
  Lemma highest_spec : forall hs, (forall s, In s hs -> q PIndex \/ exists sec, sector_at m s sec) -> (q PUnwrap \/ hs <> []) ->
    wp q (extreme_floor Z.max m hs) (fun z => (exists s sec, In s hs /\ sector_at m s sec /\ ms_floor sec = z)
       /\ forall s sec, In s hs -> sector_at m s sec -> ms_floor sec <= z).
  Proof using.
    intros hs H NE. unfold extreme_floor. eapply wp_bind; [apply lookup_spec, H|]. intros l E Hl.
    destruct (map ms_floor l) as [|z zs] eqn:Em.
    - cbn. destruct NE as [Q|NE]; [auto|]. destruct hs as [|h hs]; [congruence|]. cbn in E.
      destruct (map_sector m h); [|discriminate|discriminate]. cbn in E. destruct (omap (map_sector m) hs); [|discriminate|discriminate]. inv E. discriminate.
    - cbn. destruct (fold_max_spec zs z) as (A & B & C). set (f := fold_left Z.max zs z) in *. clearbody f.
      assert (M : forall x, In x (z :: zs) -> x <= f) by (intros x [->|Hx]; auto).
      rewrite <- Em in M. split.
      + assert (Hf : In f (map ms_floor l)) by (rewrite Em; destruct C as [->|C]; [left; auto|right; auto]).
        apply in_map_iff in Hf. destruct Hf as (sec & Hs & Hin). apply Hl in Hin. destruct Hin as (s & Hs1 & Hs2). eauto.
      + intros s sec Hs Ha. apply M. apply in_map. apply Hl. eauto.
  Qed.
  Lemma lowest_ok : forall hs, (forall s, In s hs -> q PIndex \/ exists sec, sector_at m s sec) -> (q PUnwrap \/ hs <> []) ->
    wp q (extreme_floor Z.min m hs) (fun _ => True).
  Proof using.
    intros hs H NE. unfold extreme_floor. eapply wp_bind; [apply lookup_spec, H|]. intros l E Hl.
    destruct (map ms_floor l) as [|z zs] eqn:Em; [|exact I].
    cbn. destruct NE as [Q|NE]; [auto|]. destruct hs as [|h hs]; [congruence|]. cbn in E.
    destruct (map_sector m h); [|discriminate|discriminate]. cbn in E. destruct (omap (map_sector m) hs); [|discriminate|discriminate]. inv E. discriminate.
  Qed.
End Floor.

Lemma stands_unique : forall m refs c z z', stands_at m refs c z -> stands_at m refs c z' -> z = z'.
Proof.
  intros m refs c z z' ((s & sec & A & B & <-) & C) ((s' & sec' & A' & B' & <-) & C').
  specialize (C _ _ A' B'). specialize (C' _ _ A B). lia.
Qed.

(** ** The fill *)

Lemma member_in : forall l i, member l i = true <-> In i l.
Proof.
  intros l i. unfold member. rewrite existsb_exists. split.
  - intros (x & H & E). apply Nat.eqb_eq in E. now subst.
  - intros H. exists i. split; auto. apply Nat.eqb_refl.
Qed.
Lemma member_not : forall l i, member l i = false <-> ~ In i l.
Proof. intros l i. rewrite <- member_in. destruct (member l i); split; congruence. Qed.
Lemma insert_new : forall l i, ~ In i l -> insert l i = i :: l.
Proof. intros l i H. unfold insert. apply member_not in H. now rewrite H. Qed.
Lemma insert_in : forall l i j, In j (insert l i) <-> j = i \/ In j l.
Proof.
  intros l i j. unfold insert. destruct (member l i) eqn:E; [|cbn; split; intros [|]; auto].
  apply member_in in E. split; [auto|]. intros [->|]; auto.
Qed.
Lemma insert_nodup : forall l i, NoDup l -> NoDup (insert l i).
Proof. intros l i H. unfold insert. destruct (member l i) eqn:E; auto. constructor; auto. now apply member_not. Qed.
Lemma same_tags_spec : forall a b, same_tags a b = true <-> forall z, In z a <-> In z b.
Proof.
  intros a b. unfold same_tags. rewrite andb_true_iff, !forallb_forall.
  assert (M : forall l z, member_z l z = true <-> In z l).
  { intros l z. unfold member_z. rewrite existsb_exists. split; [intros (x & H & E); apply Z.eqb_eq in E; now subst|].
    intros H. exists z. split; auto. apply Z.eqb_refl. }
  split.
  - intros [A B] z. split; intros H; apply M; auto.
  - intros H. split; intros z Hz; apply M, H; auto.
Qed.

Section Fill.
  Variable mode : build.
  Variable m : gmap.
  Variable refs : list polygon_ref.
  Variable result : polygon.
  Variable tags : list (list Z).
  Variable q : panic -> Prop.
  Notation N := (length result).
  Hypothesis ANY : (forall p, p <> PFuel -> q p) \/ (refs_ok m refs /\ fillable refs result /\ sectors_first refs).
  Hypothesis FLOOR : floors_i16 m.
  Hypothesis TLEN : length tags = N.
  Hypothesis TAGS : forall i t c, nth_error tags i = Some t -> nth_error result i = Some c -> forall z, In z t <-> has_tag m refs c z.

  Lemma REFS : q PIndex \/ refs_ok m refs.
  Proof using ANY. destruct ANY as [Q|(R & _)]; [left; apply Q; discriminate|auto]. Qed.

  Lemma bits_fit : forall c, In c result -> q PIndex \/ (0 + length (c_from c) <= length refs)%nat.
  Proof using ANY. intros c H. destruct ANY as [Q|(_ & F & _)]; [left; apply Q; discriminate|right]. apply (F c H). Qed.

  Lemma has_sector : forall c, In c result -> q PUnwrap \/ exists s, in_sector m refs c s.
  Proof using ANY.
    intros c H. destruct ANY as [Q|(_ & F & _)]; [left; apply Q; discriminate|right].
    destruct (F c H) as (_ & _ & _ & h & Hh). exists h. left. exact Hh.
  Qed.

  Lemma open_nonempty : forall bits p r h, sectors_first refs -> from_part refs bits p (RSector h) ->
    sectors_open m refs bits p = Ok r -> snd r <> [].
  Proof using.
    clear ANY FLOOR TLEN TAGS. intros bits p r h (hs & ls & E). revert p r. induction bits as [|b bits IH]; intros p r F H; cbn [sectors_open] in H.
    - destruct F as ([|k] & F & _); discriminate.
    - assert (Late : forall l, nth_error refs p = Some (RLine l) -> ~ exists h k, nth_error refs (p + k) = Some (RSector h)).
      { intros l El (h' & k & Ek). rewrite E in El, Ek.
        destruct (lt_dec p (length hs)) as [L|L].
        - rewrite nth_error_app1 in El by (rewrite map_length; auto). rewrite nth_error_map in El. destruct (nth_error hs p); discriminate.
        - rewrite nth_error_app2 in Ek by (rewrite map_length; lia). rewrite nth_error_map in Ek. destruct (nth_error ls _); discriminate. }
      destruct b.
      + bind H rf Er. apply index_nat_nth in Er. destruct rf as [h'|l].
        * bind H qq Eq1. destruct qq as [ok rest]. inv H. discriminate.
        * exfalso. destruct F as (k & _ & F). apply (Late l Er). eauto.
      + apply from_part_cons in F. destruct F as [[? _]|F]; [discriminate|]. eapply IH; eauto.
  Qed.

  Lemma bound_floor : forall c z, stands_at m refs c z -> -32768 <= z <= 32767.
  Proof using FLOOR. intros c z ((s & sec & _ & (_ & B) & <-) & _). apply FLOOR. eapply nth_error_In; eauto. Qed.

  Lemma sub_small : forall a b, -32768 <= a <= 32767 -> -32768 <= b <= 32767 -> sub_i32 mode a b = Ok (a - b).
  Proof using. clear ANY FLOOR TLEN TAGS. intros a b A B. unfold sub_i32, wrap_i32. rewrite Z.mod_small by lia. replace (_ =? _) with true by lia. reflexivity. Qed.

  (** A bit set of neighbours never exceeds the contours, or indexing may fail. *)
  Lemma around_spec : forall c ix, nth_error result ix = Some c ->
    wp q (around result c) (fun bits => (forall j, nth_error bits j = Some true <-> borders result ix j)
      /\ (q PIndex \/ length bits = N)).
  Proof using ANY.
    clear TLEN TAGS FLOOR. intros c ix Hc. unfold around.
    assert (LN : q PIndex \/ length (c_neighbors c) = N).
    { destruct ANY as [Q|(_ & F & _)]; [left; apply Q; discriminate|right]. apply (F c). eapply nth_error_In; eauto. }
    apply wp_weaken with (P := fun bits => exists done, c_holes c = done ++ [] /\ length bits = length (c_neighbors c)
       /\ forall j, nth_error bits j = Some true <-> nth_error (c_neighbors c) j = Some true
            \/ exists h hc, In h done /\ nth_error result h = Some hc /\ nth_error (c_neighbors hc) j = Some true).
    - apply (wp_ofold q) with (I := fun rem bits => exists done, c_holes c = done ++ rem /\ length bits = length (c_neighbors c)
       /\ forall j, nth_error bits j = Some true <-> nth_error (c_neighbors c) j = Some true
            \/ exists h hc, In h done /\ nth_error result h = Some hc /\ nth_error (c_neighbors hc) j = Some true).
      + exists []. split; [auto|]. split; [auto|]. intros j. split; [auto|]. intros [H|(h & hc & [] & _)]. auto.
      + intros h rem bits Hin (done & Hd & Hl & Hb).
        eapply wp_bind; [apply wp_index with (P := fun hc => nth_error result h = Some hc); auto|].
        { destruct ANY as [Q|(_ & F & _)]; [right; apply Q; discriminate|left]. apply (F c (nth_error_In _ _ Hc)). rewrite Hd. apply in_or_app. right. left. auto. }
        intros hc _ Hhc. unfold bits_union. destruct (Nat.eqb_spec (length bits) (length (c_neighbors hc))) as [El|El].
        2:{ cbn. destruct ANY as [Q|(_ & F & _)]; [apply Q; discriminate|]. exfalso. apply El. rewrite Hl.
            rewrite (proj1 (F c (nth_error_In _ _ Hc))), (proj1 (F hc (nth_error_In _ _ Hhc))). auto. }
        cbn. exists (done ++ [h]). split; [rewrite <- app_assoc; auto|]. split; [rewrite map_length, combine_length, El; lia|].
        assert (U : forall (a b : list bool) j, length a = length b ->
           (nth_error (map (fun p => fst p || snd p) (combine a b)) j = Some true <-> nth_error a j = Some true \/ nth_error b j = Some true)).
        { clear. induction a as [|x a IH]; intros [|y b] [|j] L; cbn in *; try discriminate; try (split; [discriminate|intros [|]; discriminate]).
          - split; [intros H; inv H; destruct x; auto|intros [H|H]; inv H; auto; now rewrite orb_true_r].
          - apply IH. lia. }
        intros j. rewrite U by auto. rewrite Hb. split.
        * intros [[H|(h' & hc' & A & B & C)]|H]; [auto| |].
          -- right. exists h', hc'. split; [apply in_or_app; auto|auto].
          -- right. exists h, hc. split; [apply in_or_app; right; left; auto|auto].
        * intros [H|(h' & hc' & A & B & C)]; [auto|]. apply in_app_or in A. destruct A as [A|[<-|[]]]; [left; right; eauto|]. right. congruence.
    - intros bits (done & Hd & Hl & Hb). rewrite app_nil_r in Hd. subst done. split.
      + intros j. rewrite Hb. unfold borders. split.
        * intros H. exists c. auto.
        * intros (c' & Hc' & H). assert (c' = c) by congruence. subst. auto.
      + rewrite Hl. auto.
  Qed.

  (** One neighbour. *)
  Lemma neighbor_spec : forall ix c highest st n touching, nth_error result ix = Some c -> stands_at m refs c highest ->
    (touching = true -> q PIndex \/ (n < N)%nat) ->
    wp q (fill_neighbor mode m refs result tags ix highest st (n, touching)) (fun st' =>
      ((touching = false \/ In n (fl_seen st)) /\ st' = st)
      \/ (touching = true /\ ~ In n (fl_seen st) /\ exists c', nth_error result n = Some c'
          /\ ((steps_into m refs c c' /\ st' = mk_fill (n :: fl_seen st) (fl_seeds st) (fl_next st ++ [n]) (fl_chunk st) (fl_dist st))
              \/ (~ steps_into m refs c c' /\ st' = mk_fill (fl_seen st) (insert (fl_seeds st) n) (fl_next st) (fl_chunk st) (fl_dist st))))).
  Proof using ANY FLOOR TLEN TAGS.
    intros ix c highest st n touching Hc HS HN. unfold fill_neighbor.
    destruct touching; cbn [negb orb]; [|left; auto].
    destruct (member (fl_seen st) n) eqn:Em; [left; split; auto; right; now apply member_in|]. apply member_not in Em.
    specialize (HN eq_refl).
    eapply wp_bind; [apply wp_index with (P := fun t => nth_error tags ix = Some t); auto; left; rewrite TLEN; eapply nth_lt; eauto|]. intros t _ Ht.
    eapply wp_bind; [apply wp_index with (P := fun t => nth_error tags n = Some t); auto; rewrite TLEN; tauto|]. intros t' _ Ht'.
    eapply wp_bind; [apply wp_index with (P := fun x => nth_error result n = Some x); auto; tauto|]. intros c' _ Hc'. cbn beta in Ht, Ht', Hc'.
    eapply wp_bind; [apply sectors_open_spec; [exact REFS|apply bits_fit; eapply nth_error_In; eauto]|].
    intros [op hs] Eop Hop. cbn [fst snd] in Hop.
    assert (Hhs : forall s, In s hs -> in_sector m refs c' s) by (intros s Hs; destruct op; apply Hop in Hs; apply in_part_0; auto).
    eapply wp_bind.
    { apply (highest_spec q).
      - intros s Hs. eapply (in_sector_valid q m refs REFS). eauto.
      - destruct ANY as [Q|(R & F & SF)]; [left; apply Q; discriminate|right].
        destruct (F c' (nth_error_In _ _ Hc')) as (_ & _ & _ & h & Hh).
        apply (open_nonempty (c_from c') 0 (op, hs) h SF); auto. }
    intros floor _ [(s0 & sec0 & F1 & F2 & F3) F4].
    assert (FB : -32768 <= floor <= 32767) by (subst floor; apply FLOOR; destruct F2 as [_ F2]; eapply nth_error_In; eauto).
    pose proof (bound_floor _ _ HS) as HB.
    rewrite (sub_small floor highest FB HB). cbn [obind].
    rewrite (sub_small highest floor HB FB). cbn [obind].
    assert (Far : exists far, (if PLAYER_STEP_HEIGHT <? floor - highest then Ok true else Ok (PLAYER_STEP_HEIGHT <? highest - floor)) = Ok far
      /\ (far = false <-> Z.abs (highest - floor) <= 24)).
    { unfold PLAYER_STEP_HEIGHT. destruct (24 <? floor - highest) eqn:E1; eexists; (split; [reflexivity|]); lia. }
    destruct Far as (far & -> & Hfar). cbn [obind].
    cut (exists c'0 : contour, nth_error result n = Some c'0 /\
       (if same_tags t t' && op && negb far then steps_into m refs c c'0 else ~ steps_into m refs c c'0)).
    { intros (c0 & E0 & H). assert (c0 = c') by congruence. subst c0.
      destruct (same_tags t t' && op && negb far); cbn; right; (split; [auto|split; [auto|exists c'; split; [auto|]]]).
      - left. split; auto. rewrite insert_new by auto. auto.
      - right. auto. }
    exists c'. split; [auto|].
    pose proof (TAGS _ _ _ Ht Hc) as T1. pose proof (TAGS _ _ _ Ht' Hc') as T2.
    destruct (same_tags t t') eqn:Et.
    2:{ cbn. intros (A & _). assert (X : same_tags t t' = true); [|congruence]. apply same_tags_spec. intros z. rewrite T1, T2. apply A. }
    rewrite same_tags_spec in Et.
    destruct op.
    2:{ cbn. intros (_ & A & _). apply A. apply (blocked_0 refs). apply Hop. }
    destruct Hop as [Hop1 Hop2].
    assert (ST : stands_at m refs c' floor).
    { split; [exists s0, sec0; split; [apply Hhs, F1|auto]|]. intros s sec Hs. apply F4. apply Hop2, in_part_0, Hs. }
    destruct far; cbn.
    - intros (_ & _ & z & z' & Z1 & Z2 & Z3). rewrite <- (stands_unique _ _ _ _ _ HS Z1), <- (stands_unique _ _ _ _ _ ST Z2) in Z3.
      apply Hfar in Z3. discriminate.
    - split; [intros z; rewrite <- T1, <- T2; apply Et|]. split; [rewrite <- (blocked_0 refs); auto|].
      exists highest, floor. split; [auto|]. split; [auto|]. now apply Hfar.
  Qed.

  (** *** A chunk *)

  Lemma skipn_cons : forall {A} k (l : list A) b l', skipn k l = b :: l' -> nth_error l k = Some b /\ skipn (S k) l = l'.
  Proof using.
    intros A. induction k as [|k IH]; intros l b l' H; [cbn in H; subst; auto|]. destruct l as [|a l]; [discriminate|].
    cbn [skipn nth_error] in *. apply IH in H. auto.
  Qed.
  Lemma NoDup_app_disjoint : forall {A} (l r : list A) x, NoDup (l ++ r) -> In x l -> ~ In x r.
  Proof using.
    intros A l r x ND. induction l as [|a l IH]; intros H; [destruct H|]. inversion ND as [|y k Hy Hk]. subst.
    destruct H as [->|H]; [|auto]. intros X. apply Hy, in_or_app. auto.
  Qed.

  Section Chunk.
    Variables (d seed total : nat) (seen0 seeds0 dist0 : list nat).

    (** [todo] remains of the round, [pend i j] tells what has not been looked at. *)
    Record cinv (todo : list nat) (pend : nat -> nat -> Prop) (st : fill) : Prop := mk_cinv {
      ci_nodup : NoDup (fl_seen st);
      ci_seen : Permutation (fl_seen st) ((todo ++ fl_next st) ++ fl_chunk st ++ seen0);
      ci_lt : forall i, In i (fl_seen st) -> (i < N)%nat;
      ci_snodup : NoDup (fl_seeds st);
      ci_slt : forall i, In i (fl_seeds st) -> (i < N)%nat;
      ci_dlen : length (fl_dist st) = N;
      ci_din : forall i, In i (fl_chunk st) -> nth_error (fl_dist st) i = Some d;
      ci_dout : forall i, ~ In i (fl_chunk st) -> nth_error (fl_dist st) i = nth_error dist0 i;
      ci_incl : incl seeds0 (fl_seeds st);
      ci_new : forall i, In i (fl_seeds st) -> In i seeds0 \/ exists k, In k (fl_chunk st) /\ borders result k i;
      ci_walk : forall i, In i (todo ++ fl_next st) \/ In i (fl_chunk st) -> walk_to m refs result seed i;
      ci_closed : forall i j, In i (fl_chunk st) -> borders result i j -> pend i j
        \/ ((In j (fl_seen st) \/ In j (fl_seeds st)) /\ (walkable m refs result i j -> In j (fl_seen st)));
      ci_count : (length todo + length (fl_chunk st) = total)%nat;
      ci_seed : In seed (fl_seen st) }.

    Lemma neighbor_inv : forall todo ix c highest st n touching, nth_error result ix = Some c -> stands_at m refs c highest ->
      In ix (fl_chunk st) -> (touching = true <-> borders result ix n) -> (q PIndex \/ (n < N)%nat) ->
      cinv todo (fun i j => i = ix /\ (n <= j)%nat) st ->
      wp q (fill_neighbor mode m refs result tags ix highest st (n, touching))
        (fun st' => In ix (fl_chunk st') /\ cinv todo (fun i j => i = ix /\ (S n <= j)%nat) st').
    Proof using ANY FLOOR TLEN TAGS.
      intros todo ix c highest st n touching Hc HS Hix Ht Hn I.
      eapply wp_weaken; [apply neighbor_spec; eauto|]. intros st' H. cbn beta in H.
      destruct I as [I1 I2 I3 I4 I5 I6 I7 I8 I9 I10 I11 I12 I13 I14].
      destruct H as [[H ->]|(Htt & Hns & c' & Hc' & [[HS' ->]|[HS' ->]])].
      - split; [auto|]. constructor; auto. intros i j Hi Hb. destruct (I12 i j Hi Hb) as [[-> L]|R]; [|auto].
        destruct (Nat.eq_dec n j) as [<-|]; [|left; split; auto; lia]. right.
        destruct H as [->|H]; [apply Ht in Hb; discriminate|]. auto.
      - split; [auto|]. assert (Hb : borders result ix n) by (apply Ht; auto).
        assert (Hw : walkable m refs result ix n) by (split; [auto|exists c, c'; auto]).
        constructor; cbn [fl_seen fl_seeds fl_next fl_chunk fl_dist]; auto.
        + constructor; auto.
        + replace ((todo ++ fl_next st ++ [n]) ++ fl_chunk st ++ seen0) with ((todo ++ fl_next st) ++ n :: fl_chunk st ++ seen0)
            by (rewrite <- !app_assoc; reflexivity). apply Permutation_cons_app. auto.
        + intros i [<-|H]; auto. eapply nth_lt; eauto.
        + intros i [H|H]; [|auto]. rewrite app_assoc in H. apply in_app_or in H. destruct H as [H|[<-|[]]]; [auto|].
          eapply w_step; [|exact Hw]. auto.
        + intros i j Hi Hbo. destruct (I12 i j Hi Hbo) as [[-> L]|[R1 R2]].
          * destruct (Nat.eq_dec n j) as [<-|]; [|left; split; auto; lia]. right. split; [left; left; auto|intros; left; auto].
          * right. split; [destruct R1; [left; right; auto|auto]|]. intros W. right. auto.
        + right. auto.
      - split; [auto|]. assert (Hb : borders result ix n) by (apply Ht; auto).
        constructor; cbn [fl_seen fl_seeds fl_next fl_chunk fl_dist]; auto.
        + apply insert_nodup; auto.
        + intros i H. apply insert_in in H. destruct H as [->|H]; auto. eapply nth_lt; eauto.
        + intros i H. apply insert_in. auto.
        + intros i H. apply insert_in in H. destruct H as [->|H]; [right; eauto|auto].
        + intros i j Hi Hbo. destruct (I12 i j Hi Hbo) as [[-> L]|[R1 R2]].
          * destruct (Nat.eq_dec n j) as [<-|]; [|left; split; auto; lia]. right. split; [right; apply insert_in; auto|].
            intros (_ & c1 & c2 & E1 & E2 & W). exfalso. apply HS'. congruence.
          * right. split; [destruct R1; [auto|right; apply insert_in; auto]|auto].
    Qed.

    Lemma enumerate_at : forall {A} (l : list A) k x rest, enumerate_from k l = x :: rest ->
      exists a l', l = a :: l' /\ x = (k, a) /\ rest = enumerate_from (S k) l'.
    Proof using. intros A [|a l] k x rest H; cbn in H; inv H. eauto. Qed.

    Lemma contour_inv : forall todo ix st, (d <> 0)%nat -> cinv (ix :: todo) (fun _ _ => False) st ->
      wp q (fill_contour mode m refs result tags d st ix) (cinv todo (fun _ _ => False)).
    Proof using ANY FLOOR TLEN TAGS.
      intros todo ix st Hd I. unfold fill_contour.
      assert (Lix : (ix < N)%nat).
      { apply (ci_lt _ _ _ I). apply (Permutation_in _ (Permutation_sym (ci_seen _ _ _ I))). left. auto. }
      destruct (nth_error_lt result ix Lix) as [c Hc].
      eapply wp_bind; [apply wp_index with (P := fun _ => True); auto; left; rewrite TLEN; auto|]. intros t _ _.
      destruct (nth_error_lt (fl_dist st) ix) as [dv Hdv]; [rewrite (ci_dlen _ _ _ I); auto|].
      unfold update_nat. rewrite (index_nat_some _ _ _ Hdv). cbn [obind].
      rewrite (index_nat_some _ _ _ Hc). cbn [obind].
      assert (Hin : In c result) by (eapply nth_error_In; eauto).
      eapply wp_bind; [apply sectors_here_spec; [exact REFS|apply bits_fit; auto]|]. intros hs _ Hhs. cbn beta in Hhs.
      assert (V : forall s, In s hs -> q PIndex \/ exists sec, sector_at m s sec).
      { intros s Hs. apply (in_sector_valid q m refs REFS c). apply in_part_0, Hhs, Hs. }
      assert (NE : q PUnwrap \/ hs <> []).
      { destruct (has_sector c Hin) as [Q|(s & Hs)]; [auto|right]. apply in_part_0, Hhs in Hs. intros ->. destruct Hs. }
      eapply wp_bind; [apply (highest_spec q); eauto|]. intros highest _ [(s0 & sec0 & F1 & F2 & F3) F4].
      assert (HS : stands_at m refs c highest).
      { split; [exists s0, sec0; split; [apply in_part_0, Hhs, F1|auto]|]. intros s sec Hs. apply F4, Hhs, in_part_0, Hs. }
      eapply wp_bind; [apply (lowest_ok q); eauto|]. intros _ _ _.
      eapply wp_bind; [apply around_spec; eauto|]. intros bits _ [Hb HL]. cbn beta in Hb, HL.
      (* the state after marking *)
      set (st1 := mk_fill (fl_seen st) (fl_seeds st) (fl_next st) (insert (fl_chunk st) ix) (set_nth ix d (fl_dist st))).
      assert (Nix : ~ In ix (fl_chunk st)).
      { intros H. pose proof (Permutation_NoDup (ci_seen _ _ _ I) (ci_nodup _ _ _ I)) as ND. cbn in ND. inversion ND as [|x l Hx _]. subst.
        apply Hx. rewrite !in_app_iff. auto. }
      assert (I1 : cinv todo (fun i j => i = ix /\ (0 <= j)%nat) st1).
      { destruct I as [I1 I2 I3 I4 I5 I6 I7 I8 I9 I10 I11 I12 I13 I14].
        constructor; unfold st1; cbn [fl_seen fl_seeds fl_next fl_chunk fl_dist]; rewrite ?insert_new by auto; auto.
        - rewrite I2. cbn [app]. apply Permutation_middle.
        - rewrite set_nth_length; rewrite I6; auto.
        - intros i [<-|H]; [apply nth_set_same; rewrite I6; auto|]. rewrite nth_set_other; [auto|rewrite I6; auto|]. intros ->. auto.
        - intros i H. rewrite nth_set_other; [apply I8; intros X; apply H; right; auto|rewrite I6; auto|]. intros ->. apply H. left. auto.
        - intros i H. destruct (I10 i H) as [|(k & A & B)]; [auto|right]. exists k. split; [right; auto|auto].
        - intros i [H|[<-|H]]; apply I11; [left; right; auto|left; left; auto|auto].
        - intros i j [<-|H] Hbo; [left; split; [auto|lia]|]. destruct (I12 i j H Hbo) as [[]|R]. auto.
        - cbn [length] in *. lia. }
      assert (Hix : In ix (fl_chunk st1)) by (unfold st1; cbn; rewrite insert_in; auto).
      clearbody st1.
      apply wp_weaken with (P := fun st' => exists k, [] = enumerate_from k (skipn k bits) /\ (k <= length bits)%nat
           /\ In ix (fl_chunk st') /\ cinv todo (fun i j => i = ix /\ (k <= j)%nat) st').
      - apply (wp_ofold q) with (I := fun rem st' => exists k, rem = enumerate_from k (skipn k bits) /\ (k <= length bits)%nat
           /\ In ix (fl_chunk st') /\ cinv todo (fun i j => i = ix /\ (k <= j)%nat) st').
        + exists 0%nat. split; [reflexivity|]. split; [lia|]. auto.
        + intros x rem st' _ (k & Hk & Lk & Hi & I'). symmetry in Hk. apply enumerate_at in Hk. destruct Hk as (b & l' & El & -> & ->).
          destruct (skipn_cons _ _ _ _ El) as [Nk Sk].
          eapply wp_weaken; [eapply neighbor_inv; eauto|].
          * rewrite <- Hb, Nk. split; [intros ->; auto|congruence].
          * destruct HL as [Q|HL]; [auto|right]. rewrite <- HL. eapply nth_lt; eauto.
          * intros st'' [A B]. exists (S k). rewrite Sk. split; [auto|]. split; [apply nth_lt in Nk; lia|auto].
      - intros st' (k & Hk & Lk & _ & I'). destruct I' as [J1 J2 J3 J4 J5 J6 J7 J8 J9 J10 J11 J12 J13 J14]. constructor; auto.
        intros i j Hi Hbo. destruct (J12 i j Hi Hbo) as [[-> L]|R]; [|auto]. exfalso.
        apply Hb in Hbo. apply nth_lt in Hbo.
        assert (X : skipn k bits <> []) by (intros X; apply (f_equal (@length bool)) in X; rewrite skipn_length in X; cbn in X; lia).
        destruct (skipn k bits); [congruence|discriminate].
    Qed.
  End Chunk.

  Lemma cinv_le : forall d seed total seen0 seeds0 dist0 todo pend st, cinv d seed total seen0 seeds0 dist0 todo pend st ->
    (length todo + length (fl_next st) + length (fl_chunk st) <= N)%nat.
  Proof using.
    intros d seed total seen0 seeds0 dist0 todo pend st I. clear ANY FLOOR TLEN TAGS.
    pose proof (Permutation_length (ci_seen _ _ _ _ _ _ _ _ _ I)) as L. rewrite !app_length in L.
    assert (B : (length (fl_seen st) <= length (seq 0 N))%nat).
    { apply NoDup_incl_length; [apply (ci_nodup _ _ _ _ _ _ _ _ _ I)|]. intros i H. apply in_seq. pose proof (ci_lt _ _ _ _ _ _ _ _ _ I i H). lia. }
    rewrite seq_length in B. lia.
  Qed.

  Lemma chunk_inv : forall fuel d seed seen0 seeds0 dist0 st, (d <> 0)%nat ->
    cinv d seed (length (fl_chunk st)) seen0 seeds0 dist0 [] (fun _ _ => False) st ->
    (N - length (fl_chunk st) <= fuel)%nat ->
    wp q (fill_chunk mode m refs result tags fuel d st) (fun st' => fl_next st' = []
      /\ (length (fl_chunk st) + (if fl_next st then 0 else 1) <= length (fl_chunk st'))%nat
      /\ cinv d seed (length (fl_chunk st')) seen0 seeds0 dist0 [] (fun _ _ => False) st').
  Proof using ANY FLOOR TLEN TAGS.
    induction fuel as [|fuel IH]; intros d seed seen0 seeds0 dist0 st Hd I L.
    - cbn [fill_chunk]. pose proof (cinv_le _ _ _ _ _ _ _ _ _ I) as LE. destruct (fl_next st) eqn:En; [cbn; split; [auto|]; split; [lia|auto]|].
      exfalso. cbn [length] in LE. lia.
    - cbn [fill_chunk]. destruct (fl_next st) as [|x next] eqn:En; [cbn; split; [auto|]; split; [lia|auto]|]. rewrite <- En.
      set (st0 := mk_fill (fl_seen st) (fl_seeds st) [] (fl_chunk st) (fl_dist st)).
      assert (I0 : cinv d seed (length (fl_next st) + length (fl_chunk st)) seen0 seeds0 dist0 (fl_next st) (fun _ _ => False) st0).
      { destruct I as [I1 I2 I3 I4 I5 I6 I7 I8 I9 I10 I11 I12 I13 I14].
        constructor; unfold st0; cbn [fl_seen fl_seeds fl_next fl_chunk fl_dist]; rewrite ?app_nil_r; auto. }
      eapply wp_bind.
      + apply (wp_ofold q) with (I := fun todo st' => cinv d seed (length (fl_next st) + length (fl_chunk st)) seen0 seeds0 dist0 todo (fun _ _ => False) st');
          [exact I0|]. intros ix todo st' _ I'. apply contour_inv; auto.
      + intros st1 _ I1. cbn beta in I1. pose proof (ci_count _ _ _ _ _ _ _ _ _ I1) as C1. cbn [length plus] in C1.
        rewrite <- C1 in I1.
        eapply wp_weaken; [apply IH with (1 := Hd) (2 := I1)|].
        * rewrite C1, En. cbn [length]. lia.
        * intros st2 (A & B & C). split; [auto|]. split; [|auto]. rewrite C1, En in B. cbn [length] in B. destruct (fl_next st1); lia.
  Qed.

  (** *** All chunks *)

  Variable start : point.
  Definition starts (i : nat) : Prop := exists c, nth_error result i = Some c /\ rect_contains (contour_bbox c) start = true.

  Record ainv (d : nat) (chunks : list (list nat)) (seen seeds dist : list nat) : Prop := mk_ainv {
    a_nodup : NoDup seen;
    a_lt : forall i, In i seen -> (i < N)%nat;
    a_snodup : NoDup seeds;
    a_slt : forall i, In i seeds -> (i < N)%nat;
    a_dlen : length dist = N;
    a_d : d = S (length chunks);
    a_seen : forall i, In i seen <-> exists k ch, nth_error chunks k = Some ch /\ In i ch;
    a_dist : forall i k, nth_error dist i = Some (S k) <-> exists ch, nth_error chunks k = Some ch /\ In i ch;
    a_start : forall i, starts i -> In i seen \/ In i seeds;
    a_reach : forall i, In i seen \/ In i seeds -> reached result start i;
    a_walk : forall k ch, nth_error chunks k = Some ch -> exists seed, In seed ch /\ forall i, In i ch -> walk_to m refs result seed i;
    a_closed : forall k ch i j, nth_error chunks k = Some ch -> In i ch -> borders result i j ->
      (In j seen \/ In j seeds) /\ (walkable m refs result i j -> exists k' ch', (k' <= k)%nat /\ nth_error chunks k' = Some ch' /\ In j ch') }.

  Lemma walk_reached : forall i j, reached result start i -> walk_to m refs result i j -> reached result start j.
  Proof using. intros i j R W. induction W; auto. eapply r_border; eauto. apply H. Qed.

  Lemma least_in : forall l i, least l = Some i -> In i l.
  Proof using.
    intros [|x l] i H; inv H. clear. revert x. induction l as [|y l IH]; intros x; cbn [fold_left]; [left; auto|].
    destruct (IH (Nat.min x y)) as [H|H]; [|right; right; auto]. rewrite <- H. destruct (Nat.min_dec x y) as [->| ->]; [left; auto|right; left; auto].
  Qed.
  Lemma least_none : forall l, least l = None -> l = [].
  Proof using. intros [|x l] H; [auto|discriminate]. Qed.
  Lemma remove_in : forall l i j, In j (remove l i) <-> In j l /\ j <> i.
  Proof using.
    intros l i j. unfold remove. rewrite filter_In. split; intros [A B]; (split; [auto|]).
    - intros ->. rewrite Nat.eqb_refl in B. discriminate.
    - destruct (Nat.eqb_spec i j); [congruence|auto].
  Qed.
  Lemma filter_le : forall {A} (f : A -> bool) l, (length (filter f l) <= length l)%nat.
  Proof using. clear. intros A f l. induction l as [|a l IH]; cbn; [lia|]. destruct (f a); cbn; lia. Qed.
  Lemma remove_length : forall l i, NoDup l -> In i l -> (length (remove l i) < length l)%nat.
  Proof using.
    clear ANY FLOOR TLEN TAGS. intros l i ND. induction ND as [|x l Hx ND IH]; intros Hin; [destruct Hin|]. cbn.
    destruct (Nat.eqb_spec i x) as [->|Ne]; cbn.
    - pose proof (filter_le (fun j => negb (Nat.eqb x j)) l). unfold remove in *. lia.
    - destruct Hin as [->|Hin]; [congruence|]. apply IH in Hin. unfold remove in Hin. lia.
  Qed.

  Lemma all_inv : forall fuel d chunks seen seeds dist, ainv d chunks seen seeds dist ->
    (length seeds + (N - length seen) * (N + 1) <= fuel)%nat ->
    wp q (fill_all mode m refs result tags fuel N d chunks seen seeds dist) (fun r => exists seen', ainv (S (length (snd r))) (snd r) seen' [] (fst r)).
  Proof using ANY FLOOR TLEN TAGS.
    induction fuel as [|fuel IH]; intros d chunks seen seeds dist I L; cbn [fill_all].
    - destruct (least seeds) as [s|] eqn:E.
      + apply least_in in E. destruct seeds; [destruct E|]. exfalso. cbn [length] in L.
        remember ((N - length seen) * (N + 1))%nat as z. clear - L. lia.
      + apply least_none in E. subst. cbn. exists seen. rewrite <- (a_d _ _ _ _ _ I). auto.
    - destruct (least seeds) as [s|] eqn:E.
      2:{ apply least_none in E. subst. cbn. exists seen. rewrite <- (a_d _ _ _ _ _ I). auto. }
      apply least_in in E. destruct I as [I1 I2 I3 I4 I5 I6 I7 I8 I9 I10 I11 I12].
      pose proof (remove_length _ _ I3 E) as LR.
      assert (RN : NoDup (remove seeds s)) by (apply NoDup_filter; auto).
      destruct (member seen s) eqn:Em.
      + apply member_in in Em. apply IH; [|lia]. constructor; auto.
        * intros i H. apply remove_in in H. apply I4. tauto.
        * intros i H. destruct (I9 i H) as [|H']; [auto|]. destruct (Nat.eq_dec i s) as [->|]; [auto|]. right. apply remove_in. auto.
        * intros i [H|H]; [auto|]. apply remove_in in H. apply I10. tauto.
        * intros k ch i j A B C. destruct (I12 k ch i j A B C) as [[D|D] F]; [auto|]. split; [|auto].
          destruct (Nat.eq_dec j s) as [->|]; [auto|]. right. apply remove_in. auto.
      + apply member_not in Em. rewrite insert_new by auto.
        set (st0 := mk_fill (s :: seen) (remove seeds s) [s] [] dist).
        assert (Ls : (s < N)%nat) by auto.
        assert (C0 : cinv d s (length (fl_chunk st0)) seen (remove seeds s) dist [] (fun _ _ => False) st0).
        { constructor; unfold st0; cbn [fl_seen fl_seeds fl_next fl_chunk fl_dist length app]; auto.
          - constructor; auto.
          - intros i [<-|H]; auto.
          - intros i H. apply remove_in in H. apply I4. tauto.
          - intros i [].
          - apply incl_refl.
          - intros i [[<-|[]]|[]]. constructor.
          - left. auto. }
        eapply wp_bind; [apply chunk_inv with (2 := C0); [lia|cbn; lia]|].
        intros st _ (A & B & C). cbn [st0 fl_next fl_chunk length] in B.
        pose proof (cinv_le _ _ _ _ _ _ _ _ _ C) as LE. rewrite A in LE. cbn [length] in LE.
        destruct C as [C1 C2 C3 C4 C5 C6 C7 C8 C9 C10 C11 C12 C13 C14]. rewrite A in C2, C11. cbn [app] in C2, C11.
        assert (CS : forall i, In i (fl_seen st) <-> In i (fl_chunk st) \/ In i seen).
        { intros i. split; intros H.
          - apply (Permutation_in _ C2) in H. apply in_app_or in H. auto.
          - apply (Permutation_in _ (Permutation_sym C2)). apply in_or_app. auto. }
        assert (SL : length (fl_seen st) = (length (fl_chunk st) + length seen)%nat) by (rewrite (Permutation_length C2), app_length; auto).
        assert (DJ : forall i, In i (fl_chunk st) -> ~ In i seen).
        { pose proof (Permutation_NoDup C2 C1) as ND. intros i H1 H2. eapply NoDup_app_disjoint; eauto. }
        assert (NC : forall k ch, nth_error (chunks ++ [fl_chunk st]) k = Some ch <->
           nth_error chunks k = Some ch \/ (k = length chunks /\ ch = fl_chunk st)).
        { intros k ch. split; intros H.
          - destruct (lt_dec k (length chunks)) as [Lk|Lk]; [rewrite nth_error_app1 in H by auto; auto|].
            rewrite nth_error_app2 in H by lia. destruct (k - length chunks)%nat as [|k'] eqn:Ek; [|destruct k'; discriminate].
            right. cbn in H. split; [lia|congruence].
          - destruct H as [H|[-> ->]]; [rewrite nth_error_app1; auto; eapply nth_lt; eauto|].
            rewrite nth_error_app2, Nat.sub_diag; auto. }
        assert (Sin : In s (fl_chunk st)) by (apply CS in C14; destruct C14; [auto|contradiction]).
        apply IH.
        * constructor; auto.
          -- rewrite app_length. cbn [length]. lia.
          -- intros i. rewrite CS, I7. split.
             ++ intros [H|(k & ch & H1 & H2)]; [exists (length chunks), (fl_chunk st)|exists k, ch]; split; auto; apply NC; auto.
             ++ intros (k & ch & H1 & H2). apply NC in H1. destruct H1 as [H1|[-> ->]]; [right; eauto|auto].
          -- intros i k. destruct (in_dec Nat.eq_dec i (fl_chunk st)) as [H|H].
             ++ rewrite (C7 i H). split.
                ** intros X. inv X. exists (fl_chunk st). split; [|auto]. apply NC. right. split; [lia|auto].
                ** intros (ch & H1 & H2). apply NC in H1. destruct H1 as [H1|[-> ->]]; [|subst d; auto].
                   exfalso. apply (DJ i H). apply I7. eauto.
             ++ rewrite (C8 i H), I8. split; intros (ch & H1 & H2); exists ch; (split; [|auto]).
                ** apply NC. auto.
                ** apply NC in H1. destruct H1 as [H1|[-> ->]]; [auto|contradiction].
          -- intros i H. destruct (I9 i H) as [H'|H']; [left; apply CS; auto|]. destruct (Nat.eq_dec i s) as [->|]; [auto|].
             right. apply C9, remove_in. auto.
          -- assert (RC : forall i, In i (fl_chunk st) -> reached result start i).
             { intros i H. apply walk_reached with s; [apply I10; auto|apply C11; auto]. }
             intros i [H|H]; [apply CS in H; destruct H; auto|]. destruct (C10 i H) as [H'|(k & H1 & H2)].
             ++ apply remove_in in H'. apply I10. tauto.
             ++ apply r_border with k; auto.
          -- intros k ch H. apply NC in H. destruct H as [H|[-> ->]]; [eauto|]. exists s. auto.
          -- intros k ch i j H1 H2 H3. apply NC in H1. destruct H1 as [H1|[-> ->]].
             ++ destruct (I12 k ch i j H1 H2 H3) as [D F]. split.
                ** destruct D as [D|D]; [left; apply CS; auto|]. destruct (Nat.eq_dec j s) as [->|]; [auto|]. right. apply C9, remove_in. auto.
                ** intros W. destruct (F W) as (k' & ch' & F1 & F2 & F3). exists k', ch'. split; [auto|]. split; [apply NC; auto|auto].
             ++ destruct (C12 i j H2 H3) as [[]|[D F]]. split; [auto|]. intros W. apply F, CS in W. destruct W as [W|W].
                ** exists (length chunks), (fl_chunk st). split; [lia|]. split; [apply NC; auto|auto].
                ** apply I7 in W. destruct W as (k' & ch' & F1 & F2). exists k', ch'. split; [apply nth_lt in F1; lia|]. split; [apply NC; auto|auto].
        * assert (LS : (length (fl_seeds st) <= N)%nat).
          { rewrite <- (seq_length N 0). apply NoDup_incl_length; [auto|]. intros i H. apply in_seq. pose proof (C5 i H). lia. }
          assert (LN : (length (fl_seen st) <= N)%nat).
          { rewrite <- (seq_length N 0). apply NoDup_incl_length; [auto|]. intros i H. apply in_seq. pose proof (C3 i H). lia. }
          assert ((N - length seen) * (N + 1) >= (N - length (fl_seen st)) * (N + 1) + (N + 1))%nat; [|lia].
          rewrite SL in *. clear - B LN. nia.
  Qed.
End Fill.

(** ** The whole flood fill *)

Section Flood.
  Variable mode : build.
  Variable m : gmap.
  Variable refs : list polygon_ref.
  Variable result : polygon.
  Variable start : point.
  Variable q : panic -> Prop.
  Hypothesis ANY : (forall p, p <> PFuel -> q p) \/ (refs_ok m refs /\ fillable refs result /\ sectors_first refs).
  Hypothesis FLOOR : floors_i16 m.

  Lemma tags_spec : forall c, In c result -> wp q (contour_tags m refs c) (fun t => forall z, In z t <-> has_tag m refs c z).
  Proof using ANY.
    intros c Hin. unfold contour_tags.
    assert (RQ : q PIndex \/ refs_ok m refs) by (destruct ANY as [A|(A & _)]; [left; apply A; discriminate|auto]).
    assert (LQ : q PIndex \/ (0 + length (c_from c) <= length refs)%nat).
    { destruct ANY as [A|(_ & A & _)]; [left; apply A; discriminate|right]. apply (A c Hin). }
    eapply wp_bind; [apply sectors_here_spec; eauto|]. intros hs _ Hhs. cbn beta in Hhs.
    eapply wp_bind; [apply lookup_spec|].
    - intros s Hs. apply (in_sector_valid q m refs RQ c). apply in_part_0, Hhs, Hs.
    - intros secs _ H2. apply wp_ok. cbn beta in H2. intros z. unfold has_tag. rewrite filter_In, in_map_iff. split.
      + intros [(sec & <- & Hsec) Hz]. apply H2 in Hsec. destruct Hsec as (s & Hs & Hat). split; [lia|]. split; [lia|]. exists s, sec.
        split; [apply in_part_0, Hhs, Hs|auto].
      + intros (N0 & N13 & s & sec & Hs & Hat & <-). split; [|lia]. exists sec. split; [auto|].
        apply H2. exists s. split; [apply Hhs, in_part_0, Hs|auto].
  Qed.

  Definition flood_spec (r : list nat * list (list nat)) : Prop :=
    length (fst r) = length result
    /\ (forall i k, nth_error (fst r) i = Some (S k) <-> exists ch, nth_error (snd r) k = Some ch /\ In i ch)
    /\ (forall i, (exists k ch, nth_error (snd r) k = Some ch /\ In i ch) <-> reached result start i)
    /\ (forall k ch, nth_error (snd r) k = Some ch -> exists seed, In seed ch /\ forall i, In i ch -> walk_to m refs result seed i)
    /\ (forall k ch i j, nth_error (snd r) k = Some ch -> In i ch -> walkable m refs result i j ->
          exists k' ch', (k' <= k)%nat /\ nth_error (snd r) k' = Some ch' /\ In j ch').

  Lemma flood_wp : wp q (flood mode m refs result start) flood_spec.
  Proof using ANY FLOOR.
    unfold flood.
    eapply wp_bind; [apply (wp_omap q) with (R := fun c t => forall z, In z t <-> has_tag m refs c z); apply tags_spec|].
    intros tags _ HT. cbn beta in HT.
    set (n := length result).
    set (seeds := filter _ (seq 0 n)).
    assert (SIN : forall i, In i seeds <-> starts result start i).
    { intros i. unfold seeds, starts. rewrite filter_In, in_seq. split.
      - intros [_ H]. destruct (nth_error result i) as [c|]; [|discriminate]. eauto.
      - intros (c & Hc & H). rewrite Hc. split; [|auto]. apply nth_lt in Hc. unfold n. lia. }
    assert (SLT : forall i, In i seeds -> (i < n)%nat).
    { intros i H. apply SIN in H. destruct H as (c & Hc & _). apply nth_lt in Hc. auto. }
    assert (SL : (length seeds <= n)%nat) by (transitivity (length (seq 0 n)); [apply filter_le|rewrite seq_length; auto]).
    eapply wp_weaken; [eapply all_inv with (q := q) (start := start); eauto|].
    - symmetry. eapply Forall2_len; eauto.
    - intros i t c H1 H2. exact (Forall2_nth _ _ _ _ _ _ HT H2 H1).
    - constructor; auto.
      + constructor.
      + intros i [].
      + apply NoDup_filter, seq_NoDup.
      + apply repeat_length.
      + intros i. split; [intros []|]. intros (k & ch & H & _). destruct k; discriminate.
      + intros i k. split; [|intros (ch & H & _); destruct k; discriminate].
        intros H. apply nth_error_In, repeat_spec in H. discriminate.
      + intros i H. right. apply SIN, H.
      + intros i [[]|H]. apply SIN in H. destruct H as (c & H1 & H2). econstructor; eauto.
      + intros k ch H. destruct k; discriminate.
      + intros k ch i j H. destruct k; discriminate.
    - cbn [length]. fold n. nia.
    - intros [dist chunks] (seen & I). cbn [fst snd] in I. destruct I as [I1 I2 I3 I4 I5 I6 I7 I8 I9 I10 I11 I12].
      unfold flood_spec. cbn [fst snd]. split; [auto|]. split; [auto|]. split; [|split; [auto|]].
      + intros i. rewrite <- I7. split; [auto|]. intros R. induction R as [i c H1 H2|i j R IH B].
        * destruct (I9 i) as [H|[]]; [exists c; auto|auto].
        * apply I7 in IH. destruct IH as (k & ch & A1 & A2). destruct (I12 k ch i j A1 A2 B) as [[H|[]] _]. auto.
      + intros k ch i j H1 H2 W. destruct (I12 k ch i j H1 H2) as [_ F]; [apply W|auto].
  Qed.
End Flood.

Lemma flood_ok : forall mode m refs result start r, floors_i16 m -> flood mode m refs result start = Ok r ->
  flood_spec m refs result start r.
Proof.
  intros mode m refs result start r F H.
  pose proof (flood_wp mode m refs result start (fun p => p <> PFuel) (or_introl (fun p H => H)) F) as W.
  rewrite H in W. exact W.
Qed.

Lemma flood_halts : forall mode m refs result start, floors_i16 m -> flood mode m refs result start <> Panic PFuel.
Proof.
  intros mode m refs result start F H.
  pose proof (flood_wp mode m refs result start (fun p => p <> PFuel) (or_introl (fun p H => H)) F) as W.
  rewrite H in W. apply W. reflexivity.
Qed.

Lemma flood_total : forall mode m refs result start, floors_i16 m -> refs_ok m refs -> fillable refs result -> sectors_first refs ->
  exists r, flood mode m refs result start = Ok r.
Proof.
  intros mode m refs result start F R L S.
  pose proof (flood_wp mode m refs result start (fun p => False) (or_intror (conj R (conj L S))) F) as W.
  destruct (flood mode m refs result start); [eauto|destruct W|destruct W].
Qed.

(** ** From a map *)

Lemma input_refs : forall m polygons refs, route_input m = Ok (polygons, refs) -> lines_ok m ->
  length polygons = length refs /\ refs_ok m refs /\ sectors_first refs.
Proof.
  intros m polygons refs H L. unfold route_input in H. bind H sectors Es. bind H lines El. inv H.
  apply omap_ok in Es, El. pose proof (Forall2_len _ _ _ Es) as LS. pose proof (Forall2_len _ _ _ El) as LL.
  split; [rewrite !app_length, !map_length in *; lia|]. split; [|eexists _, _; reflexivity].
  intros r Hr. apply in_app_or in Hr. rewrite !in_map_iff in Hr. destruct Hr as [(h & <- & Hh)|(l & <- & Hl)].
  - rewrite in_map_iff in Hh. destruct Hh as (k & <- & Hk). apply in_seq in Hk.
    destruct (nth_error_lt (g_sectors m) k) as [sec Hsec]; [lia|]. exists sec. split; [lia|]. rewrite Nat2Z.id. auto.
  - intros o Ho. eapply L; eauto.
Qed.

Lemma compute_fillable : forall std fuel polygons refs result, std_laws std -> length polygons = length refs ->
  compute std fuel polygons Union = Ok result -> (forall c, In c result -> exists h, comes_from refs c (RSector h)) ->
  fillable refs result.
Proof.
  intros std fuel polygons refs result SL L C HS c Hin.
  destruct (compute_neighbors _ _ _ _ _ SL C) as (N1 & _). destruct (compute_hole_lists _ _ _ _ _ SL C) as (_ & N2 & _).
  destruct (compute_sources _ _ _ _ _ _ SL C Hin) as (N3 & _). split; [auto|]. split; [|split; [lia|auto]].
  intros h Hh. destruct (In_nth_error _ _ Hin) as [i Hi]. destruct (N2 _ _ _ Hi Hh) as (_ & ch & Hch & _). eapply nth_lt; eauto.
Qed.

Lemma route_ok : forall std fuel mode m result dist chunks, floors_i16 m -> route std fuel mode m = Ok (result, (dist, chunks)) ->
  exists polygons refs, route_input m = Ok (polygons, refs) /\ compute std fuel polygons Union = Ok result
    /\ flood_spec m refs result (match find_player_start m with Some p => p | None => mk_point f64_zero f64_zero end) (dist, chunks).
Proof.
  intros std fuel mode m result dist chunks F H. unfold route in H. destruct (route_input m) as [[polygons refs]|e|p] eqn:Ei; [|discriminate..].
  cbn [obind] in H. bind H res Ec. bind H filled Ef. inv H. exists polygons, refs. split; [auto|]. split; [auto|].
  eapply flood_ok; eauto.
Qed.

Lemma route_total : forall std fuel mode m polygons refs result, std_laws std -> floors_i16 m -> lines_ok m ->
  route_input m = Ok (polygons, refs) -> compute std fuel polygons Union = Ok result ->
  (forall c, In c result -> exists h, comes_from refs c (RSector h)) ->
  exists filled, route std fuel mode m = Ok (result, filled).
Proof.
  intros std fuel mode m polygons refs result SL F L Hi Hc HS. unfold route. rewrite Hi. cbn [obind]. rewrite Hc. cbn [obind].
  destruct (input_refs _ _ _ Hi L) as (L1 & L2 & L3).
  destruct (flood_total mode m refs result (match find_player_start m with Some p => p | None => mk_point f64_zero f64_zero end)
    F L2 (compute_fillable _ _ _ _ _ SL L1 Hc HS) L3) as [r Hr].
  rewrite Hr. cbn. eauto.
Qed.

Lemma flood_result : forall mode m refs result start r, floors_i16 m -> flood mode m refs result start = Ok r ->
  let '(dist, chunks) := r in
  length dist = length result
  /\ (forall i k, nth_error dist i = Some (S k) <-> exists chunk, nth_error chunks k = Some chunk /\ In i chunk)
  /\ (forall i, (exists k chunk, nth_error chunks k = Some chunk /\ In i chunk) <-> reached result start i)
  /\ (forall k chunk, nth_error chunks k = Some chunk ->
        exists seed, In seed chunk /\ forall i, In i chunk -> walk_to m refs result seed i)
  /\ (forall k chunk i j, nth_error chunks k = Some chunk -> In i chunk -> walkable m refs result i j ->
        exists k' chunk', (k' <= k)%nat /\ nth_error chunks k' = Some chunk' /\ In j chunk').
Proof. intros mode m refs result start [dist chunks] F H. exact (flood_ok _ _ _ _ _ _ F H). Qed.

Lemma route_result : forall std fuel mode m result dist chunks,
  floors_i16 m -> route std fuel mode m = Ok (result, (dist, chunks)) ->
  exists polygons refs start, route_input m = Ok (polygons, refs) /\ compute std fuel polygons Union = Ok result
    /\ start_of m start
    /\ (forall i, (exists k, nth_error dist i = Some (S k)) <-> reached result start i)
    /\ (forall k chunk i, nth_error chunks k = Some chunk -> In i chunk ->
          nth_error dist i = Some (S k) /\ exists seed, In seed chunk /\ walk_to m refs result seed i).
Proof.
  intros std fuel mode m result dist chunks F H. destruct (route_ok _ _ _ _ _ _ _ F H) as (polygons & refs & A & B & C).
  destruct C as (_ & C1 & C2 & C3 & _). cbn [fst snd] in *.
  eexists polygons, refs, _. split; [auto|]. split; [auto|].
  split; [|split].
  2:{ intros i. rewrite <- C2. split; [intros (k & E); apply C1 in E; destruct E as (ch & E1 & E2); eauto|].
      intros (k & ch & E1 & E2). exists k. apply C1. eauto. }
  - unfold start_of. destruct (find_player_start m); auto.
  - intros k ch i E1 E2. split; [apply C1; eauto|]. destruct (C3 _ _ E1) as (seed & S1 & S2). eauto.
Qed.
