(** [compute_holes] builds a forest. *)

From Coq Require Import List ZArith Bool Arith Lia Sorting.Permutation.
From Verif Require Import Base BaseFacts Float Geometry Sweep Contours Compute SpecShape SpecCompute
  ShapeFacts OrientFacts ContainerFacts SweepFacts TraceFacts.
Import ListNotations.

(** Nothing but orientation differs. *)
Definition turned (c c' : contour) : Prop :=
  (c_points c' = c_points c \/ c_points c' = rev (c_points c))
  /\ c_from c' = c_from c /\ c_neighbors c' = c_neighbors c /\ c_holes c' = c_holes c /\ c_external c' = c_external c.

Lemma clockwise_inv : forall c b c', clockwise c = Ok (b, c') -> c_cache c' = Some b /\ c_points c' = c_points c
  /\ c_from c' = c_from c /\ c_neighbors c' = c_neighbors c /\ c_holes c' = c_holes c /\ c_external c' = c_external c.
Proof.
  intros c b c' H. unfold clockwise in H. destruct (c_cache c) eqn:E.
  - inv H. auto 10.
  - destruct (c_points c) eqn:Ep; [discriminate|]. inv H. cbn. rewrite Ep. auto 10.
Qed.

Lemma set_ccw_inv : forall c c', set_counterclockwise c = Ok c' -> c_cache c' = Some false /\ turned c c'.
Proof.
  intros c c' H. unfold set_counterclockwise in H. bind H q Eqq. destruct q as [b c1].
  apply clockwise_inv in Eqq. destruct Eqq as (A & B & C & D & E & F). inv H.
  destruct b; unfold turned; cbn; rewrite ?A, ?B; auto 10.
Qed.
Lemma set_cw_inv : forall c c', set_clockwise c = Ok c' -> c_cache c' = Some true /\ turned c c'.
Proof.
  intros c c' H. unfold set_clockwise, counterclockwise in H. bind H q Eqq. destruct q as [b c1].
  bind Eqq q1 E1. destruct q1 as [b1 c2]. inv Eqq.
  apply clockwise_inv in E1. destruct E1 as (A & B & C & D & E & F). inv H.
  destruct b1; unfold turned; cbn; rewrite ?A, ?B; auto 10.
Qed.

Lemma turned_refl : forall c, turned c c.
Proof. intros. unfold turned. auto 10. Qed.

(** The relation between the input and a state. *)
Definition kin (c c' : contour) : Prop :=
  (c_points c' = c_points c \/ c_points c' = rev (c_points c)) /\ c_from c' = c_from c /\ c_neighbors c' = c_neighbors c.
Lemma kin_turned : forall c c' d, kin c c' -> turned c' d -> kin c d.
Proof.
  intros c c' d (A & B & C) (D & E & F & _). unfold kin. rewrite E, F. split; [|auto].
  destruct A as [A|A], D as [D|D]; rewrite D, A; auto. left. now rewrite rev_involutive.
Qed.

Lemma Forall2_weaken : forall {A B} (R S : A -> B -> Prop) l m, (forall a b, R a b -> S a b) -> Forall2 R l m -> Forall2 S l m.
Proof. intros A B R S l m H F. induction F; constructor; auto. Qed.

(** *** Collecting *)

Lemma hole_segments_data : forall l cid acc r, hole_segments cid l acc = Ok r ->
  (forall s, In s acc -> (s_data s < S cid)%nat) -> forall s, In s r -> (s_data s < S cid)%nat.
Proof.
  induction l as [|[p0 p1] l IH]; intros cid acc r H Ha; cbn [hole_segments] in H.
  - now inv H.
  - destruct (f64_eq _ _); [eapply IH; eauto|]. bind H s Es. eapply IH; eauto.
    intros t Ht. apply in_app_or in Ht. destruct Ht as [Ht|[<-|[]]]; auto.
    unfold sseg_new in Es. destruct (point_eqb _ _); [discriminate|]. destruct (_ || _); inv Es; cbn; lia.
Qed.

Lemma collect_inv : forall cs cid segs r segs', collect_holes cid cs segs = Ok (r, segs') ->
  (forall s, In s segs -> (s_data s < cid)%nat) ->
  Forall2 (fun c c' => turned c c' /\ c_cache c' = Some false) cs r
  /\ (forall s, In s segs' -> (s_data s < cid + length cs)%nat).
Proof.
  induction cs as [|c cs IH]; intros cid segs r segs' H Hs; cbn [collect_holes] in H.
  - inv H. split; [constructor|]. cbn. intros s Hin. rewrite Nat.add_0_r. auto.
  - bind H c1 E1. bind H s1 E2. bind H q E3. destruct q as [cs' s2]. inv H.
    apply set_ccw_inv in E1. destruct E1 as [E1a E1b].
    destruct (IH (S cid) s1 cs' segs' E3) as [F G].
    { eapply hole_segments_data; [eassumption|]. intros s Hin. apply Hs in Hin. lia. }
    split; [constructor; auto|]. intros s Hin. apply G in Hin. cbn [length]. lia.
Qed.

(** *** The state *)

Definition lists_ok (r : polygon) : Prop :=
  NoDup (concat (map c_holes r))
  /\ (forall i c h, nth_error r i = Some c -> In h (c_holes c) -> exists ch, nth_error r h = Some ch /\ c_external ch = false)
  /\ (forall h ch, nth_error r h = Some ch -> c_external ch = false -> exists i c, nth_error r i = Some c /\ In h (c_holes c)).

Definition cached (c : contour) : Prop := exists b, c_cache c = Some b.

Record hinv (p : polygon) (rank : nat -> nat) (st : holes_state) : Prop := mk_hinv {
  h_len : length (hs_processed st) = length (hs_contours st);
  h_len2 : length (hs_hole_of st) = length (hs_contours st);
  h_kin : Forall2 kin p (hs_contours st);
  h_cached : forall c, In c (hs_contours st) -> cached c;
  h_lists : lists_ok (hs_contours st);
  h_active : forall s, In s (hs_active st) -> nth_error (hs_processed st) (s_data s) = Some true;
  h_parent : forall i j, nth_error (hs_hole_of st) i = Some (Some j) -> nth_error (hs_processed st) j = Some true;
  h_rank : forall i, nth_error (hs_processed st) i = Some true -> (rank i < hs_nprocessed st)%nat;
  h_edges : forall i c h, nth_error (hs_contours st) i = Some c -> In h (c_holes c) ->
      nth_error (hs_processed st) i = Some true /\ nth_error (hs_processed st) h = Some true /\ (rank i < rank h)%nat;
  h_ext : forall c, In c (hs_contours st) -> c_external c = true -> c_cache c = Some false;
  h_turn : forall i c h ch, nth_error (hs_contours st) i = Some c -> In h (c_holes c) -> nth_error (hs_contours st) h = Some ch ->
      exists b, c_cache c = Some b /\ c_cache ch = Some (negb b) }.

(** What one contour becomes in a step that finds [cid] to be a hole of [parent], or
    of nothing. *)
Definition stepped (cid : nat) (parent : option nat) (flip : bool) (i : nat) (c c' : contour) : Prop :=
  kin c c' /\ c_holes c' = c_holes c ++ (match parent with Some p => if Nat.eqb i p then [cid] else [] | None => [] end)
  /\ c_external c' = (match parent with Some _ => if Nat.eqb i cid then false else c_external c | None => c_external c end)
  /\ c_cache c' = (if Nat.eqb i cid then Some flip else c_cache c).

Definition steps (cid : nat) (parent : option nat) (flip : bool) (cs cs' : polygon) : Prop :=
  length cs' = length cs /\ forall i c', nth_error cs' i = Some c' -> exists c, nth_error cs i = Some c /\ stepped cid parent flip i c c'.

Lemma kin_refl : forall c, kin c c.
Proof. intros. unfold kin. auto. Qed.
Lemma kin_trans : forall a b c, kin a b -> kin b c -> kin a c.
Proof.
  intros a b c (A & B & C) (D & E & F). unfold kin. split; [|split; congruence].
  destruct A as [A|A], D as [D|D]; rewrite D, A; auto. left. apply rev_involutive.
Qed.

Lemma outer_steps : forall cs cs' cid, update_nat cs cid set_counterclockwise = Ok cs' -> steps cid None false cs cs'.
Proof.
  intros cs cs' cid H. apply update_nat_ok in H. destruct H as (c & c1 & N & E & ->). apply set_ccw_inv in E. destruct E as [E1 E2].
  pose proof (nth_lt _ _ _ N) as L. split; [apply set_nth_length; auto|].
  intros i c' Hi. destruct (set_nth_nth _ _ _ _ _ _ N Hi) as [[-> ->]|[Ne Hi']].
  - exists c. split; [auto|]. unfold stepped. rewrite Nat.eqb_refl, app_nil_r.
    destruct E2 as (A & B & C & D & F). unfold kin. auto 10.
  - exists c'. split; [auto|]. unfold stepped. rewrite app_nil_r. destruct (Nat.eqb_spec i cid); [congruence|]. auto using kin_refl.
Qed.

Lemma hole_steps : forall cs cs' parent cid, parent <> cid -> (forall c, In c cs -> cached c) -> make_hole cs parent cid = Ok cs' ->
  exists b, (exists c, nth_error cs parent = Some c /\ c_cache c = Some b) /\ steps cid (Some parent) (negb b) cs cs'.
Proof.
  intros cs cs' parent cid Np HC H. unfold make_hole in H.
  bind H cs1 E1. bind H cs2 E2. bind H pc E3. bind H q E4. destruct q as [ccw p'].
  apply update_nat_ok in E1. destruct E1 as (c & c1 & N1 & I1 & ->). inv I1.
  apply update_nat_ok in E2. destruct E2 as (d & d1 & N2 & I2 & ->). inv I2.
  pose proof (nth_lt _ _ _ N1) as L1. rewrite nth_set_other in N2 by auto.
  pose proof (nth_lt _ _ _ N2) as L2.
  apply index_nat_nth in E3. rewrite nth_set_same in E3 by (rewrite set_nth_length; auto). inv E3.
  destruct (HC d (nth_error_In _ _ N2)) as [b Hb].
  unfold counterclockwise in E4. bind E4 q4 E5. destruct q4 as [b4 c4]. inv E4.
  unfold clockwise in E5. cbn [c_cache add_hole] in E5. rewrite Hb in E5. inv E5.
  exists b4. split; [eauto|].
  set (d1 := add_hole d cid) in *. set (c1 := set_external c false) in *.
  assert (LL1 : length (set_nth cid c1 cs) = length cs) by (apply set_nth_length; auto).
  assert (LL2 : length (set_nth parent d1 (set_nth cid c1 cs)) = length cs) by (rewrite set_nth_length; rewrite LL1; auto).
  assert (LL3 : length (set_nth parent d1 (set_nth parent d1 (set_nth cid c1 cs))) = length cs) by (rewrite set_nth_length; rewrite LL2; auto).
  assert (R : exists c2, nth_error (set_nth parent d1 (set_nth parent d1 (set_nth cid c1 cs))) cid = Some c1
     /\ c_cache c2 = Some (negb b4) /\ turned c1 c2
     /\ cs' = set_nth cid c2 (set_nth parent d1 (set_nth parent d1 (set_nth cid c1 cs)))).
  { assert (N3 : nth_error (set_nth parent d1 (set_nth parent d1 (set_nth cid c1 cs))) cid = Some c1).
    { rewrite !nth_set_other by (rewrite ?LL3, ?LL2, ?LL1; auto). apply nth_set_same; auto. }
    destruct b4; cbn [negb] in H; apply update_nat_ok in H; destruct H as (x & c2 & N4 & I4 & ->); rewrite N3 in N4; inv N4.
    - apply set_ccw_inv in I4. destruct I4. eauto.
    - apply set_cw_inv in I4. destruct I4. eauto. }
  destruct R as (c2 & N3 & C2 & T2 & ->).
  split; [rewrite set_nth_length by (rewrite LL3; auto); auto|].
  intros i c' Hi. unfold stepped. destruct (Nat.eqb_spec i cid) as [->|Ni].
  - exists c. split; [auto|]. rewrite (set_nth_at _ _ _ _ N3) in Hi. inv Hi.
    destruct (Nat.eqb_spec cid parent); [congruence|]. rewrite app_nil_r.
    destruct T2 as (A & B & C & D & F). cbn in A, B, C, D, F. unfold kin. auto 10.
  - rewrite nth_set_other in Hi by (auto; eapply nth_lt; eauto).
    destruct (Nat.eqb_spec i parent) as [->|Nip].
    + rewrite nth_set_same in Hi by (rewrite ?LL3, ?LL2, ?LL1; auto). inv Hi.
      exists d. split; [auto|]. unfold kin. cbn. auto 10.
    + rewrite !nth_set_other in Hi by (rewrite ?LL3, ?LL2, ?LL1; auto).
      exists c'. rewrite app_nil_r. auto using kin_refl.
Qed.

Lemma steps_back : forall cid parent flip cs cs' i c, steps cid parent flip cs cs' -> nth_error cs i = Some c ->
  exists c', nth_error cs' i = Some c' /\ stepped cid parent flip i c c'.
Proof.
  intros cid parent flip cs cs' i c [L S] H. destruct (nth_error_lt cs' i) as [c' Hc']; [rewrite L; eapply nth_lt; eauto|].
  exists c'. split; auto. destruct (S i c' Hc') as (c0 & E & R). congruence.
Qed.

Lemma steps_kin : forall p cid parent flip cs cs', Forall2 kin p cs -> steps cid parent flip cs cs' -> Forall2 kin p cs'.
Proof.
  intros p cid parent flip cs cs' F S. destruct S as [L S]. pose proof (Forall2_len _ _ _ F) as LF.
  apply nth_Forall2; [congruence|]. intros i a b Ha Hb. destruct (S i b Hb) as (c & Hc & (K & _)).
  eapply kin_trans; [|exact K]. eapply Forall2_nth; eauto.
Qed.

Lemma steps_lists : forall cid parent flip cs cs', lists_ok cs -> steps cid parent flip cs cs' ->
  (forall p, parent = Some p -> (p < length cs)%nat /\ (cid < length cs)%nat) ->
  (forall i c, nth_error cs i = Some c -> ~ In cid (c_holes c)) -> lists_ok cs'.
Proof.
  intros cid parent flip cs cs' (H1 & H2 & H3) S HP HN.
  assert (PP : Permutation (concat (map c_holes cs')) (match parent with Some _ => [cid] | None => [] end ++ concat (map c_holes cs))).
  { destruct parent as [p|].
    - destruct (HP p eq_refl) as [L1 L2]. destruct (nth_error_lt cs p L1) as [c Ec].
      assert (M : map c_holes cs' = set_nth p (c_holes c ++ [cid]) (map c_holes cs)).
      { destruct S as [L S]. apply nth_ext_error. intros i.
        destruct (nth_error cs' i) as [c'|] eqn:E.
        - rewrite nth_error_map, E. cbn. destruct (S i c' E) as (c0 & Ec0 & (_ & Q & _)). rewrite Q.
          destruct (Nat.eqb_spec i p) as [->|Ne].
          + rewrite nth_set_same by (rewrite map_length; auto). congruence.
          + rewrite nth_set_other by (auto; rewrite map_length; auto). rewrite nth_error_map, Ec0, app_nil_r. reflexivity.
        - rewrite nth_error_map, E. cbn. symmetry. apply nth_error_None. apply nth_error_None in E.
          rewrite set_nth_length; rewrite map_length; lia. }
      rewrite M. assert (Em : nth_error (map c_holes cs) p = Some (c_holes c)) by (rewrite nth_error_map, Ec; reflexivity).
      destruct (set_nth_split (map c_holes cs) p (c_holes c) (c_holes c ++ [cid]) Em) as [E1 ->]. rewrite E1 at 3.
      rewrite !concat_app. cbn [concat app]. rewrite <- !app_assoc.
      rewrite (app_assoc (concat _) (c_holes c) (concat _)). rewrite (app_assoc (concat _) (c_holes c)). cbn.
      symmetry. apply Permutation_middle.
    - assert (M : map c_holes cs' = map c_holes cs).
      { destruct S as [L S]. apply nth_ext_error. intros i. rewrite !nth_error_map. destruct (nth_error cs' i) as [c'|] eqn:E.
        - destruct (S i c' E) as (c0 & -> & (_ & Q & _)). cbn. rewrite Q, app_nil_r. reflexivity.
        - apply nth_error_None in E. rewrite L in E. apply nth_error_None in E. rewrite E. reflexivity. }
      rewrite M. apply Permutation_refl. }
  assert (NI : ~ In cid (concat (map c_holes cs))).
  { intros Hin. apply in_concat in Hin. destruct Hin as (l & Hl & Hin). apply in_map_iff in Hl. destruct Hl as (c & <- & Hc).
    apply In_nth_error in Hc. destruct Hc as [i Hi]. exact (HN i c Hi Hin). }
  split; [|split].
  - apply (Permutation_NoDup (Permutation_sym PP)). destruct parent; cbn; auto. constructor; auto.
  - intros i c' h Hi Hin. destruct (proj2 S i c' Hi) as (c & Hc & (_ & Q & _)). rewrite Q in Hin. apply in_app_or in Hin.
    destruct Hin as [Hin|Hin].
    + destruct (H2 i c h Hc Hin) as (ch & Eh & Xh). destruct (steps_back _ _ _ _ _ _ _ S Eh) as (ch' & Eh' & (_ & _ & X & _)).
      exists ch'. split; auto. rewrite X. destruct parent; auto. destruct (Nat.eqb h cid); auto.
    + destruct parent as [p|]; [|destruct Hin]. destruct (Nat.eqb i p); [|destruct Hin]. destruct Hin as [<-|[]].
      destruct (HP p eq_refl) as [_ L2]. destruct (nth_error_lt cs cid L2) as [ch Eh].
      destruct (steps_back _ _ _ _ _ _ _ S Eh) as (ch' & Eh' & (_ & _ & X & _)). exists ch'. rewrite Nat.eqb_refl in X. auto.
  - intros h ch' Hh Xh. destruct (proj2 S h ch' Hh) as (ch & Eh & (_ & _ & X & _)).
    assert (G : c_external ch = false -> exists i c, nth_error cs' i = Some c /\ In h (c_holes c)).
    { intros X0. destruct (H3 h ch Eh X0) as (i & c & Hi & Hin). destruct (steps_back _ _ _ _ _ _ _ S Hi) as (c' & Hi' & (_ & Q & _)).
      exists i, c'. split; auto. rewrite Q. apply in_or_app. auto. }
    destruct parent as [p|]; [|apply G; congruence]. destruct (Nat.eqb_spec h cid) as [->|]; [|apply G; congruence].
    destruct (HP p eq_refl) as [L1 _]. destruct (nth_error_lt cs p L1) as [c Ec].
    destruct (steps_back _ _ _ _ _ _ _ S Ec) as (c' & Hi' & (_ & Q & _)). exists p, c'. split; auto.
    rewrite Q, Nat.eqb_refl. apply in_or_app. cbn. auto.
Qed.

(** One contour is settled. *)
Lemma settle : forall p rank st cs' cid parent flip active hole_of, hinv p rank st ->
  nth_error (hs_processed st) cid = Some false ->
  (forall s, In s active -> nth_error (set_nth cid true (hs_processed st)) (s_data s) = Some true) ->
  (forall q, parent = Some q -> nth_error (hs_processed st) q = Some true
     /\ (exists c, nth_error (hs_contours st) q = Some c /\ c_cache c = Some (negb flip))) ->
  (parent = None -> flip = false) ->
  hole_of = match parent with Some q => set_nth cid (Some q) (hs_hole_of st) | None => hs_hole_of st end ->
  steps cid parent flip (hs_contours st) cs' ->
  hinv p (fun i => if Nat.eqb i cid then hs_nprocessed st else rank i)
    (mk_hs cs' active (set_nth cid true (hs_processed st)) hole_of (S (hs_nprocessed st))).
Proof.
  intros p rank st cs' cid parent flip active hole_of I Nc Ha Hp Hn Hh S.
  destruct I as [Il Il2 Ik Ic Ils Ia Ip Ir Ie Ix It].
  pose proof (nth_lt _ _ _ Nc) as Lc.
  assert (Keep : forall i, nth_error (hs_processed st) i = Some true -> i <> cid /\ nth_error (set_nth cid true (hs_processed st)) i = Some true).
  { intros i Hi. assert (i <> cid) by congruence. split; auto. now rewrite nth_set_other by auto. }
  assert (HN : forall i c, nth_error (hs_contours st) i = Some c -> ~ In cid (c_holes c)).
  { intros i c Hi Hin. destruct (Ie i c cid Hi Hin) as (_ & F & _). congruence. }
  assert (Edge : forall i c' h, nth_error cs' i = Some c' -> In h (c_holes c') ->
    exists c, nth_error (hs_contours st) i = Some c /\ stepped cid parent flip i c c' /\
      (In h (c_holes c) \/ parent = Some i /\ h = cid)).
  { intros i c' h Hi Hin. destruct (proj2 S i c' Hi) as (c & Hc & St). exists c. split; [auto|]. split; [auto|].
    destruct St as (_ & Q & _). rewrite Q in Hin. apply in_app_or in Hin. destruct Hin as [Hin|Hin]; [auto|right].
    destruct parent as [q|]; [|destruct Hin]. destruct (Nat.eqb_spec i q); [|destruct Hin]. destruct Hin as [<-|[]]. subst. auto. }
  constructor; cbn [hs_contours hs_active hs_processed hs_hole_of hs_nprocessed].
  - rewrite set_nth_length by auto. rewrite (proj1 S). auto.
  - rewrite (proj1 S), <- Il2. subst hole_of. destruct parent; [|auto]. apply set_nth_length. rewrite Il2, <- Il. auto.
  - eapply steps_kin; eauto.
  - intros c' Hin. apply In_nth_error in Hin. destruct Hin as [i Hi]. destruct (proj2 S i c' Hi) as (c & Hc & (_ & _ & _ & Q)).
    unfold cached. rewrite Q. destruct (Nat.eqb i cid); eauto. apply Ic. eapply nth_error_In; eauto.
  - eapply steps_lists; eauto. intros q ->. destruct (Hp q eq_refl) as [A _]. apply nth_lt in A. rewrite <- Il. auto.
  - exact Ha.
  - intros i j Hij. subst hole_of. destruct parent as [q|].
    + destruct (Nat.eq_dec i cid) as [->|Ni].
      * rewrite nth_set_same in Hij by (rewrite Il2, <- Il; auto). inv Hij. apply Keep. apply (Hp j eq_refl).
      * rewrite nth_set_other in Hij by (auto; rewrite Il2, <- Il; auto). apply Keep. eauto.
    + apply Keep. eauto.
  - intros i Hi. destruct (Nat.eqb_spec i cid); [lia|]. rewrite nth_set_other in Hi by auto. apply Ir in Hi. lia.
  - intros i c' h Hi Hin. destruct (Edge i c' h Hi Hin) as (c & Hc & _ & [Hin'|[Hq ->]]).
    + destruct (Ie i c h Hc Hin') as (A & B & C). destruct (Keep i A) as [Na A']. destruct (Keep h B) as [Nb B'].
      split; [auto|]. split; [auto|]. destruct (Nat.eqb_spec i cid); [congruence|]. destruct (Nat.eqb_spec h cid); [congruence|]. auto.
    + destruct (Hp i Hq) as [A _]. destruct (Keep i A) as [Na A']. split; [auto|]. split; [apply nth_set_same; auto|].
      rewrite Nat.eqb_refl. destruct (Nat.eqb_spec i cid); [congruence|]. auto.
  - intros c' Hin Hx. apply In_nth_error in Hin. destruct Hin as [i Hi]. destruct (proj2 S i c' Hi) as (c & Hc & (_ & _ & X & Q)).
    rewrite Q. rewrite X in Hx. destruct (Nat.eqb i cid).
    + destruct parent as [q|]; [discriminate|]. rewrite Hn; auto.
    + apply Ix; [eapply nth_error_In; eauto|]. destruct parent; auto.
  - intros i c' h ch' Hi Hin Hh'. destruct (Edge i c' h Hi Hin) as (c & Hc & (_ & _ & _ & Q) & [Hin'|[Hq ->]]).
    + destruct (Ie i c h Hc Hin') as (A & B & C). destruct (Keep i A) as [Na A']. destruct (Keep h B) as [Nb B'].
      destruct (proj2 S h ch' Hh') as (ch & Hch & (_ & _ & _ & Qh)).
      destruct (It i c h ch Hc Hin' Hch) as (b & X & Y). exists b. rewrite Q, Qh.
      destruct (Nat.eqb_spec i cid); [congruence|]. destruct (Nat.eqb_spec h cid); [congruence|]. auto.
    + destruct (Hp i Hq) as [A (c0 & Hc0 & X)]. destruct (Keep i A) as [Na A']. assert (c0 = c) by congruence. subst c0.
      destruct (proj2 S cid ch' Hh') as (ch & Hch & (_ & _ & _ & Qh)). rewrite Nat.eqb_refl in Qh.
      destruct (Nat.eqb_spec i cid); [congruence|]. exists (negb flip). rewrite Q, Qh, negb_involutive. auto.
Qed.

Lemma segment_cmp_self : forall T (s : sseg T), segment_cmp s s = Ok Eq.
Proof. intros. unfold segment_cmp. now rewrite Nat.eqb_refl. Qed.

Section Loop.
  Variable std : std_impl.
  Hypothesis LAW : std_laws std.

  Lemma holes_step_inv : forall p rank st e st', hinv p rank st -> holes_step std st e = Ok st' -> exists rank', hinv p rank' st'.
  Proof using LAW.
    intros p rank st [segment en] st' I H. unfold holes_step in H. destruct en.
    2: { bind H active Ea. inv H. exists rank. destruct I as [Il Il2 Ik Ic Ils Ia Ip Ir Ie Ix It].
         constructor; cbn [hs_contours hs_active hs_processed hs_hole_of hs_nprocessed]; auto.
         intros s Hs. apply (remove_incl std LAW) in Ea. auto. }
    bind H active Ea. bind H done Ed. apply index_nat_nth in Ed. apply (insert_incl std LAW) in Ea.
    destruct done.
    { inv H. exists rank. destruct I as [Il Il2 Ik Ic Ils Ia Ip Ir Ie Ix It].
      constructor; cbn [hs_contours hs_active hs_processed hs_hole_of hs_nprocessed]; auto.
      intros s Hs. destruct (Ea s Hs) as [<-|Hin]; auto. }
    pose proof (nth_lt _ _ _ Ed) as Lc.
    assert (HA : forall s, In s active -> nth_error (set_nth (s_data segment) true (hs_processed st)) (s_data s) = Some true).
    { intros s Hs. destruct (Ea s Hs) as [<-|Hin]; [apply nth_set_same; auto|].
      pose proof (h_active _ _ _ I s Hin) as A. rewrite nth_set_other; auto. intros E. congruence. }
    bind H prev Ep.
    assert (Outer : (let* cs := update_nat (hs_contours st) (s_data segment) set_counterclockwise in
       Ok (mk_hs cs active (set_nth (s_data segment) true (hs_processed st)) (hs_hole_of st) (S (hs_nprocessed st)))) = Ok st' ->
       exists rank', hinv p rank' st').
    { intros H'. bind H' cs Ec. inv H'. apply outer_steps in Ec. eexists.
      eapply (settle p rank st cs (s_data segment) None false); eauto. discriminate. }
    destruct prev as [prev|]; [|auto].
    bind H par Epar. destruct par as [par|]; [|auto]. bind H cs Ec. inv H.
    apply (before_member std LAW) in Ep. destruct Ep as [Pin Pgt].
    assert (Pp : nth_error (hs_processed st) (s_data prev) = Some true).
    { destruct (Ea prev Pin) as [<-|Hin]; [rewrite segment_cmp_self in Pgt; discriminate|]. apply (h_active _ _ _ I prev Hin). }
    assert (Q : nth_error (hs_processed st) par = Some true).
    { destruct (negb (s_out prev)); [inv Epar; auto|]. apply index_nat_nth in Epar. eapply h_parent; eauto. }
    assert (Npc : par <> s_data segment) by congruence.
    destruct (hole_steps _ _ _ _ Npc (h_cached _ _ _ I) Ec) as (b & (c & Hc & Hb) & St).
    eexists. eapply (settle p rank st cs (s_data segment) (Some par) (negb b)); eauto.
    - intros q Hq. inv Hq. split; auto. exists c. rewrite negb_involutive. auto.
    - discriminate.
  Qed.

  Lemma holes_loop_inv : forall p l rank st st', hinv p rank st -> holes_loop std l st = Ok st' -> exists rank', hinv p rank' st'.
  Proof using LAW.
    intros p. induction l as [|e l IH]; intros rank st st' I H; cbn [holes_loop] in H.
    - inv H. eauto.
    - destruct (_ <=? _)%nat; [inv H; eauto|]. bind H st1 E. destruct (holes_step_inv _ _ _ _ _ I E) as [rank1 I1]. eapply IH; eauto.
  Qed.

  Lemma clockwise_cached : forall c b, c_cache c = Some b -> clockwise c = Ok (b, c).
  Proof using. intros c b H. unfold clockwise. now rewrite H. Qed.

  Lemma compute_holes_forest : forall p r, Forall plain p -> compute_holes std p = Ok r -> hole_forest p r.
  Proof using LAW.
    intros p r PL H. unfold compute_holes in H.
    destruct p as [|c0 [|c1 p]].
    - inv H. split; [constructor|]. split; [constructor|].
      split; [intros i c h Hi; destruct i; discriminate|]. split; [intros h ch Hi; destruct h; discriminate|].
      split; [exists (fun _ => 0%nat); intros i c h Hi; destruct i; discriminate|].
      split; [intros c []|intros i c h ch Hi; destruct i; discriminate].
    - bind H q E. destruct q as [b c]. apply clockwise_inv in E. destruct E as (A & B & C & D & E & F).
      inversion PL as [|x l [P1 P2] _]. subst x l.
      set (c' := if b : bool then change_orientation c else c) in *.
      assert (G : c_cache c' = Some false /\ kin c0 c' /\ c_holes c' = [] /\ c_external c' = true).
      { unfold c', kin. destruct b; cbn; rewrite ?A, ?B, ?E, ?F, ?P1, ?P2; auto 10. }
      destruct G as (G1 & G2 & G3 & G4). clearbody c'. inv H.
      assert (NH : forall i c, nth_error [c'] i = Some c -> c = c') by (intros [|[|i]] x Hx; inv Hx; auto).
      split; [constructor; [exact G2|constructor]|]. split; [cbn; rewrite G3; constructor|].
      split; [intros i x h Hi Hin; rewrite (NH _ _ Hi), G3 in Hin; destruct Hin|].
      split; [intros i x Hi Hx; rewrite (NH _ _ Hi) in Hx; congruence|].
      split; [exists (fun _ => 0%nat); intros i x h Hi Hin; rewrite (NH _ _ Hi), G3 in Hin; destruct Hin|].
      split; [intros x [<-|[]] _; apply clockwise_cached; auto|intros i x h ch Hi Hin; rewrite (NH _ _ Hi), G3 in Hin; destruct Hin].
    - remember (c0 :: c1 :: p) as pp. clear Heqpp c0 c1 p. rename pp into p.
      bind H q E. destruct q as [cs segs]. bind H eps Es. bind H st El. inv H.
      apply collect_inv in E; [|intros s []]. destruct E as [F D]. pose proof (Forall2_len _ _ _ F) as LF.
      assert (PL' : forall i c, nth_error cs i = Some c -> c_holes c = [] /\ c_external c = true /\ c_cache c = Some false).
      { intros i c Hi. destruct (Forall2_nth_l _ _ _ _ _ F Hi) as (c0 & Hc0 & (T1 & T2 & T3 & T4 & T5) & T6).
        rewrite Forall_forall in PL. destruct (PL c0 (nth_error_In _ _ Hc0)) as [P1 P2]. rewrite T4, T5. auto. }
      assert (Fal : forall n i, nth_error (repeat false n) i = Some true -> False).
      { intros n i Hi. apply nth_error_In, repeat_spec in Hi. discriminate. }
      match type of El with holes_loop _ _ ?s0 = _ => assert (I0 : hinv p (fun _ => 0%nat) s0) end.
      { constructor; cbn [hs_contours hs_active hs_processed hs_hole_of hs_nprocessed].
        - apply repeat_length.
        - apply repeat_length.
        - eapply Forall2_weaken; [|exact F]. intros a b ((T1 & T2 & T3 & _) & _). unfold kin. auto.
        - intros c Hin. apply In_nth_error in Hin. destruct Hin as [i Hi]. exists false. apply (PL' i c Hi).
        - split; [|split].
          + replace (concat (map c_holes cs)) with (@nil nat); [constructor|]. symmetry. apply concat_nil_Forall. apply Forall_forall.
            intros x Hx. apply in_map_iff in Hx. destruct Hx as (c & <- & Hc). apply In_nth_error in Hc. destruct Hc as [i Hi]. apply (PL' i c Hi).
          + intros i c h Hi Hin. destruct (PL' i c Hi) as [X _]. rewrite X in Hin. destruct Hin.
          + intros h ch Hi Hx. destruct (PL' h ch Hi) as (_ & X & _). congruence.
        - intros s [].
        - intros i j Hij. apply nth_error_In, repeat_spec in Hij. discriminate.
        - intros i Hi. destruct (Fal _ _ Hi).
        - intros i c h Hi Hin. destruct (PL' i c Hi) as [X _]. rewrite X in Hin. destruct Hin.
        - intros c Hin _. apply In_nth_error in Hin. destruct Hin as [i Hi]. apply (PL' i c Hi).
        - intros i c h ch Hi Hin. destruct (PL' i c Hi) as [X _]. rewrite X in Hin. destruct Hin. }
      destruct (holes_loop_inv _ _ _ _ _ I0 El) as [rank I].
      destruct I as [Il Il2 Ik Ic Ils Ia Ip Ir Ie Ix It]. destruct Ils as (L1 & L2 & L3).
      split; [exact Ik|]. split; [exact L1|]. split; [exact L2|]. split; [exact L3|].
      split; [exists rank; intros i c h Hi Hin; apply (Ie i c h Hi Hin)|].
      split; [intros c Hin Hx; apply clockwise_cached; auto|].
      intros i c h ch Hi Hin Hh. destruct (It i c h ch Hi Hin Hh) as (b & X & Y). exists b. split; apply clockwise_cached; auto.
  Qed.
End Loop.

Lemma compute_holes_spec : forall std p r, std_laws std -> (forall c, In c p -> c_holes c = [] /\ c_external c = true) ->
  compute_holes std p = Ok r -> hole_forest p r.
Proof. intros std p r L H. apply compute_holes_forest; auto. apply Forall_forall. exact H. Qed.
