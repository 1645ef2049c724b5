(** Segments that run along several edges of tidy polygons. *)

From Coq Require Import List ZArith QArith Bool Arith Lia Lqa.
From Verif Require Import Base Float SpecShape SpecOrder SpecIntersect SpecHandle SpecTidy SpecContainers Geometry Sweep
  Contours Compute FloatFacts ShapeFacts OrderFacts ContainerFacts TidyGeo TidyParity TidySetup CrossGeo SpecCross.
Import ListNotations.

(** *** Searching two lists side by side *)
Section Zip.
Context {P A B : Type} (f : P -> A) (g : P -> B) (ca : A -> A -> outcome comparison) (cb : B -> B -> outcome comparison).

Lemma index_map : forall {C} (h : P -> C) T i, index_nat (map h T) i = match index_nat T i with Ok p => Ok (h p) | Err e => Err e | Panic x => Panic x end.
Proof using. intros C h T i. unfold index_nat. rewrite nth_error_map. now destruct (nth_error T i). Qed.

Lemma bs_zip : forall fuel T x y base size, (forall p, In p T -> ca (f p) x = cb (g p) y) ->
  bs_loop ca fuel (map f T) x base size = bs_loop cb fuel (map g T) y base size.
Proof using.
  induction fuel as [|fuel IH]; intros T x y base size H; cbn [bs_loop]; [reflexivity|].
  destruct (size <=? 1)%nat; [reflexivity|]. rewrite !index_map.
  unfold index_nat. destruct (nth_error T (base + size / 2)) as [p|] eqn:Q; [|reflexivity]. cbn [obind].
  rewrite (H p) by (eapply nth_error_In; eassumption). destruct (cb (g p) y); cbn [obind]; auto.
Qed.

Lemma search_zip : forall T x y, (forall p, In p T -> ca (f p) x = cb (g p) y) ->
  binary_search ca (map f T) x = binary_search cb (map g T) y.
Proof using.
  intros T x y H. unfold binary_search. destruct T as [|p T]; [reflexivity|].
  set (U := p :: T) in *. replace (match map f U with [] => _ | _ :: _ => _ end) with
    (let* base := bs_loop ca (length (map f U)) (map f U) x 0 (length (map f U)) in
        let* e := index_nat (map f U) base in
        let* c := ca e x in
        Ok match c with Eq => (true, base) | Lt => (false, Datatypes.S base) | Gt => (false, base) end) by reflexivity.
  replace (match map g U with [] => _ | _ :: _ => _ end) with
    (let* base := bs_loop cb (length (map g U)) (map g U) y 0 (length (map g U)) in
        let* e := index_nat (map g U) base in
        let* c := cb e y in
        Ok match c with Eq => (true, base) | Lt => (false, Datatypes.S base) | Gt => (false, base) end) by reflexivity.
  rewrite !map_length, (bs_zip _ U x y _ _ H). destruct (bs_loop cb _ (map g U) y 0 _) as [base| |]; cbn [obind]; [|reflexivity..].
  rewrite !index_map. unfold index_nat. destruct (nth_error U base) as [q|] eqn:Q; [|reflexivity]. cbn [obind].
  now rewrite (H q) by (eapply nth_error_In; eassumption).
Qed.

Lemma map_insert : forall {C} (h : P -> C) i p T, map h (insert_at i p T) = insert_at i (h p) (map h T).
Proof using. intros. unfold insert_at. now rewrite map_app, firstn_map, map_cons, skipn_map. Qed.
Lemma map_remove : forall {C} (h : P -> C) i T, map h (remove_at i T) = remove_at i (map h T).
Proof using. intros. unfold remove_at. now rewrite map_app, firstn_map, skipn_map. Qed.
Lemma map_before : forall {C} (h : P -> C) T i, before (map h T) i = match before T i with Ok o => Ok (option_map h o) | Err e => Err e | Panic x => Panic x end.
Proof using. intros C h T [|i]; cbn [before]; [reflexivity|]. rewrite index_map. now destruct (index_nat T i). Qed.
End Zip.

(** *** Integer points on an edge *)
Definition on_at (e : edge) (v : Z * Z) : Prop := on e (inject_Z (fst v)) (inject_Z (snd v)).

Lemma on_at_iff : forall e v, lr e -> on_at e v <->
  orient (e_left e) (e_right e) v = 0%Z /\ lex_z v (e_left e) <> Lt /\ lex_z (e_right e) v <> Lt.
Proof.
  intros e v Le. split; [|intros (H1 & H2 & H3); now apply on_line].
  intros H. pose proof Le as Le'. unfold lr in Le'. apply lex_lt in Le'. destruct Le' as [Sl|[V Up]].
  - assert (Se : sloped e) by exact Sl. destruct (on_inv _ _ _ Se H) as (H1 & H2 & H3).
    assert (O : orient (e_left e) (e_right e) v = 0%Z).
    { apply inject_inj. rewrite (orient_yat e v Se), H3. ring. }
    split; [exact O|]. rewrite <- Zle_Qle in H1, H2. unfold orient in O. split; rewrite lex_lt; intros [X|[X Y]]; try lia.
    + rewrite X in O. nia.
    + rewrite <- X in O. nia.
  - destruct H as (t & T0 & T1 & X & Y). rewrite V in X. rewrite Z.sub_diag in X.
    assert (X' : inject_Z (fst v) == inject_Z (fst (e_right e))) by (rewrite X; change (inject_Z 0) with 0%Q; ring). apply inject_inj in X'.
    rewrite inject_sub in Y. rewrite Zlt_Qlt in Up.
    assert (Y1 : (snd (e_left e) <= snd v)%Z) by (rewrite Zle_Qle; rewrite Y; nra).
    assert (Y2 : (snd v <= snd (e_right e))%Z) by (rewrite Zle_Qle; rewrite Y; nra).
    split; [unfold orient; rewrite X', V; ring|]. split; rewrite lex_lt; lia.
Qed.

Lemma col_sign : forall l r m r1 r2, orient l r m = 0%Z -> lex_z m r1 = Lt -> lex_z m r2 = Lt -> orient m r1 r2 = 0%Z ->
  Z.sgn (orient l r r1) = Z.sgn (orient l r r2).
Proof.
  intros l r m r1 r2 O H1 H2 C. set (z := (fst m + (fst r - fst l), snd m + (snd r - snd l))%Z).
  pose proof (dir_sign m r1 r2 z H1 H2 C) as Q.
  replace (orient l r r1) with (- orient m r1 z)%Z by (revert O; unfold orient, z; cbn [fst snd]; lia).
  replace (orient l r r2) with (- orient m r2 z)%Z by (revert O; unfold orient, z; cbn [fst snd]; lia).
  now rewrite !Z.sgn_opp, Q.
Qed.

Section Drawn.
Variables (E : list edge) (S : list bseg).
Hypothesis D : drawn E S.
Notation eg := (eg E).
Notation L s := (e_left (eg s)).
Notation R s := (e_right (eg s)).
Notation poly s := (e_poly (eg s)).
Notation together := (together E).

(** From [b] straight on along [tl]. *)
Fixpoint linked (b : bseg) (tl : list bseg) : Prop :=
  match tl with
  | [] => True
  | c :: tl' => R b = L c /\ orient (L b) (R b) (R c) = 0%Z /\ poly b = poly c /\ linked c tl'
  end.
Fixpoint final (b : bseg) (tl : list bseg) : bseg := match tl with [] => b | c :: tl' => final c tl' end.
Definition reach (b : bseg) (tl : list bseg) : Z * Z := R (final b tl).
Definition span (b : bseg) (tl : list bseg) : edge := mk_edge (poly b) (L b) (reach b tl).
Definition chain (b : bseg) (tl : list bseg) : Prop := linked b tl /\ forall c, In c (b :: tl) -> In c S.

Lemma seg_lr : forall c, In c S -> lex_z (L c) (R c) = Lt.
Proof using D. intros c H. now apply (seg_spec _ _ D). Qed.

Lemma chain_tail : forall b c tl, chain b (c :: tl) -> chain c tl.
Proof using. intros b c tl [(H1 & H2 & H3 & H4) H]. split; [exact H4|]. intros x Hx. apply H. now right. Qed.
Lemma chain_head : forall b tl, chain b tl -> In b S.
Proof using. intros b tl [_ H]. apply H. now left. Qed.

Lemma reach_spec : forall tl b, chain b tl ->
  lex_z (L b) (reach b tl) = Lt /\ orient (L b) (R b) (reach b tl) = 0%Z /\ lex_z (reach b tl) (R b) <> Lt
  /\ (tl <> [] -> lex_z (R b) (reach b tl) = Lt).
Proof using D.
  induction tl as [|c tl IH]; intros b C.
  - pose proof (seg_lr b (chain_head _ _ C)) as H. unfold reach. cbn [final]. split; [exact H|]. split; [apply orient_same|].
    split; [rewrite lex_refl; discriminate|]. intros X. now contradict X.
  - destruct (IH c (chain_tail _ _ _ C)) as (I1 & I2 & I3 & I4). pose proof C as [(H1 & H2 & H3 & H4) H].
    unfold reach in *. cbn [final]. pose proof (seg_lr b (chain_head _ _ C)) as Lb.
    assert (Q : lex_z (R b) (R (final c tl)) = Lt) by (rewrite H1; exact I1).
    split; [eapply lex_trans; eassumption|]. split; [|split; [now apply lex_lt_not|auto]].
    apply (straight_on _ _ (R c)); auto; rewrite H1; [|exact I2]. apply seg_lr. apply H. right. now left.
Qed.

Lemma part_spec : forall tl b c, chain b tl -> In c tl -> lex_z (L c) (R b) <> Lt /\ lex_z (reach b tl) (R c) <> Lt.
Proof using D.
  induction tl as [|d tl IH]; intros b c C [].
  - subst d. pose proof C as [(H1 & _) _]. split; [rewrite H1, lex_refl; discriminate|].
    destruct (reach_spec _ _ (chain_tail _ _ _ C)) as (_ & _ & I3 & _). exact I3.
  - destruct (IH d c (chain_tail _ _ _ C) H) as [I1 I2]. split; [|exact I2]. pose proof C as [(H1 & _) HI].
    rewrite H1. apply lex_lt_not. apply (lex_lt_trans _ (R d)); [|exact I1]. apply seg_lr, HI. right. now left.
Qed.

Lemma parts_end : forall tl b c, chain b tl -> In c (b :: tl) -> lex_z (reach b tl) (R c) <> Lt.
Proof using D. intros tl b c C [<-|H]; [now apply reach_spec|now apply (part_spec tl b c)]. Qed.
Lemma parts_start : forall tl b c, chain b tl -> In c (b :: tl) -> lex_z (L c) (L b) <> Lt.
Proof using D.
  intros tl b c C [<-|H]; [rewrite lex_refl; discriminate|]. destruct (part_spec tl b c C H) as [H1 _].
  intros X. apply H1. eapply lex_trans; [exact X|]. apply seg_lr. now apply (chain_head _ _ C).
Qed.

Lemma parts_same_end : forall tl b c d, chain b tl -> In c (b :: tl) -> In d (b :: tl) -> R c = R d -> c = d.
Proof using D.
  assert (G : forall tl b c, chain b tl -> In c tl -> R b = R c -> False).
  { intros tl b c C H Q. destruct (part_spec tl b c C H) as [H1 _]. apply H1. rewrite Q. apply seg_lr. apply C. now right. }
  induction tl as [|e tl IH]; intros b c d C Hc Hd Q; [destruct Hc as [<-|[]], Hd as [<-|[]]; reflexivity|].
  destruct Hc as [<-|Hc], Hd as [<-|Hd]; [reflexivity|exfalso; eauto|exfalso; eauto|]. apply (IH e c d); auto. now apply (chain_tail b).
Qed.

Lemma parts_not_together : forall tl b c d, chain b tl -> In c (b :: tl) -> In d (b :: tl) -> together c d -> c = d.
Proof using D.
  induction tl as [|e tl IH]; intros b c d C Hc Hd [T1 T2]; [destruct Hc as [<-|[]], Hd as [<-|[]]; reflexivity|].
  destruct Hc as [<-|Hc], Hd as [<-|Hd].
  - reflexivity.
  - exfalso. destruct (part_spec _ b d C Hd). contradiction.
  - exfalso. destruct (part_spec _ b c C Hc). contradiction.
  - apply (IH e c d); auto; [now apply (chain_tail b)|now split].
Qed.

Lemma chain_app : forall t1 b c t2, chain b (t1 ++ c :: t2) -> chain b t1 /\ chain c t2 /\ reach b t1 = L c /\ reach b (t1 ++ c :: t2) = reach c t2
  /\ orient (L (final b t1)) (R (final b t1)) (R c) = 0%Z /\ poly c = poly b.
Proof using.
  induction t1 as [|d t1 IH]; intros b c t2 C.
  - pose proof C as [(H1 & H2 & H3 & H4) H]. cbn [app] in *. split; [split; [exact I|]; intros x [<-|[]]; apply H; now left|].
    split; [now apply (chain_tail b)|]. unfold reach. cbn [final]. repeat split; auto.
  - cbn [app] in C. destruct (IH d c t2 (chain_tail _ _ _ C)) as (I1 & I2 & I3 & I4 & I5 & I6). pose proof C as [(H1 & H2 & H3 & H4) H].
    split; [split|].
    + cbn [linked]. repeat split; auto. apply I1.
    + intros x [<-|Hx]; [apply H; now left|]. now apply I1.
    + split; [exact I2|]. unfold reach in *. cbn [app final]. rewrite H3. auto.
Qed.

Lemma on_span : forall tl b v, chain b tl -> on_at (span b tl) v -> exists c, In c (b :: tl) /\ on_at (eg c) v.
Proof using D.
  induction tl as [|c tl IH]; intros b v C O.
  - exists b. split; [now left|]. unfold span, reach in O. cbn [final] in O. exact O.
  - destruct (reach_spec _ _ C) as (R1 & R2 & R3 & R4). apply on_at_iff in O; [|exact R1]. cbn [span e_left e_right] in O. destruct O as (O1 & O2 & O3).
    assert (Hb : In b S) by apply (chain_head _ _ C). pose proof (seg_lr b Hb) as Lb.
    assert (Ob : orient (L b) (R b) v = 0%Z).
    { pose proof (dir_sign _ _ _ v Lb R1 R2) as Q. rewrite O1 in Q. now apply Z.sgn_null_iff. }
    destruct (lex_z (R b) v) eqn:X; [| |].
    3: exists b; split; [now left|]; apply on_at_iff; [exact Lb|]; split; [exact Ob|]; split; [exact O2|]; congruence.
    + exists b. split; [now left|]. apply on_at_iff; [exact Lb|]. split; [exact Ob|]. split; [exact O2|]. congruence.
    + destruct (IH c v (chain_tail _ _ _ C)) as (d & D1 & D2); [|exists d; split; [now right|exact D2]].
      pose proof C as [(H1 & H2 & H3 & H4) H]. pose proof (chain_tail _ _ _ C) as C'. destruct (reach_spec _ _ C') as (S1 & S2 & S3 & S4).
      apply on_at_iff; [exact S1|]. cbn [span e_left e_right]. change (reach b (c :: tl)) with (reach c tl) in O3. split; [|split; [|exact O3]].
      * rewrite <- H1. pose proof (straight_on (R b) (L b) (R b)) as _.
        assert (Q : orient (L b) (R b) (reach c tl) = 0%Z) by exact R2.
        (* all on the line of [b] *)
        clear - Lb Q Ob. revert Q Ob. pose proof Lb as Lb'. apply lex_lt in Lb'. unfold orient.
        destruct (L b) as [ax ay], (R b) as [bx by_], (reach c tl) as [cx cy], v as [vx vy]. cbn [fst snd] in *. intros Q1 Q2.
        set (u := (bx - ax)%Z) in *. set (u' := (by_ - ay)%Z) in *.
        assert (U : (u <> 0 \/ u' <> 0)%Z) by (unfold u, u'; lia).
        assert (Q1' : (u * (cy - by_) = u' * (cx - bx))%Z) by (unfold u, u' in *; lia).
        assert (Q2' : (u * (vy - by_) = u' * (vx - bx))%Z) by (unfold u, u' in *; lia).
        set (p := (cx - bx)%Z) in *. set (p' := (cy - by_)%Z) in *. set (q := (vx - bx)%Z) in *. set (q' := (vy - by_)%Z) in *.
        clearbody u u' p p' q q'. clear - U Q1' Q2'. assert (G : (p * q' = p' * q)%Z); [|lia]. destruct U as [U|U].
        -- apply (Z.mul_reg_r _ _ u U). transitivity (p * (u * q'))%Z; [ring|]. rewrite Q2'. transitivity (u' * p * q)%Z; [ring|]. rewrite <- Q1'. ring.
        -- apply (Z.mul_reg_r _ _ u' U). transitivity (u' * p * q')%Z; [ring|]. rewrite <- Q1'. transitivity (p' * (u * q'))%Z; [ring|]. rewrite Q2'. ring.
      * rewrite <- H1. now apply lex_lt_not.
Qed.

Lemma on_prefix : forall t1 t2 b v, chain b (t1 ++ t2) -> on_at (span b t1) v -> on_at (span b (t1 ++ t2)) v.
Proof using D.
  intros t1 [|c t2] b v C O; [now rewrite app_nil_r|]. destruct (chain_app _ _ _ _ C) as (C1 & C2 & Q1 & Q2 & _).
  destruct (reach_spec _ _ C) as (R1 & R2 & _). destruct (reach_spec _ _ C1) as (S1 & S2 & _). destruct (reach_spec _ _ C2) as (T1 & _).
  pose proof (seg_lr b (chain_head _ _ C)) as Lb.
  apply on_at_iff in O; [|exact S1]. apply on_at_iff; [exact R1|]. cbn [span e_left e_right] in *. destruct O as (O1 & O2 & O3). split; [|split; [exact O2|]].
  - apply Z.sgn_null_iff. rewrite <- (dir_sign (L b) (R b) (reach b (t1 ++ c :: t2)) v Lb R1 R2), (dir_sign (L b) (R b) (reach b t1) v Lb S1 S2), O1. reflexivity.
  - intros X. apply O3. rewrite Q1. rewrite Q2 in X. eapply lex_trans; eassumption.
Qed.
End Drawn.
