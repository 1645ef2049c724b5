(** Proofs about the info command (C92, C93). *)

From Coq Require Import String List ZArith Bool Lia Sorted Permutation.
From Coq Require Import Strings.Byte.
From Verif Require Import SpecBytes Base BaseFacts ParseWad ArchiveWad ParseMap ParseTexturex SpecMapName SpecArchive SpecLumps SpecMap
  ArchiveFacts ToArchiveFacts ParseMapFacts PropsArchiveAux MapModel MapFacts Universe Info SpecInfo.
Import ListNotations.
Local Open Scope Z_scope.

(** ** Printing *)

Lemma quiet_ok : forall {A B} (a : A) (k : A -> printing B), pbind (quiet (Ok a)) k = k a.
Proof. intros A B a k. unfold pbind, quiet. cbn [fst snd app]. destruct (k a). reflexivity. Qed.
Lemma quiet_err : forall {A B} e (k : A -> printing B), pbind (quiet (Err e)) k = ([], Err e).
Proof. reflexivity. Qed.
Lemma quiet_panic : forall {A B} p (k : A -> printing B), pbind (quiet (Panic p)) k = ([], Panic p).
Proof. reflexivity. Qed.
Lemma ok_bind : forall {A B} l (a : A) (k : A -> printing B), pbind (l, Ok a) k = (l ++ fst (k a), snd (k a)).
Proof. reflexivity. Qed.

Lemma each_app : forall {A} (f : A -> printing unit) l l',
  each f (l ++ l') = pbind (each f l) (fun _ => each f l').
Proof.
  intros A f l l'. induction l as [|x l IH]; cbn [app each].
  - unfold pbind. cbn. destruct (each f l'). reflexivity.
  - rewrite IH. unfold pbind. destruct (f x) as [o [u|e|p]]; cbn [fst snd]; try reflexivity.
    destruct (each f l) as [o' [u'|e|p]]; cbn [fst snd]; rewrite ?app_assoc; reflexivity.
Qed.

Lemma each_say : forall {A} (g : A -> text) l, each (fun x => ([g x], Ok tt)) l = (map g l, Ok tt).
Proof. intros A g l. induction l as [|x l IH]; cbn [each map]; [reflexivity|]. rewrite IH. reflexivity. Qed.

(** ** The items *)

Lemma in_bounds_read : forall w b f, block_ok (directory w) b -> item_in_bounds w (WMap b) -> lump_index f b <> None -> exists d, lump_data w b f d.
Proof.
  intros w b f Hb (_ & H) N. destruct (lump_index f b) as [k|] eqn:E; [|congruence].
  destruct (block_index_entry _ _ _ _ Hb E) as (e & He & _). eexists. exists k, e. split; [exact E|]. split; [exact He|].
  split; [eapply H; eauto|reflexivity].
Qed.

Lemma item_printed : forall w x its, unsigned_entries w -> (match x with WMap b => block_ok (directory w) b | _ => plain_item (directory w) x end) ->
  archived w x its -> item_in_bounds w x ->
  (exists ls, item_lines w x ls /\ each info_item its = (ls, Ok tt))
  \/ (exists b f, x = WMap b /\ first_unreadable_lump w b f /\ each info_item its = ([], Err (MissingMapLump (lump_string f)))).
Proof.
  intros w x its Hu HK HA HB. destruct HA as [b m Hm|i e|i e|i e en He].
  - cbn [each info_item]. rewrite (archive_parse_same w b m Hu Hm). pose proof Hm as Hm'. destruct Hm' as (_ & En & _).
    destruct (parse_doom_map_cases w b Hu) as [([b'|b'] & D & ->)|[(f & Hf & Hn & ->)|(f & p & Hf & Hn & ->)]].
    + left. rewrite quiet_ok, from_bare_conv, quiet_ok. eexists. split; [eapply il_doom, D|]. rewrite En. reflexivity.
    + left. rewrite quiet_ok. eexists. split; [eapply il_hexen, D|]. rewrite En. reflexivity.
    + right. exists b, f. repeat split; try apply Hf; reflexivity.
    + exfalso. destruct (in_bounds_read w b f HK HB Hn) as (d & Hd). destruct Hf as [_ Hf]. exact (Hf d Hd).
  - left. eexists. split; [constructor|reflexivity].
  - left. eexists. split; [constructor|reflexivity].
  - left. eexists. split; [constructor|]. destruct He as (e' & He' & Hn & _). cbn in HK. destruct HK as (HK & _).
    rewrite HK in He'. injection He' as <-. cbn [each info_item]. rewrite Hn. reflexivity.
Qed.

Lemma items_printed : forall w xs parts, unsigned_entries w -> (forall x, In x xs -> In x (iter w)) -> Forall2 (archived w) xs parts ->
  (forall x, In x xs -> item_in_bounds w x) ->
  (exists ls, Forall2 (item_lines w) xs ls /\ each info_item (concat parts) = (concat ls, Ok tt))
  \/ (exists xs1 b ys ls f, xs = xs1 ++ WMap b :: ys /\ Forall2 (item_lines w) xs1 ls /\ first_unreadable_lump w b f
      /\ each info_item (concat parts) = (concat ls, Err (MissingMapLump (lump_string f)))).
Proof.
  intros w xs parts Hu HI HF HB. induction HF as [|x its xs parts Hx HF IH]; cbn [concat].
  - left. exists []. split; [constructor|reflexivity].
  - rewrite each_app.
    assert (K : match x with WMap b => block_ok (directory w) b | _ => plain_item (directory w) x end).
    { pose proof (iter_kinds w x (HI x (or_introl eq_refl))) as K. destruct x; [exact K|apply K|apply K|apply K]. }
    destruct (item_printed w x its Hu K Hx (HB x (or_introl eq_refl))) as [(l & Hl & ->)|(b & f & -> & Hf & ->)].
    + rewrite ok_bind. destruct IH as [(ls & Hls & ->)|(xs1 & b & ys & ls & f & -> & Hls & Hf & ->)]; [intros; apply HI; right; auto|intros; apply HB; right; auto| |].
      * left. exists (l :: ls). split; [constructor; auto|reflexivity].
      * right. exists (x :: xs1), b, ys, (l :: ls), f. split; [reflexivity|]. split; [constructor; auto|]. split; [exact Hf|reflexivity].
    + right. exists [], b, xs, [], f. split; [reflexivity|]. split; [constructor|]. split; [exact Hf|reflexivity].
Qed.

(** ** Flats *)

Lemma flats_printed : forall w ks es, unsigned_entries w -> Forall2 (fun k x => nth_error (directory w) k = Some x) ks es ->
  (exists fs, Forall2 (flat_line w) ks fs /\ each (info_flat w) es = (fs, Ok tt))
  \/ (exists ks1 k ks2 e fs, ks = ks1 ++ k :: ks2 /\ Forall2 (flat_line w) ks1 fs /\ nth_error (directory w) k = Some e
      /\ ~ in_bounds (buffer w) e /\ each (info_flat w) es = (fs, Panic PSlice)).
Proof.
  intros w ks es Hu HF. induction HF as [|k e ks es Hk HF IH]; cbn [each].
  - left. exists []. split; [constructor|reflexivity].
  - destruct (unsigned_nth _ _ _ Hu Hk) as [U1 U2]. unfold info_flat at 1 3.
    destruct (extract_slice_cases e (buffer w) U1 U2) as [(Hb & d & Hd & ->)|(Hb & ->)].
    + rewrite quiet_ok. unfold say. rewrite ok_bind.
      assert (L : flat_line w k (TName (name e))) by (exists e; auto).
      destruct IH as [(fs & Hfs & ->)|(ks1 & k' & ks2 & e' & fs & -> & Hfs & Hk' & Hb' & ->)].
      * left. exists (TName (name e) :: fs). split; [constructor; auto|reflexivity].
      * right. exists (k :: ks1), k', ks2, e', (TName (name e) :: fs). split; [reflexivity|]. split; [constructor; auto|]. auto.
    + right. rewrite quiet_panic. exists [], k, ks, e, []. split; [reflexivity|]. split; [constructor|]. auto.
Qed.

(** ** Texture names *)

Lemma stock_iff : forall nm, existsb (bytes_eqb nm) DOOM2_TEXTURES = true <-> In nm DOOM2_TEXTURES.
Proof.
  intros nm. rewrite existsb_exists. split; [intros (x & Hx & E); apply bytes_eqb_eq in E; congruence|].
  intros H. exists nm. split; [exact H|apply bytes_eqb_refl].
Qed.

Lemma new_names_spec : forall ts, new_textures ts (new_names (map tx_name ts)).
Proof.
  intros ts. unfold new_names. split; [apply NoDup_filter, NoDup_nodup|]. intros nm. rewrite filter_In, nodup_In, in_map_iff, negb_true_iff.
  rewrite <- (stock_iff nm). destruct (existsb (bytes_eqb nm) DOOM2_TEXTURES); split; intros [H1 H2]; (split; [|congruence]);
    destruct H1 as (t & H1 & H3); exists t; auto.
Qed.

Lemma new_textures_perm : forall ts l l', new_textures ts l -> Permutation l l' -> new_textures ts l'.
Proof.
  intros ts l l' [N H] P. split; [eapply Permutation_NoDup; eauto|]. intros nm. rewrite <- H. split; apply Permutation_in; [now apply Permutation_sym|exact P].
Qed.

Lemma new_textures_unique : forall ts l l', new_textures ts l -> new_textures ts l' -> Permutation l l'.
Proof. intros ts l l' [N H] [N' H']. apply NoDup_Permutation; auto. intros nm. rewrite H, H'. tauto. Qed.

(** C92. *)
Lemma info_runs : forall order w, unsigned_entries w -> (forall l, Permutation l (order l)) ->
  info_run w (fst (do_info order w)) (snd (do_info order w)).
Proof.
  intros order w Hu HO. unfold do_info, say. rewrite !ok_bind. cbn [fst snd].
  match goal with |- info_run w (?a ++ ?b ++ ?c) _ => change (a ++ b ++ c) with (info_header w ++ c) end.
  destruct (to_archive_cases w Hu) as [(HB & parts & HF & ->)|((x & Hx & Hn) & ->)].
  2: { rewrite quiet_panic. cbn [fst snd]. rewrite app_nil_r. eapply ir_outside; eauto. }
  rewrite quiet_ok. cbn [contents].
  destruct (items_printed w (iter w) parts Hu (fun x H => H) HF HB) as [(ls & Hls & ->)|(xs & b & ys & ls & f & E & Hls & Hf & ->)].
  2: { cbn [pbind fst snd]. eapply ir_missing; eauto. }
  rewrite ok_bind. cbn [fst snd].
  pose proof (between_loop_idx (bs "F_START") (bs "F_END") (directory w) (directory w) false 0 eq_refl) as BI.
  assert (FA : flats_at w (between_idx (bs "F_START") (bs "F_END") false 0 (directory w))).
  { split; [apply between_idx_sorted|]. apply between_ks_spec. discriminate. }
  destruct (flats_printed w _ _ Hu BI) as [(fs & Hfs & ->)|(ks1 & k & ks2 & e & fs & E & Hfs & Hk & Hb & ->)].
  2: { cbn [pbind fst snd]. rewrite E in FA. eapply ir_flat; eauto. }
  rewrite ok_bind. cbn [fst snd].
  set (t1 := first_entry w (bs "TEXTURE1")). set (t2 := first_entry w (bs "TEXTURE2")).
  assert (O : forall nm, lump_outside w nm -> first_entry w nm = Panic PSlice).
  { intros nm (k & e & F & Hk & Hb). destruct (first_entry_cases w nm Hu) as [[Hn _]|(k' & e' & F' & Hk' & [(d & Hd & _)|(_ & ->)])].
    - exfalso. eapply Hn, F.
    - exfalso. rewrite (first_named_unique _ _ _ _ F F') in Hk. rewrite Hk in Hk'. injection Hk' as ->. exact (Hb (proj1 Hd)).
    - reflexivity. }
  assert (Q : forall nm, lump_outside w nm \/ (exists d, lump_is w nm d /\ first_entry w nm = Ok (Some d)) \/ (no_lump w nm /\ first_entry w nm = Ok None)).
  { intros nm. destruct (first_entry_cases w nm Hu) as [[Hn H]|(k & e & F & Hk & [(d & Hd & H)|(Hb & H)])]; [auto| |].
    - right. left. exists d. split; [exists k, e; auto|exact H].
    - left. exists k, e. auto. }
  destruct (Q (bs "TEXTURE1")) as [Q1|[(d1 & Q1 & E1)|(Q1 & E1)]].
  { unfold t1. rewrite (O _ Q1), quiet_panic. cbn [fst snd]. eapply ir_texture_outside; eauto. intros [T _]. exact (T Q1). }
  all: unfold t1; rewrite E1, quiet_ok; assert (N1 : ~ lump_outside w (bs "TEXTURE1")) by (intros Z; apply O in Z; congruence).
  all: destruct (Q (bs "TEXTURE2")) as [Q2|[(d2 & Q2 & E2)|(Q2 & E2)]];
    [unfold t2; rewrite (O _ Q2), quiet_panic; cbn [fst snd]; eapply ir_texture_outside; eauto; intros [_ T]; exact (T Q2)| |];
    unfold t2; rewrite E2, quiet_ok; assert (N2 : ~ lump_outside w (bs "TEXTURE2")) by (intros Z; apply O in Z; congruence).
  4: { rewrite quiet_ok, (each_say TName). cbn [fst snd app].
       apply (ir_done w ls _ fs [] _ HB Hls FA Hfs (conj N1 N2)); [right; auto|].
       eapply new_textures_perm; [apply new_names_spec|apply HO]. }
  all: match goal with |- context [parse_texturex_names ?d] => assert (TL : texture_lump w d) by (unfold texture_lump; auto);
    destruct (parse_texturex_names d) as [ts|e|p] eqn:Ep end;
    [rewrite quiet_ok, (each_say TName); cbn [fst snd app]; apply (ir_done w ls _ fs ts _ HB Hls FA Hfs (conj N1 N2));
     [left; eexists; split; [exact TL|exact Ep]|eapply new_textures_perm; [apply new_names_spec|apply HO]]
    |rewrite quiet_err; cbn [fst snd]; exact (ir_texture_error w ls _ fs _ e HB Hls FA Hfs (conj N1 N2) TL Ep)
    |rewrite quiet_panic; cbn [fst snd]; exact (ir_texture_panic w ls _ fs _ p HB Hls FA Hfs (conj N1 N2) TL Ep)].
Qed.

(** ** A WAD has only one run *)

Lemma forall2_fun : forall {A B} (R : A -> B -> Prop), (forall x y y', R x y -> R x y' -> y = y') ->
  forall l m m', Forall2 R l m -> Forall2 R l m' -> m = m'.
Proof.
  intros A B R F l m m' H. revert m'. induction H; intros m' H'; inversion H'; subst; [reflexivity|]. f_equal; eauto.
Qed.

Lemma item_lines_fun : forall w x l l', item_lines w x l -> item_lines w x l' -> l = l'.
Proof.
  intros w x l l' H H'. inversion H; subst; inversion H'; subst; try reflexivity; exfalso;
  match goal with H1 : map_decoded _ _ ?m, H2 : map_decoded _ _ ?n |- _ => pose proof (map_decoded_unique _ _ _ _ H1 H2); congruence end.
Qed.

Lemma lines_readable : forall w b l f, item_lines w (WMap b) l -> first_unreadable_lump w b f -> False.
Proof. intros w b l f H F. inversion H; subst; eapply first_unreadable_not_decoded; eauto. Qed.

Lemma lines_in : forall w xs ls x, Forall2 (item_lines w) xs ls -> In x xs -> exists l, item_lines w x l.
Proof. intros w xs ls x H. induction H; intros I; [destruct I|]. destruct I as [<-|I]; eauto. Qed.

Lemma missing_unique : forall w xs b ys ls f, Forall2 (item_lines w) xs ls -> first_unreadable_lump w b f ->
  forall xs' b' ys' ls' f', xs ++ WMap b :: ys = xs' ++ WMap b' :: ys' -> Forall2 (item_lines w) xs' ls' -> first_unreadable_lump w b' f' ->
  ls = ls' /\ f = f'.
Proof.
  intros w xs b ys ls f H F. induction H as [|x l xs ls Hx H IH]; intros xs' b' ys' ls' f' E H' F'; destruct xs' as [|x' xs'].
  - inversion H'; subst. cbn in E. injection E as -> ->. split; [reflexivity|]. eapply first_unreadable_unique; eauto.
  - cbn in E. injection E as <- E. inversion H'; subst. exfalso. eapply lines_readable; eauto.
  - cbn in E. injection E as -> E. exfalso. eapply lines_readable; eauto.
  - cbn in E. injection E as <- E. inversion H' as [|? l' ? ls'' Hx' HH]; subst. destruct (IH _ _ _ _ _ E HH F') as [-> ->].
    rewrite (item_lines_fun _ _ _ _ Hx Hx'). auto.
Qed.

Lemma missing_not_all : forall w xs b ys ls f, Forall2 (item_lines w) (xs ++ WMap b :: ys) ls -> first_unreadable_lump w b f -> False.
Proof. intros w xs b ys ls f H F. destruct (lines_in _ _ _ (WMap b) H) as [l Hl]; [apply in_elt|]. eapply lines_readable; eauto. Qed.

Lemma flat_line_fun : forall w k t t', flat_line w k t -> flat_line w k t' -> t = t'.
Proof. intros w k t t' (e & H & _ & ->) (e' & H' & _ & ->). congruence. Qed.

Lemma flats_unique : forall w ks ks', flats_at w ks -> flats_at w ks' -> ks = ks'.
Proof. intros w ks ks' [S H] [S' H']. apply sorted_unique; auto. intros k. rewrite H, H'. tauto. Qed.

Lemma outside_unique : forall w ks k l fs, Forall2 (flat_line w) ks fs -> (exists e, nth_error (directory w) k = Some e /\ ~ in_bounds (buffer w) e) ->
  forall ks' k' l' fs', ks ++ k :: l = ks' ++ k' :: l' -> Forall2 (flat_line w) ks' fs' ->
  (exists e, nth_error (directory w) k' = Some e /\ ~ in_bounds (buffer w) e) -> fs = fs'.
Proof.
  assert (X : forall w k t, flat_line w k t -> (exists e, nth_error (directory w) k = Some e /\ ~ in_bounds (buffer w) e) -> False).
  { intros w k t (e & H & B & _) (e' & H' & B'). rewrite H in H'. injection H' as <-. auto. }
  intros w ks k l fs H. induction H as [|x t ks fs Hx H IH]; intros F ks' k' l' fs' E H' F'; destruct ks' as [|x' ks'].
  - inversion H'. reflexivity.
  - cbn in E. injection E as <- E. inversion H'; subst. exfalso. eapply X; eauto.
  - cbn in E. injection E as -> E. exfalso. eapply X; eauto.
  - cbn in E. injection E as <- E. inversion H' as [|? t' ? fs'' Hx' HH]; subst. rewrite (flat_line_fun _ _ _ _ Hx Hx').
    f_equal. eapply IH; eauto.
Qed.

Lemma outside_not_all : forall w ks k l fs e, Forall2 (flat_line w) (ks ++ k :: l) fs -> nth_error (directory w) k = Some e ->
  ~ in_bounds (buffer w) e -> False.
Proof.
  intros w ks. induction ks as [|x ks IH]; intros k l fs e H He B; cbn in H; inversion H; subst; [|eapply IH; eauto].
  match goal with H : flat_line _ k _ |- _ => destruct H as (e' & He' & B' & _) end. rewrite He in He'. injection He' as <-. auto.
Qed.

Lemma lump_is_unique : forall w nm d d', lump_is w nm d -> lump_is w nm d' -> d = d'.
Proof.
  intros w nm d d' (k & e & F & H & _ & ->) (k' & e' & F' & H' & _ & ->). rewrite (first_named_unique _ _ _ _ F F') in H.
  rewrite H in H'. injection H' as <-. reflexivity.
Qed.
Lemma lump_is_some : forall w nm d, lump_is w nm d -> no_lump w nm -> False.
Proof. intros w nm d (k & e & [F _] & _) N. exact (N k F). Qed.
Lemma texture_unique : forall w d d', texture_lump w d -> texture_lump w d' -> d = d'.
Proof.
  intros w d d' [H|[N H]] [H'|[N' H']]; try (eapply lump_is_unique; eassumption); exfalso; eauto using lump_is_some.
Qed.
Lemma texture_some : forall w d, texture_lump w d -> no_lump w (bs "TEXTURE1") -> no_lump w (bs "TEXTURE2") -> False.
Proof. intros w d [H|[_ H]] N N'; eauto using lump_is_some. Qed.

(** C92: what is printed is determined up to the order of the texture names. *)
Lemma info_run_unique : forall w o r o' r', info_run w o r -> info_run w o' r' -> r = r' /\ Permutation o o'.
Proof.
  intros w o r o' r' H H'.
  assert (F : forall ls ls', Forall2 (item_lines w) (iter w) ls -> Forall2 (item_lines w) (iter w) ls' -> ls = ls').
  { apply forall2_fun, item_lines_fun. }
  assert (G : forall ks ks' fs fs', flats_at w ks -> flats_at w ks' -> Forall2 (flat_line w) ks fs -> Forall2 (flat_line w) ks' fs' -> fs = fs').
  { intros ks ks' fs fs' A A' B B'. rewrite <- (flats_unique _ _ _ A A') in B'. exact (forall2_fun _ (flat_line_fun w) _ _ _ B B'). }
  assert (M : forall xs b ys ls f, iter w = xs ++ WMap b :: ys -> Forall2 (item_lines w) (iter w) ls -> first_unreadable_lump w b f -> False).
  { intros xs b ys ls f E A. rewrite E in A. eapply missing_not_all; eauto. }
  assert (O : forall ks k l ks' fs e, flats_at w (ks ++ k :: l) -> flats_at w ks' -> Forall2 (flat_line w) ks' fs ->
    nth_error (directory w) k = Some e -> ~ in_bounds (buffer w) e -> False).
  { intros ks k l ks' fs e A A' B. rewrite <- (flats_unique _ _ _ A A') in B. eapply outside_not_all; eauto. }
  assert (T : forall d x, texture_lump w d -> parse_texturex_names d = x -> forall ts,
    (exists d, texture_lump w d /\ parse_texturex_names d = Ok ts) \/ (no_lump w (bs "TEXTURE1") /\ no_lump w (bs "TEXTURE2") /\ ts = []) -> x = Ok ts).
  { intros d x A <- ts [(d' & A' & B)|(A' & B & _)]; [rewrite (texture_unique _ _ _ A A'); exact B|exfalso; eapply texture_some; eauto]. }
  assert (U : forall d x d' x', texture_lump w d -> parse_texturex_names d = x -> texture_lump w d' -> parse_texturex_names d' = x' -> x = x').
  { intros d x d' x' A <- A' <-. rewrite (texture_unique _ _ _ A A'). reflexivity. }
  inversion H as [x HI HN|xs b ys ls f HB HE HL HF|ls ks k l e fs HB HL HA HS He Hb|ls ks fs HB HL HA HS HT
    |ls ks fs d e HB HL HA HS HT HD HP|ls ks fs d p HB HL HA HS HT HD HP|ls ks fs ts nms HB HL HA HS HT HD HN]; subst o r; clear H;
  inversion H' as [x' HI' HN'|xs' b' ys' ls' f' HB' HE' HL' HF'|ls' ks' k' l' e' fs' HB' HL' HA' HS' He' Hb'|ls' ks' fs' HB' HL' HA' HS' HT'
    |ls' ks' fs' d' e' HB' HL' HA' HS' HT' HD' HP'|ls' ks' fs' d' p' HB' HL' HA' HS' HT' HD' HP'|ls' ks' fs' ts' nms' HB' HL' HA' HS' HT' HD' HN']; subst o' r'; clear H';
  try (exfalso; exact (HN (HB' _ HI))); try (exfalso; exact (HN' (HB _ HI'))); try (exfalso; exact (HT HT')); try (exfalso; exact (HT' HT));
  try (exfalso; exact (M _ _ _ _ _ HE HL' HF)); try (exfalso; exact (M _ _ _ _ _ HE' HL HF'));
  try (exfalso; exact (O _ _ _ _ _ _ HA HA' HS' He Hb)); try (exfalso; exact (O _ _ _ _ _ _ HA' HA HS He' Hb'));
  try rewrite <- (F _ _ HL HL'); try rewrite <- (G _ _ _ _ HA HA' HS HS');
  try (exfalso; first [pose proof (T _ _ HD HP _ HD')|pose proof (T _ _ HD' HP' _ HD)|pose proof (U _ _ _ _ HD HP HD' HP')]; congruence);
  try (first [pose proof (U _ _ _ _ HD HP HD' HP') as Q; injection Q as <-]; auto using Permutation_refl);
  try (split; [reflexivity|apply Permutation_refl]).
  - rewrite HE in HE'. destruct (missing_unique _ _ _ _ _ _ HL HF _ _ _ _ _ HE' HL' HF') as [<- <-]. auto using Permutation_refl.
  - assert (E : fs = fs'); [|rewrite E; auto using Permutation_refl].
    eapply (outside_unique w ks k l fs); [eassumption|eauto| |eassumption|eauto]. eapply flats_unique; eauto.
  - split; [reflexivity|]. repeat apply Permutation_app_head. apply Permutation_cons; [reflexivity|]. apply Permutation_map.
    assert (E : ts = ts').
    { destruct HD as [(d & A & B)|(A & B & C)]; [pose proof (T _ _ A B _ HD') as Q; now injection Q as ->|].
      destruct HD' as [(d & A' & B')|(A' & B' & C')]; [|congruence]. exfalso; eapply texture_some; eauto. }
    subst ts'. eapply new_textures_unique; eauto.
Qed.

Lemma info_determined : forall order w o r, unsigned_entries w -> (forall l, Permutation l (order l)) -> info_run w o r ->
  snd (do_info order w) = r /\ Permutation o (fst (do_info order w)).
Proof. intros order w o r Hu HO H. destruct (info_run_unique _ _ _ _ _ H (info_runs order w Hu HO)) as [-> P]. auto. Qed.

(** C93. *)
Lemma info_lists_new : forall order w o, unsigned_entries w -> (forall l, Permutation l (order l)) -> do_info order w = (o, Ok tt) ->
  no_lump w (bs "TEXTURE1") \/ no_lump w (bs "TEXTURE2") -> lists_new w o.
Proof.
  intros order w o Hu HO E N nm d ts t Hn Hd Hp Ht Hs. pose proof (info_runs order w Hu HO) as R. rewrite E in R. cbn [fst snd] in R.
  inversion R as [| | | | | |ls ks fs ts' nms HB HL HA HF HT HD HN]; subst.
  assert (L : texture_lump w d).
  { destruct Hn as [-> | ->]; [left; exact Hd|]. destruct N as [N|N]; [right; auto|exfalso; eapply lump_is_some; eauto]. }
  assert (ts = ts').
  { destruct HD as [(d' & L' & P)|(A & B & _)]; [|exfalso; eapply texture_some; eauto]. rewrite (texture_unique _ _ _ L L') in Hp. congruence. }
  subst ts'. apply in_or_app. right. apply in_or_app. right. apply in_or_app. right. right. apply in_map. apply HN. split; [eauto|exact Hs].
Qed.
