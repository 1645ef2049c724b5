(** Splitting a segment where others begin. *)

From Coq Require Import List ZArith QArith Bool Arith Lia Permutation.
From Verif Require Import Base Float SpecFloat64 SpecShape SpecOrder SpecIntersect SpecHandle SpecTidy SpecContainers Geometry Sweep
  Contours Compute FloatFacts MapFacts ShapeFacts OrderFacts ContainerFacts HandleFacts TidyGeo TidyParity TidySetup TidyLine TidyPackets TidySweep
  CrossGeo CrossPieces CrossMeet CrossCore SpecCross.
Import ListNotations.

Lemma remove_mid : forall {A} (l1 : list A) x l2, remove_at (length l1) (l1 ++ x :: l2) = l1 ++ l2.
Proof.
  intros. unfold remove_at. rewrite firstn_app, Nat.sub_diag, firstn_all. cbn [firstn]. rewrite app_nil_r. f_equal.
  rewrite skipn_app, skipn_all2 by lia. replace (S (length l1) - length l1)%nat with 1%nat by lia. reflexivity.
Qed.
Lemma insert_mid : forall {A} (l1 : list A) x l2, insert_at (length l1) x (l1 ++ l2) = l1 ++ x :: l2.
Proof. intros. unfold insert_at. now rewrite firstn_app, Nat.sub_diag, firstn_all, skipn_app, Nat.sub_diag, skipn_all, app_nil_r. Qed.

Lemma perm_mid : forall {A} (u t1 : list A) x t2 v, Permutation (u ++ (t1 ++ x :: t2) ++ v) (x :: u ++ t1 ++ t2 ++ v).
Proof. intros. rewrite <- app_assoc. cbn [app]. rewrite !(app_assoc u). symmetry. apply Permutation_middle. Qed.

Lemma nth_last1 : forall {A} (l : list A) a b, nth_error (l ++ [a; b]) (length l) = Some a.
Proof. intros. now rewrite nth_error_app2, Nat.sub_diag by lia. Qed.
Lemma nth_last2 : forall {A} (l : list A) a b, nth_error (l ++ [a; b]) (S (length l)) = Some b.
Proof. intros. rewrite nth_error_app2 by lia. now replace (S (length l) - length l)%nat with 1%nat by lia. Qed.

Lemma obind_ok : forall {A B} (m : outcome A) (k : A -> outcome B) a r, m = Ok a -> k a = r -> obind m k = r.
Proof. intros A B m k a r -> H. exact H. Qed.

Section Split.
Variables (zs : list corners) (S : list bseg) (modes : list polygon_mode).
Notation E := (edges zs).
Notation n := (length modes).
Notation eg := (eg (edges zs)).
Notation L s := (e_left (eg s)).
Notation R s := (e_right (eg s)).
Notation poly s := (e_poly (eg s)).
Notation mode_at := (mode_at modes).
Notation together := (together (edges zs)).
Notation reach := (reach (edges zs)).
Hypothesis (D : drawn E S).
Variable cs : list (list bseg).
Notation sub := (sub cs).
Notation chain := (chain (edges zs) S).
Notation span := (span (edges zs)).
Notation fine := (fine (edges zs) cs).
Notation p_span := (p_span (edges zs)).
Notation core := (core zs S modes cs).
Notation unborn := (unborn modes).
Hypothesis Chain : forall k b tl, sub k b tl -> chain b tl.
Hypothesis Fit : forall k k' b tl b' tl', sub k b tl -> sub k' b' tl' -> k <> k' -> fit (span b tl) (span b' tl').

Definition fixed (i j : nat) (o : option nat) : option nat := match o with Some a => if (a =? i)%nat then Some j else Some a | None => None end.
Lemma fix_with : forall i j k, match k_below k with Some a => if (a =? i)%nat then with_below k (Some j) else k | None => k end = with_below k (fixed i j (k_below k)).
Proof using. clear D Chain Fit. intros i j [? ? ? ? ? ? ? ? o ? ? ? ? ? ?]. unfold fixed, with_below. cbn. destruct o as [a|]; [destruct (a =? i)%nat|]; reflexivity. Qed.

Lemma split_core : forall w ks U T1 x T2 W st t1 c t2, core w ks U (T1 ++ x :: T2) W st -> p_tail x = t1 ++ c :: t2 ->
  exists x1 x2 w', split_segment n w (p_seg x) (int_point (L c)) = Ok (p_seg x1, w')
    /\ p_head x1 = p_head x /\ p_tail x1 = t1 /\ p_side x1 = p_side x /\ p_tail x2 = t2
    /\ core w' ks (x2 :: U) (T1 ++ x1 :: T2) W (p_seg x :: st).
Proof using D Chain Fit.
  intros w ks U T1 x T2 W st t1 c t2 C Tx. set (T := T1 ++ x :: T2) in *.
  assert (HxT : In x T) by (apply in_or_app; right; now left).
  assert (Hx : In x (U ++ T ++ W)) by (now apply core_T).
  pose proof (c_fine _ _ _ _ _ _ _ _ _ _ C x Hx) as Fx. pose proof (fine_chain E S cs Chain x Fx) as Cx. pose proof Cx as Cx'. rewrite Tx in Cx'.
  destruct (chain_app _ _ _ _ _ _ Cx') as (K1 & K2 & K3 & K4 & _ & K5).
  destruct (reach_spec _ _ D _ _ K1) as (A1 & _). destruct (reach_spec _ _ D _ _ K2) as (A2 & _). rewrite K3 in A1.
  destruct (within_lr E S D (p_head x) (chain_head _ _ _ _ K1)) as [W1 _]. destruct (within_lr E S D c (chain_head _ _ _ _ K2)) as [W2 _].
  pose proof (within_reach E S D _ _ K2) as W3.
  destruct (c_started _ _ _ _ _ _ _ _ _ _ C x) as (ka & kb & Ka & Kb & [M1 M2] & L1 & L2 & P1 & P2); [apply in_or_app; now left|].
  assert (Pa : k_polygon ka = poly (p_head x)) by (rewrite M1; exact P1).
  assert (Ma : k_mode ka = mode_at (poly (p_head x))) by (rewrite M1; exact P2).
  assert (La : length (k_left ka) = n) by (rewrite M1; exact L1).
  assert (Ra : length (k_right ka) = n) by (rewrite M1; exact L2).
  set (id := length (w_segs w)).
  set (sl := mk_sseg (int_point (L (p_head x))) (int_point (L c)) false id (poly (p_head x)) tt : bseg).
  set (sr := mk_sseg (int_point (L c)) (int_point (reach c t2)) false (Datatypes.S id) (poly (p_head x)) tt : bseg).
  set (x1 := mk_piece (p_side x) sl (p_head x) t1). set (x2 := mk_piece (p_side x) sr c t2).
  assert (F1 : fine x1).
  { split; [cbn; destruct Fx as [Sx _]; rewrite Tx in Sx; now apply sub_prefix in Sx|]. unfold covers. cbn. rewrite K3. auto. }
  assert (F2 : fine x2).
  { split; [cbn; destruct Fx as [Sx _]; rewrite Tx in Sx; now apply sub_suffix in Sx|]. unfold covers. cbn. rewrite K5. auto. }
  pose proof (c_index _ _ _ _ _ _ _ _ _ _ C) as ND.
  set (rest := U ++ T1 ++ T2 ++ W).
  assert (PO : Permutation (U ++ T ++ W) (x :: rest)) by apply perm_mid.
  assert (PN : Permutation ((x2 :: U) ++ (T1 ++ x1 :: T2) ++ W) (x2 :: x1 :: rest)) by (cbn [app]; constructor; apply perm_mid).
  assert (ZO : Permutation (T ++ W) (x :: T1 ++ T2 ++ W)) by apply (perm_mid []).
  assert (ZN : Permutation ((T1 ++ x1 :: T2) ++ W) (x1 :: T1 ++ T2 ++ W)) by apply (perm_mid []).
  assert (Rest : forall p, In p rest -> In p (U ++ T ++ W)) by (intros p Hp; apply (Permutation_in _ (Permutation_sym PO)); now right).
  assert (Small : forall p, In p (U ++ T ++ W) -> (s_index (p_seg p) < id)%nat).
  { intros p Hp. apply nth_error_Some. rewrite (c_at _ _ _ _ _ _ _ _ _ _ C p Hp). discriminate. }
  assert (NDx : forall p, In p rest -> s_index (p_seg p) <> s_index (p_seg x)).
  { apply (Permutation_map (fun p => s_index (p_seg p))) in PO. pose proof (Permutation_NoDup PO ND) as ND'. cbn [map] in ND'. inversion ND' as [|a b N1 N2]; subst.
    intros p Hp Q. apply N1. rewrite <- Q. now apply (in_map (fun p => s_index (p_seg p))). }
  assert (HT : forall p, In p (T1 ++ T2) -> In p T /\ In p rest).
  { intros p Hp. unfold T, rest. rewrite in_app_iff in Hp. rewrite !in_app_iff. cbn [In]. tauto. }
  (* the sweep line *)
  assert (Rem : sl_remove segment_cmp (w_active w) (p_seg x) = Ok (true, map p_seg (T1 ++ T2))).
  { unfold sl_remove. rewrite (c_act _ _ _ _ _ _ _ _ _ _ C).
    assert (B : binary_search segment_cmp (map p_seg T) (p_seg x) = Ok (true, length T1)).
    { etransitivity; [exact (search_T zs S modes D cs Chain Fit _ _ _ _ _ _ C x HxT)|].
      pose proof (c_sorted _ _ _ _ _ _ _ _ _ _ C) as Srt. pose proof (core_heads zs S modes cs Chain _ _ _ _ _ _ C) as Hds.
      unfold T in *. rewrite map_app in *. cbn [map] in *. rewrite <- (map_length p_head T1). exact (search_found zs S D (map p_head T1) (p_head x) (map p_head T2) Srt Hds). }
    replace (binary_search segment_cmp (map p_seg T) (p_seg x)) with (@Ok (bool * nat) (true, length T1)) by (symmetry; exact B). cbn [obind]. f_equal. f_equal.
    unfold T. rewrite <- map_remove, remove_mid. reflexivity. }
  assert (Ins : sl_insert segment_cmp (map p_seg (T1 ++ T2)) sl = Ok (map p_seg (T1 ++ x1 :: T2))).
  { unfold sl_insert.
    assert (B : binary_search segment_cmp (map p_seg (T1 ++ T2)) sl = Ok (false, length T1)).
    { etransitivity; [apply (search_zip p_seg p_head segment_cmp segment_cmp (T1 ++ T2) sl (p_head x))|].
      - intros p Hp. destruct (HT p Hp) as [Hp1 Hp2]. change sl with (p_seg x1). change (p_head x) with (p_head x1).
        apply (zip2 zs S D cs Chain Fit); auto.
        + apply (c_fine _ _ _ _ _ _ _ _ _ _ C). now apply Rest.
        + exact (c_together _ _ _ _ _ _ _ _ _ _ C p x Hp1 HxT).
        + intros Q. apply (NDx p Hp2). now rewrite (head_piece zs S modes D cs Chain _ _ _ _ _ _ C p x).
        + cbn [x1 p_seg sl s_index]. pose proof (Small p (Rest p Hp2)). lia.
      - pose proof (c_sorted _ _ _ _ _ _ _ _ _ _ C) as Srt. pose proof (core_heads zs S modes cs Chain _ _ _ _ _ _ C) as Hds.
        unfold T in *. rewrite map_app in *. cbn [map] in *. rewrite <- (map_length p_head T1). exact (search_missing zs S D (map p_head T1) (p_head x) (map p_head T2) Srt Hds). }
    replace (binary_search segment_cmp (map p_seg (T1 ++ T2)) sl) with (@Ok (bool * nat) (false, length T1)) by (symmetry; exact B). cbn [obind]. f_equal.
    change sl with (p_seg x1). rewrite <- map_insert, insert_mid. reflexivity. }
  (* the events *)
  destruct (endpoint_lawful unit) as (H1 & H2 & H3). pose proof (core_events zs S modes D cs Chain _ _ _ _ _ _ C) as Ev.
  assert (I1 : int_seg sl) by (eexists _, _; apply (piece_z E S D cs Chain x1 F1)).
  assert (I2 : int_seg sr) by (eexists _, _; apply (piece_z E S D cs Chain x2 F2)).
  destruct (push_spec _ _ _ H1 H2 H3 (w_queue w) (sl, RightEnd) Ev I1 (c_heap _ _ _ _ _ _ _ _ _ _ C)) as (q1 & Q1 & Hp1 & Pm1).
  assert (Ev1 : Forall int_event q1) by (apply (Permutation_Forall (Permutation_sym Pm1)); constructor; [exact I1|exact Ev]).
  destruct (push_spec _ _ _ H1 H2 H3 q1 (sr, LeftEnd) Ev1 I2 Hp1) as (q2 & Q2 & Hp2 & Pm2).
  assert (Ev2 : Forall int_event q2) by (apply (Permutation_Forall (Permutation_sym Pm2)); constructor; [exact I2|exact Ev1]).
  destruct (push_spec _ _ _ H1 H2 H3 q2 (sr, RightEnd) Ev2 I2 Hp2) as (q3 & Q3 & Hp3 & Pm3).
  (* the bits *)
  destruct (copy_bits n (repeat false n) (k_left ka)) as (bl & Bl & Bl'); [apply repeat_length|exact La|].
  destruct (copy_bits n (repeat false n) (k_right ka)) as (br & Br & Br'); [apply repeat_length|exact Ra|].
  set (rk := with_facing (packet_new (poly (p_head x)) (mode_at (poly (p_head x))) n) false false bl br None).
  set (ksA := map (fun k => match k_below k with Some i => if (i =? s_index (p_seg x))%nat then with_below k (Some id) else k | None => k end) (w_packets w ++ [ka; rk])).
  exists x1, x2, (mk_sweep (w_segs w ++ [sl; sr]) ksA q3 (map p_seg (T1 ++ x1 :: T2)) (w_swept w)).
  assert (Run : split_segment n w (p_seg x) (int_point (L c)) = Ok (sl, mk_sweep (w_segs w ++ [sl; sr]) ksA q3 (map p_seg (T1 ++ x1 :: T2)) (w_swept w))).
  { unfold split_segment, get_packet, index_nat. rewrite Ka. cbn [obind]. pose proof Fx as [_ (X1 & X2 & _)]. rewrite X1, X2, Tx, K4.
    rewrite (new_int _ _ _ _ W1 W2 A1). cbn [obind]. rewrite (new_int _ _ _ _ W2 W3 A2). cbn [obind]. rewrite Pa, Ma.
    cbn [packet_new k_left k_right k_up_out k_outside k_below].
    replace (bits_union (bits_clear (repeat false n)) (k_left ka)) with (Ok bl) by (symmetry; exact Bl). cbn [obind].
    replace (bits_union (bits_clear (repeat false n)) (k_right ka)) with (Ok br) by (symmetry; exact Br). cbn [obind].
    replace (sl_remove segment_cmp (w_active w) (p_seg x)) with (@Ok (bool * list bseg) (true, map p_seg (T1 ++ T2))) by (symmetry; exact Rem). cbn [obind negb].
    fold id. fold sl. fold sr.
    replace (sl_insert segment_cmp (map p_seg (T1 ++ T2)) sl) with (@Ok (list bseg) (map p_seg (T1 ++ x1 :: T2))) by (symmetry; exact Ins). cbn [obind].
    refine (obind_ok _ _ _ _ Q1 _). refine (obind_ok _ _ _ _ Q2 _). refine (obind_ok _ _ _ _ Q3 _). reflexivity. }
  split; [exact Run|]. split; [reflexivity|]. split; [reflexivity|]. split; [reflexivity|]. split; [reflexivity|].
  assert (Nth : forall i k, nth_error (w_packets w) i = Some k -> nth_error ksA i = Some (with_below k (fixed (s_index (p_seg x)) id (k_below k)))).
  { intros i k Hk. unfold ksA. rewrite nth_error_map. assert (HL : (i < length (w_packets w))%nat) by (apply nth_error_Some; congruence).
    rewrite (nth_error_app1 _ _ HL), Hk. cbn [option_map]. now rewrite fix_with. }
  assert (Match : forall k k', matched (T ++ W) k k' -> matched ((T1 ++ x1 :: T2) ++ W) (with_below k (fixed (s_index (p_seg x)) id (k_below k))) k').
  { intros k k' [Q1' Q2']. split; [cbn [with_below k_below]; rewrite Q1'; reflexivity|]. cbn [with_below k_below].
    unfold below_rel, fixed in *. destruct (k_below k) as [i|], (k_below k') as [j|]; try contradiction; [|exact I]. destruct Q2' as (p & Hp & Hi & Hj).
    apply (Permutation_in _ ZO) in Hp. destruct Hp as [<-|Hp].
    - rewrite Hi, Nat.eqb_refl. exists x1. split; [apply (Permutation_in _ (Permutation_sym ZN)); now left|]. auto.
    - destruct (Nat.eqb_spec i (s_index (p_seg x))) as [Q|Q].
      + exfalso. apply (NDx p); [unfold rest; apply in_or_app; now right|congruence].
      + exists p. split; [apply (Permutation_in _ (Permutation_sym ZN)); now right|auto]. }
  constructor; cbn [w_segs w_packets w_queue w_active w_swept].
  - etransitivity; [|apply (c_parts _ _ _ _ _ _ _ _ _ _ C)]. etransitivity; [apply Permutation_flat_map, PN|].
    etransitivity; [|apply Permutation_flat_map, Permutation_sym, PO]. cbn [flat_map]. rewrite app_assoc. apply Permutation_app_tail.
    unfold parts. cbn [x1 x2 p_head p_tail]. rewrite Tx. etransitivity; [apply Permutation_app_comm|]. cbn [app]. reflexivity.
  - intros p Hp. apply (Permutation_in _ PN) in Hp. destruct Hp as [<-|[<-|Hp]]; [exact F2|exact F1|]. apply (c_fine _ _ _ _ _ _ _ _ _ _ C). now apply Rest.
  - intros p Hp. apply (Permutation_in _ PN) in Hp. destruct Hp as [<-|[<-|Hp]].
    + apply nth_last2.
    + apply nth_last1.
    + rewrite nth_error_app1 by (apply Small; now apply Rest). apply (c_at _ _ _ _ _ _ _ _ _ _ C). now apply Rest.
  - apply (Permutation_NoDup (Permutation_sym (Permutation_map (fun p => s_index (p_seg p)) PN))). cbn [map].
    apply (Permutation_NoDup (Permutation_map (fun p => s_index (p_seg p)) PO)) in ND. cbn [map] in ND. inversion ND as [|a b N1 N2]; subst.
    assert (Big : forall j, In j (map (fun p => s_index (p_seg p)) rest) -> (j < id)%nat).
    { intros j Hj. apply in_map_iff in Hj. destruct Hj as (p & <- & Hp). apply Small. now apply Rest. }
    constructor; [|constructor; [|exact N2]].
    + cbn [x2 x1 sl sr p_seg s_index]. intros [Q|Q]; [lia|]. apply Big in Q. lia.
    + cbn [x1 sl p_seg s_index]. intros Q. apply Big in Q. lia.
  - unfold ksA. rewrite map_length, !app_length, (c_len _ _ _ _ _ _ _ _ _ _ C). reflexivity.
  - rewrite app_length. cbn [length]. intros s [<-|Hs].
    + split; [eexists _, _; apply (piece_z E S D cs Chain x Fx)|]. split; [pose proof (Small x Hx); lia|].
      intros p Hp. apply (Permutation_in _ PN) in Hp. pose proof (Small x Hx) as Sx. destruct Hp as [<-|[<-|Hp]]; [cbn [x2 sr p_seg s_index]; lia|cbn [x1 sl p_seg s_index]; lia|]. now apply NDx.
    + destruct (c_stale _ _ _ _ _ _ _ _ _ _ C s Hs) as (G1 & G2 & G3). split; [exact G1|]. split; [lia|]. fold id in G2.
      intros p Hp. apply (Permutation_in _ PN) in Hp. destruct Hp as [<-|[<-|Hp]]; [cbn [x2 sr p_seg s_index]; lia|cbn [x1 sl p_seg s_index]; lia|]. apply G3. now apply Rest.
  - etransitivity; [exact Pm3|]. etransitivity; [apply perm_skip, Pm2|]. etransitivity; [apply perm_skip, perm_skip, Pm1|].
    etransitivity; [do 3 apply perm_skip; apply (c_queue _ _ _ _ _ _ _ _ _ _ C)|]. unfold events, T. cbn [flat_map both_ends x2 p_seg app].
    rewrite !map_app. cbn [map]. cbn [x1 p_seg]. unfold right_end at 2 4.
    etransitivity; [apply perm_swap|]. apply perm_skip, perm_skip. fold sl.
    etransitivity; [apply perm_skip, perm_mid|]. etransitivity; [|symmetry; apply perm_mid]. apply perm_skip.
    rewrite !app_assoc. apply Permutation_middle.
  - exact Hp3.
  - reflexivity.
  - apply (c_swept _ _ _ _ _ _ _ _ _ _ C).
  - apply (c_done _ _ _ _ _ _ _ _ _ _ C).
  - pose proof (c_sorted _ _ _ _ _ _ _ _ _ _ C) as Srt. unfold T in Srt. rewrite map_app in *. exact Srt.
  - assert (G : forall p, In p (T1 ++ x1 :: T2) -> exists p', In p' T /\ p_head p' = p_head p).
    { intros p Hp. rewrite in_app_iff in Hp. cbn [In] in Hp. unfold T. destruct Hp as [Hp|[<-|Hp]]; [exists p|exists x|exists p]; (split; [rewrite in_app_iff; cbn [In]; auto|reflexivity]). }
    intros p p' Hp Hp'. destruct (G p Hp) as (r & R1 & <-). destruct (G p' Hp') as (r' & R1' & <-). now apply (c_together _ _ _ _ _ _ _ _ _ _ C).
  - intros p Hp. apply (Permutation_in _ ZN) in Hp. destruct Hp as [<-|Hp].
    + exists (with_below ka (fixed (s_index (p_seg x)) id (k_below ka))), kb. cbn [x1 p_seg p_head sl s_index]. split.
      * unfold ksA. rewrite nth_error_map. unfold id. rewrite <- (c_len _ _ _ _ _ _ _ _ _ _ C). rewrite nth_last1. cbn [option_map]. now rewrite fix_with.
      * split; [exact Kb|]. split; [apply Match; now split|]. auto.
    + destruct (c_started _ _ _ _ _ _ _ _ _ _ C p) as (k & k' & G1 & G2 & G3 & G4); [apply (Permutation_in _ (Permutation_sym ZO)); now right|].
      exists (with_below k (fixed (s_index (p_seg x)) id (k_below k))), k'. split; [now apply Nth|]. split; [exact G2|]. split; [now apply Match|exact G4].
  - intros p [<-|Hp].
    + exists rk. cbn [x2 sr p_seg p_head s_index]. split; [|rewrite K5; exists bl, br; auto].
      unfold ksA. rewrite nth_error_map. unfold id. rewrite <- (c_len _ _ _ _ _ _ _ _ _ _ C). now rewrite nth_last2.
    + destruct (c_new _ _ _ _ _ _ _ _ _ _ C p Hp) as (k & G1 & G2). exists k. split; [|exact G2]. rewrite (Nth _ _ G1).
      destruct G2 as (l & r & _ & _ & ->). reflexivity.
Qed.
End Split.
