(** Overlaying polygons whose edges cross, next to overlaying them with the crossing points
    as corners: how the two sweeps correspond. *)

From Coq Require Import List ZArith QArith Bool Arith Lia Permutation.
From Verif Require Import Base Float SpecFloat64 SpecShape SpecOrder SpecIntersect SpecHandle SpecTidy SpecContainers Geometry Sweep
  Contours Compute FloatFacts MapFacts ShapeFacts OrderFacts ContainerFacts HandleFacts TidyGeo TidyParity TidySetup TidyLine TidyPackets TidySweep
  CrossGeo CrossPieces CrossMeet SpecCross.
Import ListNotations.

Lemma map_nodup_eq : forall {A B} (f : A -> B) l a b, NoDup (map f l) -> In a l -> In b l -> f a = f b -> a = b.
Proof.
  intros A B f l a b. induction l as [|x l IH]; intros N Ha Hb Q; [destruct Ha|]. inversion N as [|y m N1 N2 Q']; subst.
  destruct Ha as [<-|Ha], Hb as [<-|Hb]; auto; exfalso; apply N1; [rewrite Q|rewrite <- Q]; now apply in_map.
Qed.

Lemma new_int : forall a b i o, within (2 ^ 24) a -> within (2 ^ 24) b -> lex_z a b = Lt ->
  sseg_new (int_point a) (int_point b) i o tt = Ok (mk_sseg (int_point a) (int_point b) false i o tt).
Proof.
  intros a b i o Wa Wb H. unfold sseg_new. destruct (point_eqb (int_point a) (int_point b)) eqn:Q.
  { apply int_point_eqb in Q; auto. subst. rewrite lex_refl in H. discriminate. }
  assert (B : (2 ^ 24 < 2 ^ 53)%Z) by reflexivity. pose proof Wa as [A1 A2]. pose proof Wb as [B1 B2].
  destruct (at_z_int _ _ (int_point_at _ Wa)) as [P1 P2]; [lia..|]. destruct (at_z_int _ _ (int_point_at _ Wb)) as [Q1 Q2]; [lia..|].
  rewrite (lt_int _ _ _ _ P1 Q1), (eq_int _ _ _ _ P1 Q1), (lt_int _ _ _ _ P2 Q2). apply lex_lt in H.
  replace ((fst a <? fst b)%Z || (fst a =? fst b)%Z && (snd a <? snd b)%Z) with true; [reflexivity|]. symmetry. lia.
Qed.

Lemma copy_bits : forall n l m, length l = n -> length m = n -> exists r, bits_union (bits_clear l) m = Ok r /\ length r = n.
Proof.
  intros n l m H1 H2. unfold bits_union, bits_clear. rewrite repeat_length, H1, H2, Nat.eqb_refl. eexists. split; [reflexivity|].
  rewrite map_length, combine_length, repeat_length. lia.
Qed.

Section Core.
Variables (zs : list corners) (S : list bseg) (modes : list polygon_mode).
Notation E := (edges zs).
Notation n := (length modes).
Notation eg := (eg (edges zs)).
Notation L s := (e_left (eg s)).
Notation R s := (e_right (eg s)).
Notation poly s := (e_poly (eg s)).
Notation mode_at := (mode_at modes).
Notation together := (together (edges zs)).
Notation reach := (reach (edges zs)).
Hypothesis (D : drawn E S).
Variable cs : list (list bseg).
Notation sub := (sub cs).
Notation chain := (chain (edges zs) S).
Notation span := (span (edges zs)).
Notation fine := (fine (edges zs) cs).
Notation p_span := (p_span (edges zs)).
Hypothesis Chain : forall k b tl, sub k b tl -> chain b tl.
Hypothesis Fit : forall k k' b tl b' tl', sub k b tl -> sub k' b' tl' -> k <> k' -> fit (span b tl) (span b' tl').

(** *** Searching the sweep line *)
Lemma search_found : forall l1 x l2, strictly_sorted sc (l1 ++ x :: l2) -> Forall (fun y => In y S) (l1 ++ x :: l2) ->
  binary_search segment_cmp (l1 ++ x :: l2) x = Ok (true, length l1).
Proof using D.
  clear Chain Fit. clear cs. intros l1 x l2 HS HP.
  destruct (lawful_list _ sc (fun x => In x S) (sc_anti _ _ D) (sc_eq _ _ D) sc_refl _ segment_cmp HS HP (sc_ok _ _ D)) as (H1 & H2 & H3).
  destruct (binary_search_spec _ _ _ H1 H2 H3 (l1 ++ x :: l2) x) as (f & ix & Q & (S1 & S2 & S3 & S4)); [apply Forall_forall; auto|apply in_or_app; right; now left|exact HS|].
  etransitivity; [exact Q|]. f_equal. assert (Nx : nth_error (l1 ++ x :: l2) (length l1) = Some x) by (rewrite nth_error_app2, Nat.sub_diag; [reflexivity|lia]).
  assert (Eix : ix = length l1).
  { destruct (lt_eq_lt_dec ix (length l1)) as [[H|H]|H]; [|exact H|]; exfalso.
    - pose proof (S4 _ _ H Nx) as X. now rewrite sc_refl in X.
    - pose proof (S2 _ _ H Nx) as X. now rewrite sc_refl in X. }
  subst ix. destruct f; [reflexivity|]. pose proof (S3 _ Nx) as X. now rewrite sc_refl in X.
Qed.

Lemma search_missing : forall l1 x l2, strictly_sorted sc (l1 ++ x :: l2) -> Forall (fun y => In y S) (l1 ++ x :: l2) ->
  binary_search segment_cmp (l1 ++ l2) x = Ok (false, length l1).
Proof using D.
  clear Chain Fit. clear cs. intros l1 x l2 HS HP.
  destruct (lawful_list _ sc (fun x => In x S) (sc_anti _ _ D) (sc_eq _ _ D) sc_refl _ segment_cmp HS HP (sc_ok _ _ D)) as (H1 & H2 & H3).
  pose proof HS as HS'. apply (sorted_app _ segment_cmp sc H1 H2 H3) in HS'. destruct HS' as (A1 & [A2 A3] & A4). rewrite Forall_forall in A2.
  assert (HS2 : strictly_sorted sc (l1 ++ l2)).
  { apply (sorted_app _ segment_cmp sc H1 H2 H3). split; [exact A1|]. split; [exact A3|]. intros a b Ha Hb. apply A4; [exact Ha|now right]. }
  assert (In1 : forall a, In a l1 -> sc a x = Lt) by (intros a Ha; apply A4; [exact Ha|now left]).
  rewrite Forall_forall in HP.
  assert (In2 : forall a, In a l2 -> sc a x = Gt).
  { intros a Ha. rewrite (sc_anti _ _ D x a), (A2 a Ha); [reflexivity| |]; apply HP; apply in_or_app; right; [now left|now right]. }
  destruct (binary_search_spec _ _ _ H1 H2 H3 (l1 ++ l2) x) as (f & ix & Q & (S1 & S2 & S3 & S4)); [|apply in_or_app; right; now left|exact HS2|].
  { apply Forall_forall. intros a Ha. apply in_app_iff in Ha. apply in_or_app. destruct Ha; [now left|right; now right]. }
  etransitivity; [exact Q|]. f_equal.
  assert (G : forall i a, nth_error (l1 ++ l2) i = Some a -> sc a x = if (i <? length l1)%nat then Lt else Gt).
  { intros i a Hi. destruct (Nat.ltb_spec i (length l1)) as [X|X].
    - rewrite nth_error_app1 in Hi by exact X. apply In1. eapply nth_error_In; eassumption.
    - rewrite nth_error_app2 in Hi by exact X. apply In2. eapply nth_error_In; eassumption. }
  assert (f = false). { destruct f; [|reflexivity]. destruct S3 as (a & X1 & X2). rewrite (G _ _ X1) in X2. destruct (_ <? _)%nat; discriminate. }
  subst f. f_equal. rewrite app_length in S1. destruct (lt_eq_lt_dec ix (length l1)) as [[H|H]|H]; [|exact H|]; exfalso.
  - destruct (nth_error (l1 ++ l2) ix) as [a|] eqn:Ha; [|apply nth_error_None in Ha; rewrite app_length in Ha; lia].
    pose proof (S3 a eq_refl) as X. rewrite (G _ _ Ha) in X. apply Nat.ltb_lt in H. now rewrite H in X.
  - destruct (nth_error (l1 ++ l2) (length l1)) as [a|] eqn:Ha; [|apply nth_error_None in Ha; rewrite app_length in Ha; lia].
    pose proof (S2 _ _ H Ha) as X. rewrite (G _ _ Ha) in X. now rewrite Nat.ltb_irrefl in X.
Qed.

(** *** The packets *)

(** [i] and [j] are the numbers of a piece and of its first edge. *)
Definition below_rel (Z : list piece) (a b : option nat) : Prop :=
  match a, b with
  | None, None => True
  | Some i, Some j => exists p, In p Z /\ s_index (p_seg p) = i /\ s_index (p_head p) = j
  | _, _ => False
  end.
Definition matched (Z : list piece) (ka kb : packet) : Prop := ka = with_below kb (k_below ka) /\ below_rel Z (k_below ka) (k_below kb).

(** The packet of a piece that has not been started. *)
Definition unborn (i : nat) (k : packet) : Prop :=
  exists l r, length l = n /\ length r = n /\ k = with_facing (packet_new i (mode_at i) n) false false l r None.

Definition started (ksA ks : list packet) (Z : list piece) (p : piece) : Prop :=
  exists ka kb, nth_error ksA (s_index (p_seg p)) = Some ka /\ nth_error ks (s_index (p_head p)) = Some kb /\ matched Z ka kb
    /\ length (k_left kb) = n /\ length (k_right kb) = n /\ k_polygon kb = poly (p_head p) /\ k_mode kb = mode_at (poly (p_head p)).

Definition both_ends (p : piece) : list bend := [(p_seg p, LeftEnd); (p_seg p, RightEnd)].
Definition right_end (s : bseg) : bend := (s, RightEnd).
Definition events (U T : list piece) (st : list bseg) : list bend :=
  flat_map both_ends U ++ map right_end (map p_seg T) ++ map right_end st.

Record core (w : sweep) (ks : list packet) (U T W : list piece) (st : list bseg) : Prop := mk_core {
  c_parts : Permutation (flat_map parts (U ++ T ++ W)) S;
  c_fine : forall p, In p (U ++ T ++ W) -> fine p;
  c_at : forall p, In p (U ++ T ++ W) -> nth_error (w_segs w) (s_index (p_seg p)) = Some (p_seg p);
  c_index : NoDup (map (fun p => s_index (p_seg p)) (U ++ T ++ W));
  c_len : length (w_packets w) = length (w_segs w);
  c_stale : forall s, In s st -> int_seg s /\ (s_index s < length (w_segs w))%nat /\ forall p, In p (U ++ T ++ W) -> s_index (p_seg p) <> s_index s;
  c_queue : Permutation (w_queue w) (events U T st);
  c_heap : heap cmp_of (w_queue w);
  c_act : w_active w = map p_seg T;
  c_swept : w_swept w = map p_seg W;
  c_done : forall p, In p W -> p_tail p = [];
  c_sorted : strictly_sorted sc (map p_head T);
  c_together : forall p p', In p T -> In p' T -> together (p_head p) (p_head p');
  c_started : forall p, In p (T ++ W) -> started (w_packets w) ks (T ++ W) p;
  c_new : forall p, In p U -> exists k, nth_error (w_packets w) (s_index (p_seg p)) = Some k /\ unborn (poly (p_head p)) k }.

Lemma zip2 : forall p x, fine p -> fine x -> together (p_head p) (p_head x) -> p_head p <> p_head x ->
  s_index (p_seg p) <> s_index (p_seg x) -> segment_cmp (p_seg p) (p_seg x) = segment_cmp (p_head p) (p_head x).
Proof using D Chain Fit.
  intros p x Fp Fx T NH NI. apply (cmp_pieces E S D cs Chain Fit); auto. intros Q. apply NH.
  destruct Fp as [Sp _], Fx as [Sx _]. rewrite <- Q in Sx. apply (side_apart E S D cs Chain _ _ _ _ _ _ _ Sp Sx); auto; now left.
Qed.

Section Facts.
Variables (w : sweep) (ks : list packet) (U T W : list piece) (st : list bseg).
Hypothesis C : core w ks U T W st.

Lemma core_T : forall p, In p T -> In p (U ++ T ++ W).
Proof using. clear D Chain Fit C. intros p H. rewrite !in_app_iff. auto. Qed.
Lemma core_heads : Forall (fun y => In y S) (map p_head T).
Proof using Chain C. apply Forall_forall. intros y H. apply in_map_iff in H. destruct H as (p & <- & H). apply (fine_head E S cs Chain), (c_fine _ _ _ _ _ _ C), core_T, H. Qed.
Lemma index_piece : forall p x, In p (U ++ T ++ W) -> In x (U ++ T ++ W) -> s_index (p_seg p) = s_index (p_seg x) -> p = x.
Proof using C. intros p x Hp Hx Q. apply (map_nodup_eq _ _ _ _ (c_index _ _ _ _ _ _ C) Hp Hx Q). Qed.
Lemma head_T : NoDup (map p_head T).
Proof using Chain C D.
  pose proof (c_sorted _ _ _ _ _ _ C) as H. clear - H. induction (map p_head T) as [|a l IH]; constructor.
  - destruct H as [H _]. intros I. rewrite Forall_forall in H. pose proof (H a I) as X. now rewrite sc_refl in X.
  - apply IH, H.
Qed.
Lemma head_piece : forall p x, In p T -> In x T -> p_head p = p_head x -> p = x.
Proof using Chain C D. intros p x Hp Hx Q. apply (map_nodup_eq _ _ _ _ head_T Hp Hx Q). Qed.

Lemma zip_T : forall p x, In p T -> In x T -> segment_cmp (p_seg p) (p_seg x) = segment_cmp (p_head p) (p_head x).
Proof using C D Chain Fit.
  intros p x Hp Hx. destruct (Nat.eq_dec (s_index (p_seg p)) (s_index (p_seg x))) as [Q|Q].
  - rewrite (index_piece p x) by auto using core_T. unfold segment_cmp. now rewrite !Nat.eqb_refl.
  - apply zip2; auto; try (apply (c_fine _ _ _ _ _ _ C); now apply core_T).
    + now apply (c_together _ _ _ _ _ _ C).
    + intros X. apply Q. now rewrite (head_piece p x).
Qed.

Lemma search_T : forall x, In x T -> binary_search segment_cmp (map p_seg T) (p_seg x) = binary_search segment_cmp (map p_head T) (p_head x).
Proof using C D Chain Fit. intros x Hx. apply search_zip. intros p Hp. now apply zip_T. Qed.

Lemma core_events : Forall int_event (w_queue w).
Proof using C D Chain.
  apply Forall_forall. intros e He. apply (Permutation_in _ (c_queue _ _ _ _ _ _ C)) in He. unfold events in He. rewrite !in_app_iff in He.
  assert (G : forall p, In p (U ++ T ++ W) -> int_seg (p_seg p)).
  { intros p Hp. eexists _, _. apply (piece_z E S D cs Chain), (c_fine _ _ _ _ _ _ C), Hp. }
  destruct He as [He|[He|He]].
  - apply in_flat_map in He. destruct He as (p & Hp & [<-|[<-|[]]]); apply G; apply in_or_app; now left.
  - apply in_map_iff in He. destruct He as (s & <- & He). apply in_map_iff in He. destruct He as (p & <- & He). apply G, core_T, He.
  - apply in_map_iff in He. destruct He as (s & <- & He). now apply (c_stale _ _ _ _ _ _ C).
Qed.
End Facts.
End Core.
