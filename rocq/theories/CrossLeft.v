(** A left end, next to the left end of the first edge. *)

From Coq Require Import List ZArith QArith Bool Arith Lia Permutation.
From Verif Require Import Base Float SpecFloat64 SpecShape SpecOrder SpecIntersect SpecHandle SpecTidy SpecContainers Geometry Sweep
  Contours Compute FloatFacts MapFacts ShapeFacts OrderFacts ContainerFacts HandleFacts TidyGeo TidyParity TidySetup TidyLine TidyPackets TidySweep
  CrossGeo CrossPieces CrossMeet CrossCore CrossSplit CrossResolve CrossPair SpecCross.
Import ListNotations.

Definition last_of {A} (l : list A) : option A := hd_error (rev l).
Lemma last_snoc : forall {A} (l : list A) x, last_of (l ++ [x]) = Some x.
Proof. intros A l x. unfold last_of. now rewrite rev_unit. Qed.
Lemma last_map : forall {A B} (f : A -> B) l, last_of (map f l) = option_map f (last_of l).
Proof. intros A B f l. unfold last_of. rewrite <- map_rev. now destruct (rev l). Qed.
Lemma hd_map : forall {A B} (f : A -> B) l, hd_error (map f l) = option_map f (hd_error l).
Proof. intros A B f l. now destruct l. Qed.
Lemma last_in : forall {A} (l : list A) x, last_of l = Some x -> In x l.
Proof. intros A l x H. unfold last_of in H. apply in_rev. destruct (rev l); inversion H. now left. Qed.

Lemma before_mid : forall {A} (l1 l2 : list A), before (l1 ++ l2) (length l1) = Ok (last_of l1).
Proof.
  intros A l1 l2. destruct l1 as [|b l1 _] using rev_ind; [reflexivity|]. rewrite app_length, Nat.add_1_r. cbn [before]. unfold index_nat.
  rewrite nth_error_app1, nth_error_app2, Nat.sub_diag by (rewrite ?app_length; cbn; lia). cbn. now rewrite last_snoc.
Qed.
Lemma insert_nb : forall {A} (cmp : A -> A -> outcome comparison) l1 l2 x, binary_search cmp (l1 ++ l2) x = Ok (false, length l1) ->
  sl_insert_neighbors cmp (l1 ++ l2) x = Ok (last_of l1, hd_error l2, l1 ++ x :: l2).
Proof.
  intros A cmp l1 l2 x H. unfold sl_insert_neighbors. rewrite H. cbn [obind]. rewrite insert_mid, before_mid. cbn [obind].
  rewrite nth_error_app2 by lia. replace (Datatypes.S (length l1) - length l1)%nat with 1%nat by lia. destruct l2; reflexivity.
Qed.
Lemma remove_nb : forall {A} (cmp : A -> A -> outcome comparison) l1 l2 x, binary_search cmp (l1 ++ x :: l2) x = Ok (true, length l1) ->
  sl_remove_neighbors cmp (l1 ++ x :: l2) x = Ok (true, last_of l1, hd_error l2, l1 ++ l2).
Proof.
  intros A cmp l1 l2 x H. unfold sl_remove_neighbors. rewrite H. cbn [obind]. rewrite remove_mid, before_mid. cbn [obind].
  rewrite nth_error_app2, Nat.sub_diag by lia. destruct l2; reflexivity.
Qed.
Lemma previous_nb : forall {A} (cmp : A -> A -> outcome comparison) l1 l2 x, binary_search cmp (l1 ++ x :: l2) x = Ok (true, length l1) ->
  sl_previous cmp (l1 ++ x :: l2) x = Ok (last_of l1).
Proof. intros A cmp l1 l2 x H. unfold sl_previous. rewrite H. cbn [obind]. apply before_mid. Qed.

Lemma split_opt : forall n w s o s' w', maybe_split n w s o = Ok (s', w') -> maybe_split_opt n w (Some s) o = Ok (Some s', w').
Proof. intros n w s [pt|] s' w' H; cbn in *; [now rewrite H|now injection H as -> ->]. Qed.

Section Left.
Variables (zs : list corners) (S : list bseg) (modes : list polygon_mode).
Notation E := (edges zs).
Notation n := (length modes).
Notation eg := (eg (edges zs)).
Notation L s := (e_left (eg s)).
Notation R s := (e_right (eg s)).
Notation poly s := (e_poly (eg s)).
Notation mode_at := (mode_at modes).
Notation together := (together (edges zs)).
Notation reach := (reach (edges zs)).
Hypothesis (D : drawn E S).
Variable cs : list (list bseg).
Notation sub := (sub cs).
Notation chain := (chain (edges zs) S).
Notation span := (span (edges zs)).
Notation fine := (fine (edges zs) cs).
Notation p_span := (p_span (edges zs)).
Notation quiet := (quiet zs).
Notation core := (core zs S modes cs).
Hypothesis Chain : forall k b tl, sub k b tl -> chain b tl.
Hypothesis Fit : forall k k' b tl b' tl', sub k b tl -> sub k' b' tl' -> k <> k' -> fit (span b tl) (span b' tl').
Hypothesis Canon : forall s, In s S -> s_left s = int_point (L s) /\ s_right s = int_point (R s).

(** *** Neighbours do not cross *)
Fixpoint calm (l : list piece) : Prop :=
  match l with
  | x :: ((y :: _) as l') => quiet x y /\ calm l'
  | _ => True
  end.
Definition quiet_opt (a b : option piece) : Prop := match a, b with Some x, Some y => quiet x y | _, _ => True end.
Lemma calm_cons : forall x l, calm (x :: l) <-> quiet_opt (Some x) (hd_error l) /\ calm l.
Proof using. clear D Chain Fit Canon. intros x [|y l]; cbn; tauto. Qed.
Lemma calm_app : forall l m, calm (l ++ m) <-> calm l /\ calm m /\ quiet_opt (last_of l) (hd_error m).
Proof using.
  clear D Chain Fit Canon. induction l as [|x l IH]; intros m; [cbn; tauto|]. cbn [app]. rewrite !calm_cons, IH. destruct l as [|y l].
  - cbn. tauto.
  - assert (Q : last_of (x :: y :: l) = last_of (y :: l)).
    { unfold last_of. cbn [rev]. destruct (rev l ++ [y]) eqn:Q; [destruct (rev l); discriminate|reflexivity]. }
    rewrite Q. cbn [app hd_error]. tauto.
Qed.
Lemma calm_shrunk : forall l l', Forall2 shrunk l l' -> NoDup (map p_side l) -> (forall p, In p l -> fine p) -> (forall p, In p l' -> fine p) ->
  calm l -> calm l'.
Proof using D Chain Fit.
  clear Canon. induction 1 as [|x x' l l' H1 H2 IH]; intros N F F' C; [exact I|]. rewrite calm_cons in C |- *. destruct C as [C1 C2].
  cbn [map] in N. inversion N as [|a b N1 N2]; subst. split; [|apply IH; auto using in_cons].
  destruct H2 as [|y y' l l' H3 H4]; cbn in *; [exact I|]. apply (quiet_shrunk zs S D cs Chain Fit x y); auto.
Qed.

Lemma core_sides : forall w ks U T W st, core w ks U T W st -> NoDup (map p_side T).
Proof using D Chain.
  clear Canon Fit. intros w ks U T W st C. pose proof (head_T zs S modes D cs Chain _ _ _ _ _ _ C) as N.
  pose proof (c_together _ _ _ _ _ _ _ _ _ _ C) as Tg. assert (F : forall p, In p T -> fine p) by (intros p Hp; apply (c_fine _ _ _ _ _ _ _ _ _ _ C), core_T, Hp).
  clear C. induction T as [|x T IH]; constructor.
  - intros H. apply in_map_iff in H. destruct H as (y & Q & Hy). cbn in N. inversion N as [|a b N1 N2]; subst.
    revert Q. apply not_eq_sym. apply (sides_differ zs S D cs Chain); [apply F; now left|apply F; now right|apply Tg; [now left|now right]|].
    intros Q. apply N1. rewrite Q. now apply in_map.
  - cbn in N. inversion N; subst. apply IH; auto using in_cons.
Qed.

(** *** Resolving a piece with the one above it, and with the one below it *)
Lemma near_above : forall w ks U T1 p T2 W st mB o1 o2 ksB, core w ks U (T1 ++ p :: T2) W st ->
  handle_intersections ks (Some (p_head p)) (option_map p_head (hd_error T2)) = Ok (mB, o1, o2, ksB) ->
  o1 = None /\ o2 = None /\
  exists m c1 c2 ksA p' T2' w1 w2 U' st', handle_intersections (w_packets w) (Some (p_seg p)) (option_map p_seg (hd_error T2)) = Ok (m, c1, c2, ksA)
    /\ (m =? 2)%nat = (mB =? 2)%nat /\ ((mB =? 2)%nat = true -> T2 <> [])
    /\ maybe_split n (with_packets w ksA) (p_seg p) c1 = Ok (p_seg p', w1) /\ maybe_split_opt n w1 (option_map p_seg (hd_error T2)) c2 = Ok (option_map p_seg (hd_error T2'), w2)
    /\ core w2 ksB U' (T1 ++ p' :: T2') W st' /\ shrunk p p' /\ Forall2 shrunk T2 T2' /\ quiet_opt (Some p') (hd_error T2')
    /\ todo U' (T1 ++ p' :: T2') st' = todo U (T1 ++ p :: T2) st.
Proof using D Chain Fit Canon.
  intros w ks U T1 p T2 W st mB o1 o2 ksB C H. destruct T2 as [|a T2]; cbn [hd_error option_map] in *.
  - cbn in H. injection H as <- <- <- <-. split; [reflexivity|]. split; [reflexivity|].
    exists 0%nat, None, None, (w_packets w), p, [], w, w, U, st. rewrite with_same. cbn. repeat (split; [solve [auto using shrunk_refl | discriminate]|]). auto.
  - destruct (resolve zs S modes D cs Chain Fit Canon _ _ _ _ _ _ _ _ _ _ _ _ _ C H) as (-> & -> & m & c1 & c2 & ksA & p' & a' & w1 & w2 & U' & st' & G1 & G2 & G3 & G4 & G5 & G6 & G7 & G8 & G9 & _).
    split; [reflexivity|]. split; [reflexivity|]. exists m, c1, c2, ksA, p', (a' :: T2), w1, w2, U', st'.
    split; [exact G1|]. split; [exact G2|]. split; [discriminate|]. split; [exact G3|]. split; [now apply split_opt|]. split; [exact G5|]. split; [exact G6|].
    split; [constructor; [exact G7|]|split; [exact G8|exact G9]]. clear. induction T2; constructor; auto using shrunk_refl.
Qed.

Lemma near_below : forall w ks U T1 p T2 W st mB o1 o2 ksB, core w ks U (T1 ++ p :: T2) W st ->
  handle_intersections ks (option_map p_head (last_of T1)) (Some (p_head p)) = Ok (mB, o1, o2, ksB) ->
  o1 = None /\ o2 = None /\
  exists m c1 c2 ksA p' T1' w1 w2 U' st', handle_intersections (w_packets w) (option_map p_seg (last_of T1)) (Some (p_seg p)) = Ok (m, c1, c2, ksA)
    /\ (m =? 2)%nat = (mB =? 2)%nat /\ ((mB =? 2)%nat = true -> T1 <> [])
    /\ maybe_split_opt n (with_packets w ksA) (option_map p_seg (last_of T1)) c1 = Ok (option_map p_seg (last_of T1'), w1) /\ maybe_split n w1 (p_seg p) c2 = Ok (p_seg p', w2)
    /\ core w2 ksB U' (T1' ++ p' :: T2) W st' /\ shrunk p p' /\ Forall2 shrunk T1 T1' /\ quiet_opt (last_of T1') (Some p')
    /\ todo U' (T1' ++ p' :: T2) st' = todo U (T1 ++ p :: T2) st.
Proof using D Chain Fit Canon.
  intros w ks U T1 p T2 W st mB o1 o2 ksB C H. destruct T1 as [|b T1 _] using rev_ind.
  - cbn in H. injection H as <- <- <- <-. split; [reflexivity|]. split; [reflexivity|].
    exists 0%nat, None, None, (w_packets w), p, [], w, w, U, st. rewrite with_same. cbn. repeat (split; [solve [auto using shrunk_refl | discriminate]|]). auto.
  - rewrite last_snoc in H |- *. cbn [option_map] in *. rewrite <- app_assoc in C |- *. cbn [app] in C |- *.
    destruct (resolve zs S modes D cs Chain Fit Canon _ _ _ _ _ _ _ _ _ _ _ _ _ C H) as (-> & -> & m & c1 & c2 & ksA & b' & p' & w1 & w2 & U' & st' & G1 & G2 & G3 & G4 & G5 & G6 & G7 & G8 & G9 & _).
    split; [reflexivity|]. split; [reflexivity|]. exists m, c1, c2, ksA, p', (T1 ++ [b']), w1, w2, U', st'. rewrite last_snoc, <- app_assoc. cbn [app option_map].
    split; [exact G1|]. split; [exact G2|]. split; [intros _ X; destruct T1; discriminate|]. split; [now apply split_opt|]. split; [exact G4|]. split; [exact G5|]. split; [exact G7|].
    split; [|split; [exact G8|exact G9]]. clear - G6. induction T1; constructor; auto using shrunk_refl.
Qed.

(** *** A piece is started *)
Lemma start_core : forall w ks Ua p Ub T1 T2 W st q ka kb, core w ks (Ua ++ p :: Ub) (T1 ++ T2) W st ->
  Permutation (w_queue w) ((p_seg p, LeftEnd) :: q) -> heap cmp_of q -> strictly_sorted sc (map p_head (T1 ++ p :: T2)) ->
  (forall x, In x (T1 ++ T2) -> together (p_head p) (p_head x)) -> (s_index (p_head p) < length ks)%nat ->
  matched ((T1 ++ p :: T2) ++ W) ka kb -> length (k_left kb) = n -> length (k_right kb) = n -> k_polygon kb = poly (p_head p) -> k_mode kb = mode_at (poly (p_head p)) ->
  core (mk_sweep (w_segs w) (put_packet (w_packets w) (p_seg p) ka) q (map p_seg (T1 ++ p :: T2)) (w_swept w)) (put_packet ks (p_head p) kb) (Ua ++ Ub) (T1 ++ p :: T2) W st.
Proof using D Chain.
  clear Canon Fit. intros w ks Ua p Ub T1 T2 W st q ka kb C Pq Hq Hs Tg Lk M L1 L2 P1 P2.
  assert (PM : Permutation ((Ua ++ p :: Ub) ++ (T1 ++ T2) ++ W) ((Ua ++ Ub) ++ (T1 ++ p :: T2) ++ W)).
  { rewrite <- !app_assoc. apply Permutation_app_head. cbn [app]. etransitivity; [|apply Permutation_app_head, Permutation_middle].
    etransitivity; [|apply Permutation_middle]. reflexivity. }
  assert (Hp : In p ((Ua ++ p :: Ub) ++ (T1 ++ T2) ++ W)) by (rewrite !in_app_iff; left; right; now left).
  pose proof (core_head zs S modes D cs Chain _ _ _ _ _ _ C) as CH. pose proof (index_piece zs S modes cs _ _ _ _ _ _ C) as IP.
  assert (Back : forall x, In x ((Ua ++ Ub) ++ (T1 ++ p :: T2) ++ W) -> In x ((Ua ++ p :: Ub) ++ (T1 ++ T2) ++ W)) by (intros x Hx; now apply (Permutation_in _ (Permutation_sym PM))).
  destruct (c_new _ _ _ _ _ _ _ _ _ _ C p) as (k0 & K0 & _); [apply in_or_app; right; now left|].
  assert (LA : (s_index (p_seg p) < length (w_packets w))%nat) by (apply nth_error_Some; rewrite K0; discriminate).
  assert (Np : forall x, In x ((Ua ++ Ub) ++ (T1 ++ T2) ++ W) -> x <> p /\ In x ((Ua ++ p :: Ub) ++ (T1 ++ T2) ++ W)).
  { intros x Hx. pose proof (c_index _ _ _ _ _ _ _ _ _ _ C) as ND. rewrite <- app_assoc in ND, Hx. cbn [app] in ND. rewrite map_app in ND. cbn [map] in ND.
    apply NoDup_remove_2 in ND. rewrite <- map_app in ND. split.
    - intros ->. apply ND. now apply (in_map (fun q => s_index (p_seg q))).
    - rewrite <- app_assoc. apply in_app_iff in Hx. apply in_or_app. destruct Hx; [now left|right; now right]. }
  destruct C. constructor; cbn [w_segs w_packets w_queue w_active w_swept]; auto.
  - etransitivity; [|exact c_parts]. symmetry. now apply Permutation_flat_map.
  - apply (Permutation_NoDup (Permutation_map _ PM)), c_index.
  - unfold put_packet. rewrite set_nth_length; auto.
  - intros s Hs'. destruct (c_stale s Hs') as (G1 & G2 & G3). split; [exact G1|]. split; [exact G2|]. intros x Hx. apply G3. now apply Back.
  - apply (Permutation_cons_inv (a := (p_seg p, LeftEnd))). rewrite <- Pq, c_queue. unfold events. rewrite !flat_map_app. cbn [flat_map both_ends app].
    rewrite !map_app. cbn [map]. rewrite <- !app_assoc. cbn [app].
    etransitivity; [symmetry; apply Permutation_middle|]. constructor. apply Permutation_app_head.
    etransitivity; [|apply Permutation_app_head, Permutation_middle]. etransitivity; [|apply Permutation_middle]. reflexivity.
  - intros x y Hx Hy. assert (G : forall x, In x (T1 ++ p :: T2) -> x = p \/ In x (T1 ++ T2)).
    { intros z Hz. rewrite in_app_iff in *. destruct Hz as [Hz|[Hz|Hz]]; auto. }
    destruct (G x Hx) as [->|Ix], (G y Hy) as [->|Iy]; auto.
    + pose proof (seg_lr E S D (p_head p)) as X. split; apply X; apply (fine_head E S cs Chain); auto.
    + destruct (Tg x Ix). now split.
  - intros x Hx. assert (Hx' : x = p \/ In x ((T1 ++ T2) ++ W)).
    { rewrite !in_app_iff in *. cbn [In] in Hx. destruct Hx as [[Hx|[Hx|Hx]]|Hx]; auto. }
    destruct Hx' as [->|Ix].
    + exists ka, kb. unfold put_packet. rewrite !nth_set_same by assumption. repeat split; auto; apply M.
    + destruct (Np x) as [N1 N2]; [apply in_or_app; now right|]. destruct (c_started x Ix) as (k & k' & G1 & G2 & G3 & G4). exists k, k'. unfold put_packet.
      split; [rewrite nth_set_other; [exact G1|exact LA|intros Q; apply N1; symmetry; auto]|].
      split; [rewrite nth_set_other; [exact G2|exact Lk|intros Q; apply N1; symmetry; auto]|]. split; [|exact G4].
      apply (matched_more ((T1 ++ T2) ++ W)); [|exact G3]. intros y Hy. rewrite !in_app_iff in *. cbn [In]. tauto.
  - intros x Hx. destruct (Np x) as [N1 N2]; [apply in_or_app; now left|]. destruct (c_new x) as (k & G1 & G2); [rewrite in_app_iff in *; cbn [In]; tauto|].
    exists k. split; [|exact G2]. unfold put_packet. rewrite nth_set_other; [exact G1|exact LA|intros Q; apply N1; symmetry; auto].
Qed.
End Left.
