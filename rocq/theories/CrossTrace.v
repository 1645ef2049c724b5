(** After the sweep: the pieces of the edges that cross and the edges of the cut polygons give the
    same contours. *)

From Coq Require Import List ZArith QArith Bool Arith Lia Permutation Sorting.Sorted.
From Verif Require Import Base Float SpecFloat64 SpecShape SpecOrder SpecIntersect SpecHandle SpecTidy SpecContainers SpecCompute Geometry Sweep
  Contours Compute FloatFacts MapFacts ShapeFacts OrderFacts ContainerFacts HandleFacts SweepFacts TidyGeo TidyParity TidySetup TidyLine TidyPackets TidySweep TidyFacts
  CrossGeo CrossPieces CrossMeet CrossCore CrossSplit CrossResolve SpecCross.
Import ListNotations.

(** Two runs that end alike. *)
Definition orel {A B} (P : A -> B -> Prop) (a : outcome A) (b : outcome B) : Prop :=
  match a, b with
  | Ok x, Ok y => P x y
  | Err e, Err e' => e = e'
  | Panic p, Panic p' => p = p'
  | _, _ => False
  end.

Lemma orel_bind : forall {A B A' B'} (P : A -> B -> Prop) (P' : A' -> B' -> Prop) m m' k k',
  orel P m m' -> (forall x y, P x y -> orel P' (k x) (k' y)) -> orel P' (obind m k) (obind m' k').
Proof. intros A B A' B' P P' [x|e|p] [y|e'|p'] k k' H K; cbn in *; try contradiction; auto. Qed.

Lemma orel_eq : forall {A} (a b : outcome A), orel eq a b -> a = b.
Proof. intros A [x|e|p] [y|e'|p']; cbn; intros H; try contradiction; congruence. Qed.

Lemma orel_refl : forall {A} (a : outcome A), orel eq a a.
Proof. intros A []; reflexivity. Qed.

Lemma orel_impl : forall {A B} (P Q : A -> B -> Prop) a b, (forall x y, P x y -> Q x y) -> orel P a b -> orel Q a b.
Proof. intros A B P Q [] [] H; cbn; auto. Qed.

Lemma orel_nth : forall {A B} (P : A -> B -> Prop) l l' i, Forall2 P l l' -> orel P (index_nat l i) (index_nat l' i).
Proof.
  intros A B P l l' i H. revert i. induction H as [|x y l l' H H' IH]; intros [|i]; cbn; auto. apply IH.
Qed.

Lemma orel_fold : forall {A B S S'} (P : A -> B -> Prop) (I : S -> S' -> Prop) f f' l l', Forall2 P l l' ->
  (forall s s' x y, I s s' -> P x y -> orel I (f s x) (f' s' y)) -> forall s s', I s s' -> orel I (ofold f l s) (ofold f' l' s').
Proof.
  intros A B S S' P I f f' l l' H F. induction H as [|x y l l' H H' IH]; intros s s' Hs; cbn [ofold]; [exact Hs|].
  apply (orel_bind I); auto.
Qed.

Section Trace.
Variables (W : list piece) (modes : list polygon_mode) (segsA segsB : list bseg).
Hypothesis Same : forall p, In p W -> s_left (p_seg p) = s_left (p_head p) /\ s_right (p_seg p) = s_right (p_head p) /\ s_order (p_seg p) = s_order (p_head p).
Hypothesis IdxA : forall p p', In p W -> In p' W -> s_index (p_seg p) = s_index (p_seg p') -> p = p'.
Hypothesis IdxB : forall p p', In p W -> In p' W -> s_index (p_head p) = s_index (p_head p') -> p = p'.
Hypothesis AtA : forall p, In p W -> nth_error segsA (s_index (p_seg p)) = Some (p_seg p).
Hypothesis AtB : forall p, In p W -> nth_error segsB (s_index (p_head p)) = Some (p_head p).

Definition sr (a b : bseg) : Prop := exists p, In p W /\ a = p_seg p /\ b = p_head p.
Definition er (a b : bend) : Prop := sr (fst a) (fst b) /\ snd a = snd b.
Definition kr (ka kb : list packet) : Prop := forall p, In p W -> exists a b, nth_error ka (s_index (p_seg p)) = Some a /\ nth_error kb (s_index (p_head p)) = Some b /\ matched W a b.

Lemma sr_same : forall a b, sr a b -> s_left a = s_left b /\ s_right a = s_right b /\ s_order a = s_order b.
Proof using Same. intros a b (p & H & -> & ->). auto. Qed.

Lemma er_point : forall a b, er a b -> ep_point a = ep_point b /\ ep_other a = ep_other b.
Proof using Same. intros [a x] [b y] [H Q]. cbn in H, Q. subst y. destruct (sr_same _ _ H) as (H1 & H2 & _). unfold ep_point, ep_other. cbn [fst snd]. now rewrite H1, H2. Qed.

Lemma er_cmp : forall a b a' b', er a a' -> er b b' -> endpoint_cmp a b = endpoint_cmp a' b'.
Proof using Same.
  intros a b a' b' Ha Hb. destruct (er_point _ _ Ha) as [A1 A2], (er_point _ _ Hb) as [B1 B2]. destruct Ha as [Ha A3], Hb as [Hb B3].
  destruct (sr_same _ _ Ha) as (_ & _ & A4), (sr_same _ _ Hb) as (_ & _ & B4). unfold endpoint_cmp. now rewrite A1, A2, A3, A4, B1, B2, B3, B4.
Qed.

Definition both_eq (c c' : comparison) : Prop := c = Eq <-> c' = Eq.
Lemma sr_cmp : forall a b a' b', sr a a' -> sr b b' -> orel both_eq (segment_cmp a b) (segment_cmp a' b').
Proof using Same IdxA IdxB.
  intros a b a' b' Ha Hb. destruct (sr_same _ _ Ha) as (A1 & A2 & A3), (sr_same _ _ Hb) as (B1 & B2 & B3).
  assert (Q : Nat.eqb (s_index a) (s_index b) = Nat.eqb (s_index a') (s_index b')).
  { destruct Ha as (p & Hp & -> & ->), Hb as (q & Hq & -> & ->). apply eq_true_iff_eq. rewrite !Nat.eqb_eq. split; intros X; [now rewrite (IdxA p q Hp Hq X)|now rewrite (IdxB p q Hp Hq X)]. }
  assert (C : forall x y, endpoint_cmp (a, x) (b, y) = endpoint_cmp (a', x) (b', y)) by (intros x y; apply er_cmp; split; auto).
  assert (C' : forall x y, endpoint_cmp (b, x) (a, y) = endpoint_cmp (b', x) (a', y)) by (intros x y; apply er_cmp; split; auto).
  unfold segment_cmp, above, below. rewrite Q. destruct (Nat.eqb_spec (s_index a') (s_index b')) as [N|N]; [cbn; unfold both_eq; tauto|].
  apply Nat.eqb_neq in Q.
  assert (Re : forall x : outcome comparison, orel both_eq x x) by (intros []; cbn; unfold both_eq; tauto).
  rewrite C, C', A1, A2, A3, B1, B2, B3.
  destruct (f64_lt _ f64_1em7 && f64_lt _ f64_1em7).
  - destruct (Nat.compare (s_order a') (s_order b')); try apply Re.
    destruct (point_eqb (s_left a') (s_left b')); [|apply Re].
    destruct (Nat.compare (s_index a) (s_index b)) eqn:X; [now apply Nat.compare_eq in X| |];
    (destruct (Nat.compare (s_index a') (s_index b')) eqn:Y; [now apply Nat.compare_eq in Y| |]); cbn; unfold both_eq; split; discriminate.
  - destruct (point_eqb (s_left a') (s_left b')); apply Re.
Qed.

Lemma kr_get : forall ka kb a b, kr ka kb -> sr a b -> orel (matched W) (get_packet ka a) (get_packet kb b).
Proof using. intros ka kb a b H (p & Hp & -> & ->). destruct (H p Hp) as (x & y & X & Y & M). unfold get_packet, index_nat. now rewrite X, Y. Qed.

Lemma kr_put : forall ka kb a b x y, kr ka kb -> sr a b -> matched W x y -> kr (put_packet ka a x) (put_packet kb b y).
Proof using IdxA IdxB.
  intros ka kb a b x y H (p & Hp & -> & ->) M q Hq. destruct (H p Hp) as (a & b & A & B & _). destruct (H q Hq) as (a' & b' & A' & B' & M').
  assert (La : (s_index (p_seg p) < length ka)%nat) by (apply nth_error_Some; congruence). assert (Lb : (s_index (p_head p) < length kb)%nat) by (apply nth_error_Some; congruence).
  unfold put_packet. destruct (Nat.eq_dec (s_index (p_seg p)) (s_index (p_seg q))) as [Q|Q].
  - apply IdxA in Q; auto. subst q. exists x, y. split; [now apply nth_set_same|]. split; [now apply nth_set_same|exact M].
  - exists a', b'. split; [rewrite nth_set_other; auto|]. split; [rewrite nth_set_other; auto|exact M']. intros X. apply IdxB in X; auto. subst q. now apply Q.
Qed.

Lemma matched_index : forall x y e i, matched W x y -> matched W (with_index x e i) (with_index y e i).
Proof using. intros x y e i [H1 H2]. split; [|exact H2]. cbn [with_index k_below]. rewrite H1. reflexivity. Qed.
Lemma matched_done : forall x y e i, matched W x y -> matched W (with_done x e i) (with_done y e i).
Proof using. intros x y e i [H1 H2]. split; [|exact H2]. cbn [with_done k_below]. rewrite H1. reflexivity. Qed.

(** *** The ends kept *)

Lemma include_sim : forall ka kb l, kr ka kb -> incl l W ->
  exists X Y, include_all modes ka (map p_seg l) = Ok (map p_seg X, map (fun c => (p_seg (fst c), snd c)) Y)
    /\ include_all modes kb (map p_head l) = Ok (map p_head X, map (fun c => (p_head (fst c), snd c)) Y) /\ incl X l /\ incl (map fst Y) l.
Proof using.
  intros ka kb l H I. unfold include_all.
  enough (G : exists r, omap (include_one modes ka) (map p_seg l) = Ok (map (fun d => (map p_seg (fst d), map (fun c : piece * seg_end => (p_seg (fst c), snd c)) (snd d))) r)
     /\ omap (include_one modes kb) (map p_head l) = Ok (map (fun d => (map p_head (fst d), map (fun c : piece * seg_end => (p_head (fst c), snd c)) (snd d))) r)
     /\ incl (flat_map fst r) l /\ incl (map fst (flat_map snd r)) l).
  { destruct G as (r & G1 & G2 & G3 & G4). exists (flat_map fst r), (flat_map snd r).
    assert (M : forall {A B C} (f : B -> C) (g : A -> list B) (l : list A), map f (flat_map g l) = flat_map (fun x => map f (g x)) l).
    { intros A B C f g m. induction m as [|x m IH]; cbn; [reflexivity|]. now rewrite map_app, IH. }
    assert (N : forall {A B C} (f : B -> list C) (g : A -> B) (l : list A), flat_map f (map g l) = flat_map (fun x => f (g x)) l).
    { intros A B C f g m. induction m as [|x m IH]; cbn; [reflexivity|]. now rewrite IH. }
    rewrite G1, G2. cbn [obind]. split; [|split; [|split; [exact G3|exact G4]]]; rewrite !N, !M; reflexivity. }
  induction l as [|p l IH]; [exists []; repeat split; intros ? []|].
  destruct IH as (r & G1 & G2 & G3 & G4); [intros q Hq; apply I; now right|].
  destruct (H p) as (a & b & A & B & M & _); [apply I; now left|].
  assert (G : exists d, include_one modes ka (p_seg p) = Ok (map p_seg (fst d), map (fun c : piece * seg_end => (p_seg (fst c), snd c)) (snd d))
    /\ include_one modes kb (p_head p) = Ok (map p_head (fst d), map (fun c : piece * seg_end => (p_head (fst c), snd c)) (snd d)) /\ incl (fst d) [p] /\ incl (map fst (snd d)) [p]).
  { unfold include_one, get_packet, index_nat. rewrite A, B. cbn [obind]. rewrite M. cbn [with_below k_in_result k_left k_right].
    destruct (k_in_result b); cbn [negb]; [|exists ([], []); repeat split; intros ? []].
    destruct (skip_side modes (k_left b)), (skip_side modes (k_right b)); cbn [andb app].
    - exists ([], []). repeat split; intros ? [].
    - exists ([p], [(p, RightEnd)]). cbn. repeat split; intros ? X; exact X.
    - exists ([p], [(p, LeftEnd)]). cbn. repeat split; intros ? X; exact X.
    - exists ([p], [(p, LeftEnd); (p, RightEnd)]). cbn. repeat split; intros ? X; [exact X|]. destruct X as [X|X]; [now left|exact X]. }
  destruct G as (d & D1 & D2 & D3 & D4). exists (d :: r). cbn [map omap]. rewrite D1, D2. cbn [obind]. rewrite G1, G2. cbn [obind flat_map]. rewrite map_app.
  split; [reflexivity|]. split; [reflexivity|]. split; apply incl_app.
  - intros x Hx. apply D3 in Hx. destruct Hx as [<-|[]]. now left.
  - intros x Hx. right. now apply G3.
  - intros x Hx. apply D4 in Hx. destruct Hx as [<-|[]]. now left.
  - intros x Hx. right. now apply G4.
Qed.

(** *** Tracing *)

Lemma indexes_sim : forall l l', Forall2 er l l' -> forall i ka kb, kr ka kb -> orel kr (assign_indexes i l ka) (assign_indexes i l' kb).
Proof using IdxA IdxB.
  intros l l' H. induction H as [|[a x] [b y] l l' [H1 H2] H IH]; intros i ka kb K; cbn [assign_indexes]; [exact K|]. cbn [fst snd] in H1, H2. subst y.
  apply (orel_bind (matched W)); [now apply kr_get|]. intros u v M. apply IH. apply kr_put; auto. now apply matched_index.
Qed.

Lemma processed_sim : forall ka kb a b, kr ka kb -> er a b -> orel eq (is_processed ka a) (is_processed kb b).
Proof using.
  intros ka kb a b K [H1 H2]. unfold is_processed. apply (orel_bind (matched W)); [now apply kr_get|]. intros u v [M _]. rewrite M, H2. reflexivity.
Qed.

Lemma seek_sim : forall l l' p, Forall2 er l l' -> orel (Forall2 er) (seek_point l p) (seek_point l' p).
Proof using Same.
  intros l l' p H. induction H as [|a b l l' H H' IH]; cbn [seek_point]; [reflexivity|]. destruct (er_point _ _ H) as [-> _].
  destruct (point_eqb (ep_point b) p); [|exact IH]. cbn. now constructor.
Qed.

Definition opt_er (a b : option bend) : Prop := match a, b with None, None => True | Some x, Some y => er x y | _, _ => False end.
Definition best_rel (a b : best) : Prop := fst (fst a) = fst (fst b) /\ opt_er (snd (fst a)) (snd (fst b)) /\ snd a = snd b.

Lemma consider_sim : forall v a b e f, best_rel a b -> er e f -> best_rel (consider_end v a e) (consider_end v b f).
Proof using Same.
  intros v [[d o] s] [[d' o'] s'] e f (H1 & H2 & H3) He. cbn [fst snd] in H1, H2, H3. subst d' s'. destruct (er_point _ _ He) as [E1 E2]. unfold consider_end. rewrite E1, E2.
  assert (Q : match o with None => true | _ => false end = match o' with None => true | _ => false end) by (destruct o, o'; cbn in H2; try contradiction; reflexivity). rewrite Q.
  destruct (_ && negb s); [repeat split; apply He|]. destruct (_ && s); [repeat split; exact H2|].
  destruct (_ || _); [repeat split; apply He|repeat split; exact H2].
Qed.

Lemma scan_sim : forall ka kb cur cur' v pt, kr ka kb -> er cur cur' -> forall l l', Forall2 er l l' -> forall a b, best_rel a b ->
  orel best_rel (scan_ends ka cur v pt l a) (scan_ends kb cur' v pt l' b).
Proof using Same IdxA IdxB.
  intros ka kb cur cur' v pt K Hc l l' H. induction H as [|e f l l' He H IH]; intros a b Hb; cbn [scan_ends]; [exact Hb|].
  apply (orel_bind eq); [now apply processed_sim|]. intros d _ <-. destruct d; [now apply IH|].
  rewrite (er_cmp _ _ _ _ He Hc). apply (orel_bind eq); [apply orel_refl|]. intros c _ <-.
  assert (G : orel best_rel (let* c := segment_cmp (fst e) (fst cur) in match c with Eq => scan_ends ka cur v pt l a | _ => if point_eqb pt (ep_point e) then scan_ends ka cur v pt l (consider_end v a e) else Ok a end)
    (let* c := segment_cmp (fst f) (fst cur') in match c with Eq => scan_ends kb cur' v pt l' b | _ => if point_eqb pt (ep_point f) then scan_ends kb cur' v pt l' (consider_end v b f) else Ok b end)).
  { apply (orel_bind both_eq); [apply sr_cmp; [apply He|apply Hc]|]. intros x y Q. destruct (er_point _ _ He) as [-> _].
    assert (G : orel best_rel (if point_eqb pt (ep_point f) then scan_ends ka cur v pt l (consider_end v a e) else Ok a) (if point_eqb pt (ep_point f) then scan_ends kb cur' v pt l' (consider_end v b f) else Ok b)).
    { destruct (point_eqb pt (ep_point f)); [|exact Hb]. apply IH. now apply consider_sim. }
    destruct x, y; try exact G; try (now apply IH); exfalso; unfold both_eq in Q; destruct Q as [Q1 Q2]; try (discriminate (Q1 eq_refl)); discriminate (Q2 eq_refl). }
  destruct c; [now apply IH|exact G|exact G].
Qed.

Lemma next_sim : forall ka kb cur cur' l l', kr ka kb -> er cur cur' -> Forall2 er l l' -> orel er (find_next_segment ka cur l) (find_next_segment kb cur' l').
Proof using Same IdxA IdxB.
  intros ka kb cur cur' l l' K Hc H. unfold find_next_segment. destruct (er_point _ _ Hc) as [-> ->]. cbv zeta.
  apply (orel_bind (Forall2 er)); [now apply seek_sim|]. intros m m' Hm.
  apply (orel_bind best_rel); [apply scan_sim; auto; repeat split|]. intros [[d o] s] [[d' o'] s'] (_ & X & _). cbn [fst snd] in X.
  destruct o, o'; cbn in X |- *; auto; contradiction.
Qed.

Definition loop_rel (a b : contour * list packet * bend) : Prop := fst (fst a) = fst (fst b) /\ kr (snd (fst a)) (snd (fst b)) /\ er (snd a) (snd b).
Lemma loop_trace : forall fuel l l' cid start, Forall2 er l l' -> forall cur cur' c ka kb, er cur cur' -> kr ka kb ->
  orel loop_rel (trace_loop fuel l cid start cur c ka) (trace_loop fuel l' cid start cur' c kb).
Proof using Same IdxA IdxB.
  induction fuel as [|fuel IH]; intros l l' cid start H cur cur' c ka kb Hc K; cbn [trace_loop]; [reflexivity|].
  apply (orel_bind (matched W)); [apply kr_get; [exact K|apply Hc]|]. intros u v M. cbv zeta.
  assert (K' : kr (put_packet ka (fst cur) (with_done u (snd cur) cid)) (put_packet kb (fst cur') (with_done v (snd cur') cid))).
  { destruct Hc as [C1 C2]. rewrite C2. apply kr_put; auto. now apply matched_done. }
  apply (orel_bind eq).
  - destruct Hc as [_ ->]. destruct M as [-> _]. cbn [with_below k_left k_right]. apply orel_refl.
  - intros from _ <-. destruct (er_point _ _ Hc) as [_ ->]. destruct (point_eqb (ep_other cur') start); [cbn; repeat split; auto; apply Hc|].
    apply (orel_bind er); [now apply next_sim|]. intros x y Hxy. now apply IH.
Qed.

Definition one_rel (a b : list packet * polygon) : Prop := kr (fst a) (fst b) /\ snd a = snd b.
Lemma one_sim : forall l l', Forall2 er l l' -> forall a b e f, one_rel a b -> er e f -> orel one_rel (trace_one segsA l a e) (trace_one segsB l' b f).
Proof using Same IdxA IdxB AtA AtB.
  intros l l' H [ka fi] [kb fi'] [e x] [f y] [K Q] He. cbn [fst snd] in K, Q. subst fi'. unfold trace_one.
  apply (orel_bind eq); [now apply processed_sim|]. intros d _ <-. destruct d; [split; auto|].
  pose proof He as [H1 H2]. cbn [fst snd] in H1, H2. subst y. destruct (sr_same _ _ H1) as (-> & _).
  apply (orel_bind (matched W)); [now apply kr_get|]. intros u v [M _]. rewrite M. cbn [with_below k_left k_right k_left_index]. cbv zeta.
  apply (orel_bind er); [now apply orel_nth|]. intros cur cur' Hc. rewrite (Forall2_len _ _ _ H).
  apply (orel_bind loop_rel); [now apply loop_trace|]. intros [[c k1] c1] [[c' k2] c2] (R1 & R2 & R3). cbn [fst snd] in R1, R2, R3. subst c'.
  apply (orel_bind eq); [apply orel_refl|]. intros [cw c'] _ <-. destruct cw; [|split; auto].
  apply (orel_bind (matched W)); [apply kr_get; [exact R2|apply R3]|]. intros a b [_ B]. unfold below_rel in B.
  destruct (k_below a) as [i|], (k_below b) as [j|]; try contradiction; [|split; auto]. destruct B as (p & Hp & <- & <-).
  apply (orel_bind sr); [unfold index_nat; rewrite AtA, AtB by exact Hp; exists p; auto|]. intros s t Hst.
  apply (orel_bind (matched W)); [now apply kr_get|]. intros a' b' [B _]. rewrite B. cbn [with_below k_left_contour].
  apply (orel_bind eq); [apply orel_refl|]. intros o _ <-. apply (orel_bind eq); [apply orel_refl|]. intros o1 _ <-. apply (orel_bind eq); [apply orel_refl|]. intros o2 _ <-. split; auto.
Qed.

Lemma neighbors_sim : forall ka kb fi e f, kr ka kb -> er e f -> orel eq (assign_neighbors ka fi e) (assign_neighbors kb fi f).
Proof using.
  intros ka kb fi e f K [He _]. unfold assign_neighbors. apply (orel_bind (matched W)); [now apply kr_get|]. intros u v [M _]. rewrite M. cbn [with_below k_right_contour k_left_contour].
  apply orel_refl.
Qed.

(** *** Everything after the sweep *)

Definition finish (std : std_impl) (w : sweep) : outcome polygon :=
  let* (segments, endpoints) := include_all modes (w_packets w) (w_swept w) in
  let* _ := std_sort std _ segment_cmp segments in
  let* included := std_sort std _ endpoint_cmp endpoints in
  let* ks := assign_indexes 0 included (w_packets w) in
  let* (ks, final) := ofold (trace_one (w_segs w) included) included (ks, []) in
  let final := map (fun c => set_neighbors c (c_neighbors c ++ repeat false (length final))) final in
  ofold (assign_neighbors ks) included final.

Hypothesis Int : forall p, In p W -> int_seg (p_head p).

Lemma finish_sim : forall std wA wB, std_laws std -> sorts std -> w_segs wA = segsA -> w_segs wB = segsB -> w_swept wA = map p_seg W -> w_swept wB = map p_head W -> kr (w_packets wA) (w_packets wB) ->
  (forall segs ends, include_all modes (w_packets wB) (w_swept wB) = Ok (segs, ends) -> exists l, Permutation ends l /\ increasing endpoint_cmp l) ->
  finish std wA = finish std wB.
Proof using Same IdxA IdxB AtA AtB Int.
  intros std wA wB SL SO SA SB WA WB K Sorted. destruct (include_sim _ _ W K (fun x H => H)) as (X & Y & I1 & I2 & HX & HY).
  rewrite <- WA in I1. rewrite <- WB in I2. destruct (Sorted _ _ I2) as (lB & Pm & Inc). apply Permutation_sym in Pm. 
  destruct (Permutation_map_inv _ _ Pm) as (Y' & -> & PY). set (fa := fun c : piece * seg_end => (p_seg (fst c), snd c)) in *. set (fb := fun c : piece * seg_end => (p_head (fst c), snd c)) in *.
  assert (InY : forall c, In c Y -> In (fst c) W) by (intros c Hc; apply HY; now apply in_map).
  assert (InY' : forall c, In c Y' -> In (fst c) W) by (intros c Hc; apply InY; exact (Permutation_in _ (Permutation_sym PY) Hc)).
  assert (Er : forall c, In (fst c) W -> er (fa c) (fb c)) by (intros c Hc; split; [exists (fst c); auto|reflexivity]).
  destruct (endpoint_lawful unit) as (H1 & H2 & H3).
  assert (IntA : forall p, In p W -> int_seg (p_seg p)).
  { intros p Hp. destruct (Int p Hp) as (l & r & Z). destruct (Same p Hp) as (S1 & S2 & _). exists l, r. unfold seg_z in *. now rewrite S1, S2. }
  assert (IncA : increasing endpoint_cmp (map fa Y')).
  { unfold increasing in *. clear Pm PY. induction Y' as [|c Y' IH]; cbn [map] in *; [constructor|]. inversion Inc as [|? ? I1' I2']; subst. constructor; [apply IH; auto; intros; apply InY'; now right|].
    rewrite Forall_map in *. rewrite Forall_forall in *. intros d Hd. specialize (I2' d Hd). rewrite !(er_cmp _ _ _ _ (Er c (InY' c (or_introl eq_refl))) (Er d (InY' d (or_intror Hd)))), !(er_cmp _ _ _ _ (Er d (InY' d (or_intror Hd))) (Er c (InY' c (or_introl eq_refl)))). exact I2'. }
  assert (Rf : forall e : bend, int_seg (fst e) -> endpoint_cmp e e = Ok Eq).
  { intros e He. etransitivity; [exact (H1 e e He He)|]. f_equal. exact (c_refl int_event endpoint_cmp cmp_of H1 H2 H3 e He). }
  assert (SortA : std_sort std bend endpoint_cmp (map fa Y) = Ok (map fa Y')).
  { apply SO; [apply Permutation_map; exact PY| |exact IncA]. intros e He. apply in_map_iff in He. destruct He as (c & <- & Hc). apply Rf. apply IntA. now apply InY. }
  assert (SortB : std_sort std bend endpoint_cmp (map fb Y) = Ok (map fb Y')).
  { apply SO; [apply Permutation_map; exact PY| |exact Inc]. intros e He. apply in_map_iff in He. destruct He as (c & <- & Hc). apply Rf. apply Int. now apply InY. }
  assert (SegOk : forall f : piece -> bseg, (forall p, In p W -> int_seg (f p)) -> exists l, std_sort std bseg segment_cmp (map f X) = Ok l).
  { intros f Hf. apply (sort_total std SL). intros a b Ha Hb. apply in_map_iff in Ha, Hb. destruct Ha as (p & <- & Hp), Hb as (q & <- & Hq). apply HX, Hf in Hp. apply HX, Hf in Hq.
    destruct Hp as (l1 & r1 & Z1), Hq as (l2 & r2 & Z2). destruct (Nat.eq_dec (s_index (f p)) (s_index (f q))) as [Q|Q].
    - exists Eq. unfold segment_cmp. rewrite (proj2 (Nat.eqb_eq _ _) Q). reflexivity.
    - pose proof (segment_cmp_int unit (f p) (f q) _ _ _ _ Z1 Z2 Q) as G. destruct (_ && _); [eauto|]. repeat match type of G with _ = (if ?c then _ else _) => destruct c end; try (eexists; exact G). }
  destruct (SegOk p_seg IntA) as (la & SegA). destruct (SegOk p_head Int) as (lb & SegB).
  unfold finish. rewrite I1, I2. cbn [obind]. cbn beta iota. 
  match goal with |- obind ?a _ = obind ?b _ => replace a with (Ok la) by (symmetry; exact SegA); replace b with (Ok lb) by (symmetry; exact SegB) end. cbn [obind].
  match goal with |- obind ?a _ = obind ?b _ => replace a with (Ok (map fa Y') : outcome (list bend)) by (symmetry; exact SortA); replace b with (Ok (map fb Y') : outcome (list bend)) by (symmetry; exact SortB) end. cbn [obind].
  assert (F2 : Forall2 er (map fa Y') (map fb Y')). { clear - InY' Er. induction Y' as [|c Y' IH]; constructor; [apply Er, InY'; now left|apply IH; intros; apply InY'; now right]. }
  apply orel_eq. apply (orel_bind kr); [now apply indexes_sim|]. intros ka kb K'. rewrite SA, SB.
  apply (orel_bind one_rel).
  - apply (orel_fold er one_rel); [exact F2| |split; [exact K'|reflexivity]]. intros. now apply one_sim.
  - intros [k1 f1] [k2 f2] [R1 R2]. cbn [fst snd] in R1, R2. subst f2. apply (orel_fold er eq); [exact F2| |reflexivity]. intros s s' x y <- Hxy. now apply neighbors_sim.
Qed.
End Trace.

Lemma compute_finish : forall std fuel polys op, compute std fuel polys op =
  let* w := add_polygons (length polys) 0 polys (mk_sweep [] [] [] [] []) in let* w := sweep_loop fuel (length polys) w in finish (map snd polys) std w.
Proof. reflexivity. Qed.
