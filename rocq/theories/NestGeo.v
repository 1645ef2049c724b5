(** Closed lines that do not cross: turning them round, and which way they go. *)

From Coq Require Import List ZArith QArith Bool Arith Lia Lqa Permutation.
From Verif Require Import Base Float FloatFacts MapFacts ShapeFacts SpecFloat64 SpecShape SpecOrder SpecIntersect SpecHandle SpecTidy SpecOverlay SpecHoles Geometry Sweep
  Contours Compute OrderFacts OrientFacts TidyGeo TidyParity TidySetup TidyLine TidyStart TidyFacts TidyNext TidyWinding TidyArea.
Import ListNotations.
Local Open Scope Z_scope.

(** *** A line turned round *)

Fixpoint consec {A} (l : list A) : list (A * A) :=
  match l with
  | a :: ((b :: _) as l') => (a, b) :: consec l'
  | _ => []
  end.
Definition swap {A} (s : A * A) : A * A := (snd s, fst s).

Lemma consec_cons : forall {A} (a b : A) l, consec (a :: b :: l) = (a, b) :: consec (b :: l).
Proof. reflexivity. Qed.
Lemma consec_snoc : forall {A} (l : list A) a b, consec (l ++ [a; b]) = consec (l ++ [a]) ++ [(a, b)].
Proof.
  induction l as [|x l IH]; intros a b; [reflexivity|]. destruct l as [|y l]; [reflexivity|].
  change ((x :: y :: l) ++ [a; b]) with (x :: y :: (l ++ [a; b])). change ((x :: y :: l) ++ [a]) with (x :: y :: (l ++ [a])).
  rewrite !consec_cons. cbn [app]. f_equal. apply (IH a b).
Qed.
Lemma consec_rev : forall {A} (l : list A), consec (rev l) = rev (map swap (consec l)).
Proof.
  intros A. induction l as [|a l IH]; [reflexivity|]. destruct l as [|b l]; [reflexivity|].
  rewrite consec_cons. cbn [map rev]. rewrite <- IH. cbn [rev]. rewrite <- app_assoc. cbn [app]. apply consec_snoc.
Qed.

Lemma sides_consec : forall a t, sides (a :: t) = consec ((a :: t) ++ [a]).
Proof.
  intros a t. unfold sides. enough (H : forall t a c, combine (a :: t) (t ++ [c]) = consec ((a :: t) ++ [c])) by apply H.
  clear. induction t as [|b t IH]; intros a c; [reflexivity|].
  change ((a :: b :: t) ++ [c]) with (a :: b :: (t ++ [c])). rewrite consec_cons. cbn [app combine]. f_equal. apply (IH b c).
Qed.

Lemma sides_rev : forall l, Permutation (sides (rev l)) (map swap (sides l)).
Proof.
  intros [|a t]; [constructor|]. destruct (rev (a :: t)) as [|b u] eqn:R; [apply (f_equal (@length _)) in R; rewrite rev_length in R; discriminate|].
  assert (L : a :: t = rev u ++ [b]) by (rewrite <- (rev_involutive (a :: t)), R; reflexivity).
  rewrite !sides_consec.
  assert (Q : (b :: u) ++ [b] = rev (b :: a :: t)) by (rewrite L; cbn [rev]; rewrite rev_app_distr, rev_involutive; reflexivity).
  rewrite Q, consec_rev, consec_cons. rewrite <- Permutation_rev.
  assert (Q2 : consec ((a :: t) ++ [a]) = consec (a :: t) ++ [(b, a)]) by (rewrite L, <- app_assoc; apply (consec_snoc (rev u) b a)).
  rewrite Q2, map_app. cbn [map swap fst snd]. apply Permutation_cons_append.
Qed.

Lemma left_swap : forall i s, left_to_right i (swap s) = left_to_right i s.
Proof.
  intros i [a b]. unfold left_to_right, swap. cbn [fst snd]. rewrite (lex_anti a b). destruct (lex_z a b); reflexivity.
Qed.

Lemma edges_rev : forall i l, Permutation (polygon_edges i [rev l]) (polygon_edges i [l]).
Proof.
  intros i l. unfold polygon_edges. cbn [flat_map]. rewrite !app_nil_r. rewrite (Permutation_flat_map (left_to_right i) (sides_rev l)).
  rewrite flat_map_concat_map, map_map, (map_ext _ (left_to_right i)) by (intros s; apply left_swap). rewrite flat_map_concat_map. reflexivity.
Qed.

Definition turned_z (a b : list (Z * Z)) : Prop := b = a \/ b = rev a.

Lemma edges_turned : forall z z' i, Forall2 turned_z z z' ->
  Permutation (edges_from i (map (fun l => [l]) z)) (edges_from i (map (fun l => [l]) z')).
Proof.
  intros z z' i F. revert i. induction F as [|a b z z' H F IH]; intros i; [constructor|]. cbn [map edges_from]. apply Permutation_app; [|apply IH].
  destruct H as [->| ->]; [apply Permutation_refl|symmetry; apply edges_rev].
Qed.

Definition zsum (l : list Z) : Z := fold_right Z.add 0 l.
Lemma zsum_perm : forall l m, Permutation l m -> zsum l = zsum m.
Proof. intros l m H. unfold zsum. induction H; cbn; lia. Qed.
Lemma zsum_app : forall l m, zsum (l ++ m) = zsum l + zsum m.
Proof. intros l m. unfold zsum. induction l as [|a l IH]; cbn; lia. Qed.

Lemma sign_swap : forall x y s, side_sign x y (swap s) = - side_sign x y s.
Proof.
  intros x y [a b]. unfold side_sign, swap. cbn [fst snd]. rewrite (lex_anti a b). destruct (lex_z a b); cbn; [reflexivity|destruct (passes_below _ _ _); reflexivity..].
Qed.
Lemma winding_rev : forall x y l, winding x y (rev l) = - winding x y l.
Proof.
  intros x y l. change (zsum (map (side_sign x y) (sides (rev l))) = - zsum (map (side_sign x y) (sides l))).
  rewrite (zsum_perm _ _ (Permutation_map (side_sign x y) (sides_rev l))), map_map.
  induction (sides l) as [|s m IH]; [reflexivity|]. cbn [map].
  unfold zsum in *. cbn [fold_right]. rewrite sign_swap, IH. lia.
Qed.

Lemma once_rev : forall o l, goes_once o l -> goes_once (- o) (rev l).
Proof.
  intros o l ((x & y & H) & G). split; [exists x, y; rewrite winding_rev; lia|]. intros u v. rewrite winding_rev. destruct (G u v) as [->| ->]; [now left|now right].
Qed.

Lemma inside_turned : forall a b x y, turned_z a b -> inside_of b x y <-> inside_of a x y.
Proof. intros a b x y [->| ->]; [reflexivity|]. unfold inside_of. rewrite winding_rev. lia. Qed.

(** *** Segments for the edges *)

Definition point_z (v : Z * Z) : point := mk_point (f64_of_Z (fst v)) (f64_of_Z (snd v)).
Lemma point_z_at : forall v, within (2 ^ 24) v -> at_z (point_z v) v.
Proof.
  intros [x y] [W1 W2]. cbn [fst snd] in *. assert (B : 2 ^ 24 < 2 ^ 53) by reflexivity.
  assert (I1 : is_int (f64_of_Z x) x) by (apply is_int_of_Z; lia). assert (I2 : is_int (f64_of_Z y) y) by (apply is_int_of_Z; lia).
  unfold at_z, point_z. cbn [px py fst snd]. split; [eapply is_int_is_f64; eassumption|]. split; [eapply is_int_is_f64; eassumption|].
  split; now apply is_int_valued.
Qed.

Fixpoint draw (k : nat) (l : list edge) : list bseg :=
  match l with
  | [] => []
  | e :: l' => mk_sseg (point_z (e_left e)) (point_z (e_right e)) false k (e_poly e) tt :: draw (S k) l'
  end.

Lemma draw_nth : forall l k i s, nth_error (draw k l) i = Some s ->
  exists e, nth_error l i = Some e /\ s = mk_sseg (point_z (e_left e)) (point_z (e_right e)) false (k + i) (e_poly e) tt.
Proof.
  induction l as [|e l IH]; intros k i s H; [destruct i; discriminate|]. destruct i as [|i]; cbn [draw nth_error] in H.
  - injection H as <-. exists e. split; [reflexivity|]. now rewrite Nat.add_0_r.
  - destruct (IH (S k) i s H) as (f & F1 & F2). exists f. split; [exact F1|]. now rewrite Nat.add_succ_r.
Qed.
Lemma draw_length : forall l k, length (draw k l) = length l.
Proof. induction l as [|e l IH]; intros k; [reflexivity|]. cbn [draw length]. now rewrite IH. Qed.

Lemma sides_in : forall l s, In s (sides l) -> In (fst s) l /\ In (snd s) l.
Proof.
  intros l [a b] H. apply In_nth_error in H. destruct H as (i & H). apply sides_nth in H. destruct H as (H1 & H2). split; eapply nth_error_In; eassumption.
Qed.

Lemma ring_edge : forall z e, In e (ring_edges z) -> exists l s, nth_error z (e_poly e) = Some l /\ In s (sides l) /\ left_to_right (e_poly e) s = [e].
Proof.
  intros z e. unfold ring_edges, edges.
  assert (G : forall z i, In e (edges_from i (map (fun l => [l]) z)) -> exists k l s, e_poly e = (i + k)%nat /\ nth_error z k = Some l /\ In s (sides l) /\ left_to_right (e_poly e) s = [e]).
  { clear z. induction z as [|l z IH]; intros i H; [destruct H|]. cbn [map edges_from] in H. apply in_app_iff in H. destruct H as [H|H].
    - pose proof H as H'. apply polygon_edges_poly in H'. destruct H' as (Q & _). exists 0%nat, l. unfold polygon_edges in H. cbn [flat_map] in H. rewrite app_nil_r in H.
      apply in_flat_map in H. destruct H as (s & Hs & He). exists s. split; [lia|]. split; [reflexivity|]. split; [exact Hs|]. rewrite Q. unfold left_to_right in *.
      destruct (lex_z (fst s) (snd s)); [destruct He|destruct He as [<-|[]]; reflexivity..].
    - destruct (IH (S i) H) as (k & m & s & K1 & K2 & K3 & K4). exists (S k), m, s. split; [lia|]. auto. }
  intros H. destruct (G z 0%nat H) as (k & l & s & K1 & K2 & K3 & K4). cbn in K1. exists l, s. rewrite <- K1 in K2. auto.
Qed.
Lemma ring_side : forall z i l s e, nth_error z i = Some l -> In s (sides l) -> In e (left_to_right i s) -> In e (ring_edges z).
Proof.
  intros z i l s e. unfold ring_edges, edges.
  assert (G : forall z k n, nth_error z k = Some l -> In s (sides l) -> In e (left_to_right (n + k) s) -> In e (edges_from n (map (fun l => [l]) z))).
  { clear z i. induction z as [|m z IH]; intros k n H1 H2 H3; [destruct k; discriminate|]. cbn [map edges_from]. apply in_app_iff. destruct k as [|k]; cbn in H1.
    - injection H1 as ->. left. unfold polygon_edges. cbn [flat_map]. rewrite app_nil_r. apply in_flat_map. exists s. split; [exact H2|]. now rewrite Nat.add_0_r in H3.
    - right. apply (IH k (S n) H1 H2). now rewrite Nat.add_succ_r in H3. }
  intros H1 H2 H3. exact (G z i 0%nat H1 H2 H3).
Qed.

Lemma ring_within : forall z e, Forall (Forall (within (2 ^ 24))) z -> In e (ring_edges z) -> within (2 ^ 24) (e_left e) /\ within (2 ^ 24) (e_right e).
Proof.
  intros z e W H. destruct (ring_edge z e H) as (l & s & H1 & H2 & H3). apply nth_error_In in H1. rewrite Forall_forall in W. specialize (W l H1). rewrite Forall_forall in W.
  apply sides_in in H2. destruct H2 as (A & B). apply W in A, B. unfold left_to_right in H3. destruct (lex_z (fst s) (snd s)); [discriminate|injection H3 as <-; auto..].
Qed.

Lemma pairs_perm : forall {A} (P : A -> A -> Prop) l m, (forall a b, In a l -> In b l -> P a b -> P b a) -> Permutation l m -> ForallOrdPairs P l -> ForallOrdPairs P m.
Proof.
  intros A P l m Sy H. induction H as [|x l m H IH|x y l|l m k H1 IH1 H2 IH2]; intros F; [constructor| | |].
  - inversion F as [|? ? F1 F2]; subst. constructor.
    + rewrite Forall_forall in *. intros b Hb. apply F1, (Permutation_in _ (Permutation_sym H)), Hb.
    + apply IH; [|exact F2]. intros a b Ha Hb. apply Sy; now right.
  - inversion F as [|? ? F1 F2]; subst. inversion F2 as [|? ? F3 F4]; subst. inversion F1 as [|? ? F5 F6]; subst. constructor.
    + constructor; [|exact F3]. apply Sy; [now left|right; now left|exact F5].
    + constructor; assumption.
  - apply IH2; [|now apply IH1]. intros a b Ha Hb. apply Sy; eapply (Permutation_in _ (Permutation_sym H1)); assumption.
Qed.

Lemma ring_drawn : forall z, Forall (Forall (within (2 ^ 24))) z -> ForallOrdPairs apart (ring_edges z) -> drawn (ring_edges z) (draw 0 (ring_edges z)).
Proof.
  intros z W F. constructor.
  - apply draw_length.
  - intros k s H. apply draw_nth in H. destruct H as (e & _ & ->). reflexivity.
  - intros k s e H He. apply draw_nth in H. destruct H as (f & Hf & ->). rewrite He in Hf. injection Hf as <-. cbn [s_order]. split; [|reflexivity].
    pose proof (nth_error_In _ _ He) as I. destruct (ring_within z e W I) as (W1 & W2). split; [now apply point_z_at|]. split; [now apply point_z_at|].
    split; [exact (edges_lr _ 0 e I)|]. split; assumption.
  - intros k k' e e' H1 H2 N. right. refine (pairs_nth _ _ _ F k k' e e' H1 H2 N).
    intros a b Ha Hb. apply apart_sym; [exact (edges_lr _ 0 a Ha)|exact (edges_lr _ 0 b Hb)].
Qed.

(** *** Across an edge *)

Lemma nodup_parts : forall {A} (l m : list A), NoDup (l ++ m) -> NoDup l /\ NoDup m.
Proof.
  intros A l m. induction l as [|a l IH]; intros H; [split; [constructor|exact H]|]. cbn in H. inversion H as [|? ? H1 H2]; subst. destruct (IH H2) as (I1 & I2).
  split; [|exact I2]. constructor; [|exact I1]. intros Q. apply H1, in_app_iff. now left.
Qed.

Section Rings.
Variable z : corners.
Notation zs := (map (fun l : list (Z * Z) => [l]) z).
Notation E := (edges zs).
Notation eg := (eg (edges zs)).
Variable S : list bseg.
Hypothesis (D : drawn E S) (F : ForallOrdPairs apart E).

Lemma apart_self : forall e, lr e -> ~ apart e e.
Proof using. clear. intros e L A. apply apart_ends in A; [|exact L]. unfold same_ends in A. rewrite !lex_refl in A. discriminate. Qed.

Lemma edges_nodup : NoDup E.
Proof using F.
  clear D. assert (G : forall l, ForallOrdPairs apart l -> (forall e, In e l -> lr e) -> NoDup l).
  { induction l as [|e l IH]; intros P L; constructor; inversion P as [|? ? P1 P2]; subst.
    - intros H. rewrite Forall_forall in P1. apply (apart_self e); [apply L; now left|now apply P1].
    - apply IH; [assumption|]. intros f Hf. apply L. now right. }
  apply G; [exact F|]. intros e. exact (edges_lr _ 0 e).
Qed.

(** Edges are told apart by their ends. *)
Lemma ends_eq : forall e f, In e E -> In f E -> same_ends e f = true -> e = f.
Proof using F.
  clear D. intros e f He Hf SE. apply In_nth_error in He, Hf. destruct He as (i & He), Hf as (j & Hf). destruct (Nat.eq_dec i j) as [->|N]; [congruence|exfalso].
  assert (A : apart e f).
  { refine (pairs_nth _ _ _ F i j e f He Hf N). intros a b Ha Hb. apply apart_sym; [exact (edges_lr _ 0 a Ha)|exact (edges_lr _ 0 b Hb)]. }
  apply apart_ends in A; [congruence|]. apply (edges_lr zs 0). eapply nth_error_In; eassumption.
Qed.

Lemma part_nodup : forall i l, nth_error z i = Some l -> NoDup (polygon_edges i [l]).
Proof using F.
  intros i l. assert (G : forall z0 k n, NoDup (edges_from n (map (fun l : list (Z * Z) => [l]) z0)) -> nth_error z0 k = Some l -> NoDup (polygon_edges (n + k) [l])).
  { clear. induction z0 as [|m w IH]; intros k n N H; [destruct k; discriminate|]. cbn [map edges_from] in N. destruct k as [|k]; cbn in H.
    - injection H as ->. rewrite Nat.add_0_r. now apply nodup_parts in N.
    - rewrite Nat.add_succ_r. apply (IH k (Datatypes.S n)); [|exact H]. now apply nodup_parts in N. }
  intros H. exact (G z i 0%nat edges_nodup H).
Qed.

Definition dir (s : (Z * Z) * (Z * Z)) : Z := match lex_z (fst s) (snd s) with Lt => 1 | Eq => 0 | Gt => -1 end.

Lemma sign_edge : forall i s e x y, left_to_right i s = [e] -> side_sign x y s = if passes_below e x y then dir s else 0.
Proof using.
  clear. intros i s e x y H. unfold side_sign, dir, left_to_right in *. destruct (lex_z (fst s) (snd s)); [discriminate|injection H as <-; reflexivity..].
Qed.
Lemma sign_flat : forall i s x y, left_to_right i s = [] -> side_sign x y s = 0.
Proof using. clear. intros i s x y H. unfold side_sign, left_to_right in *. destruct (lex_z (fst s) (snd s)); [reflexivity|discriminate..]. Qed.
Lemma left_cases : forall i s, left_to_right i s = [] \/ exists e, left_to_right i s = [e] /\ e_poly e = i.
Proof using. clear. intros i s. unfold left_to_right. destruct (lex_z _ _); [now left|right; eexists; split; reflexivity..]. Qed.

(** Just above the edge the other lines go round as often as just below it. *)
Lemma across : forall i l s e x, nth_error z i = Some l -> In s (sides l) -> left_to_right i s = [e] -> between x -> spans e x ->
  exists y, forall j m, nth_error z j = Some m -> winding x y m = winding x (yat e x) m + if (j =? i)%nat then dir s else 0.
Proof using D F.
  intros i l s e x Hl Hs He B (X1 & X2).
  assert (Ie : In e E) by (apply (ring_side z i l s e Hl Hs); rewrite He; now left).
  assert (Pe : e_poly e = i) by (destruct (left_cases i s) as [Q|(f & Q & Q2)]; congruence).
  destruct (gap (map (fun f => yat f x) E) (yat e x)) as (y & Y1 & Y2). exists y.
  assert (P : forall f, In f E -> passes_below f x y = passes_below f x (yat e x) || same_ends f e).
  { intros f If. pose proof (edges_lr zs 0 f If) as Lf. pose proof (passes_between f x y Lf B) as P1. pose proof (passes_between f x (yat e x) Lf B) as P2.
    destruct (same_ends f e) eqn:SE.
    - rewrite orb_true_r. apply P1. apply (ends_eq f e If Ie) in SE. subst f. split; [split; assumption|exact Y1].
    - rewrite orb_false_r. apply eq_true_iff_eq. rewrite P1, P2. split; intros (Q1 & Q2); (split; [exact Q1|]); [|lra].
      assert (Q3 : (yat f x <= yat e x)%Q) by (apply Y2; [apply (in_map (fun f => yat f x)); exact If|exact Q2]).
      destruct (Qlt_le_dec (yat f x) (yat e x)) as [G|G]; [exact G|exfalso].
      destruct (edge_seg _ _ D f If) as (a & Ia & <-). destruct (edge_seg _ _ D e Ie) as (b & Ib & <-).
      assert (SE' : same_ends (eg a) (eg b) = true); [|congruence].
      apply (level_same zs S D a b x Ia Ib B Q1); [split; assumption|lra]. }
  assert (N : forall j t, (forall s', In s' t -> In s' (sides (nth j z []))) -> (forall s' f, In s' t -> left_to_right j s' = [f] -> f <> e) -> nth_error z j <> None ->
    zsum (map (side_sign x y) t) = zsum (map (side_sign x (yat e x)) t)).
  { intros j t T1 T2 T3. f_equal. apply map_ext_in. intros s' Hs'. destruct (left_cases j s') as [Q|(f & Q & Q2)].
    - now rewrite !(sign_flat j).
    - rewrite !(sign_edge j s' f) by exact Q. destruct (nth_error z j) as [m|] eqn:Em; [|congruence].
      assert (If : In f E) by (apply (ring_side z j m s' f Em); [rewrite <- (nth_error_nth z j [] Em); now apply T1|rewrite Q; now left]).
      rewrite (P f If). destruct (same_ends f e) eqn:SE; [|now rewrite orb_false_r]. exfalso. apply (T2 s' f Hs' Q). now apply ends_eq. }
  intros j m Hm. change (zsum (map (side_sign x y) (sides m)) = zsum (map (side_sign x (yat e x)) (sides m)) + if (j =? i)%nat then dir s else 0).
  destruct (Nat.eqb_spec j i) as [->|NE].
  - assert (m = l) by congruence. subst m. destruct (in_split _ _ Hs) as (A & C & SP).
    assert (ND : forall s' f, In s' (A ++ C) -> left_to_right i s' = [f] -> f <> e).
    { intros s' f I' Q ->. pose proof (part_nodup i l Hl) as ND. unfold polygon_edges in ND. cbn [flat_map] in ND. rewrite app_nil_r, SP, flat_map_app in ND. cbn [flat_map] in ND.
      rewrite He in ND. apply NoDup_remove_2 in ND. apply ND. apply in_app_iff in I'. apply in_app_iff.
      destruct I' as [I'|I']; [left|right]; apply in_flat_map; exists s'; (split; [exact I'|rewrite Q; now left]). }
    assert (IN : forall s', In s' (A ++ C) -> In s' (sides (nth i z []))).
    { intros s' I'. rewrite (nth_error_nth z i [] Hl), SP. apply in_app_iff in I'. apply in_app_iff. cbn. tauto. }
    specialize (N i (A ++ C) IN ND ltac:(congruence)). rewrite SP. rewrite !map_app, !zsum_app in *. cbn [map]. change (zsum (?a :: ?b)) with (a + zsum b).
    rewrite !(sign_edge i s e) by exact He. rewrite (P e Ie). replace (same_ends e e) with true by (unfold same_ends; now rewrite !lex_refl). rewrite orb_true_r.
    replace (passes_below e x (yat e x)) with false; [lia|]. symmetry. apply not_true_iff_false. rewrite (passes_between e x _ (edges_lr zs 0 e Ie) B). intros (_ & Q). lra.
  - rewrite (N j (sides m)); [lia| | |congruence].
    + intros s' I'. now rewrite (nth_error_nth z j [] Hm).
    + intros s' f I' Q ->. destruct (left_cases j s') as [Q'|(f & Q' & Q2)]; congruence.
Qed.

(** *** Which way a line goes *)

Definition real (s : (Z * Z) * (Z * Z)) : bool := match lex_z (fst s) (snd s) with Eq => false | _ => true end.

Lemma real_perm : forall m U V, Permutation (map snd m ++ U) (map fst m ++ V) -> Permutation (map snd (filter real m) ++ U) (map fst (filter real m) ++ V).
Proof using.
  clear. induction m as [|[a b] m IH]; intros U V H; [exact H|]. cbn [filter]. cbn [map fst snd app] in H.
  destruct (real (a, b)) eqn:R.
  - cbn [map fst snd app]. rewrite !Permutation_middle. apply IH. now rewrite <- !Permutation_middle.
  - unfold real in R. cbn [fst snd] in R. destruct (lex_z a b) eqn:Q; [|discriminate..]. apply lex_eq in Q. subst b. apply Permutation_cons_inv in H. now apply IH.
Qed.
Lemma sides_perm : forall l, Permutation (map snd (sides l)) (map fst (sides l)).
Proof using.
  clear. intros [|a t]; [constructor|]. unfold sides.
  assert (Q : forall (l m : list (Z * Z)), length l = length m -> map fst (combine l m) = l /\ map snd (combine l m) = m).
  { induction l as [|x l IH]; intros [|y m] H; try discriminate; [split; reflexivity|]. cbn in *. destruct (IH m) as (Q1 & Q2); [lia|]. now rewrite Q1, Q2. }
  destruct (Q (a :: t) (t ++ [a])) as (-> & ->); [rewrite app_length; cbn; lia|]. symmetry. apply Permutation_cons_append.
Qed.

Definition follows (i : nat) (d : bend) (s : (Z * Z) * (Z * Z)) : Prop :=
  src zs d = fst s /\ dst zs d = snd s /\ In (fst d) S /\ sg d = dir s /\ exists j, left_to_right j s = [mk_edge j (e_left (eg (fst d))) (e_right (eg (fst d)))].

Lemma bends : forall i l t, nth_error z i = Some l -> (forall s, In s t -> In s (sides l)) -> exists C, Forall2 (follows i) C (filter real t).
Proof using D.
  clear F. intros i l t Hl. induction t as [|s t IH]; intros H; [exists []; constructor|]. destruct IH as (C & HC); [intros; apply H; now right|]. cbn [filter].
  destruct (real s) eqn:R; [|exists C; exact HC]. specialize (H s (or_introl eq_refl)). destruct (left_cases i s) as [Q|(e & Q & Q2)].
  { unfold real in R. unfold left_to_right in Q. destruct (lex_z _ _); discriminate. }
  destruct (edge_seg _ _ D e) as (b & Ib & Eb); [apply (ring_side z i l s e Hl H); rewrite Q; now left|].
  exists ((b, match lex_z (fst s) (snd s) with Lt => LeftEnd | _ => RightEnd end) :: C). constructor; [|exact HC]. unfold follows, sg, dir, src, dst. cbn [fst snd]. rewrite Eb.
  assert (QQ : left_to_right i s = [mk_edge i (e_left e) (e_right e)]) by (rewrite Q; subst i; now destruct e).
  unfold left_to_right in Q. destruct (lex_z (fst s) (snd s)); [discriminate|injection Q as <-; cbn; repeat split; eauto..].
Qed.

Lemma follows_wind : forall i C t x y, Forall2 (follows i) C t -> wind zs C x y = zsum (map (side_sign x y) t).
Proof using.
  clear. intros i C t x y H. induction H as [|d s C t (H1 & H2 & H3 & H4 & j & H5) H IH]; [reflexivity|].
  unfold wind in *. rewrite total_cons, IH. cbn [map]. change (zsum (?a :: ?b)) with (a + zsum b). f_equal.
  rewrite (sign_edge j s _ x y H5), H4. replace (passes_below (mk_edge j (e_left (eg (fst d))) (e_right (eg (fst d)))) x y) with (passes_below (eg (fst d)) x y) by reflexivity.
  destruct (passes_below _ _ _); cbn; lia.
Qed.
Lemma real_sum : forall x y t, zsum (map (side_sign x y) (filter real t)) = zsum (map (side_sign x y) t).
Proof using.
  clear. intros x y t. induction t as [|s t IH]; [reflexivity|]. cbn [filter map]. change (zsum (?a :: ?b)) with (a + zsum b). rewrite <- IH.
  destruct (real s) eqn:R; [reflexivity|]. unfold real in R. unfold side_sign at 2. destruct (lex_z _ _); [lia|discriminate..].
Qed.
Lemma follows_area : forall i C t, Forall2 (follows i) C t -> area2 zs C = zsum (map (fun s => cross_z (fst s) (snd s)) t).
Proof using.
  clear. intros i C t H. induction H as [|d s C t (H1 & H2 & _) H IH]; [reflexivity|]. unfold area2 in *. cbn [map fold_right]. rewrite IH, H1, H2. reflexivity.
Qed.
Lemma real_area : forall t, zsum (map (fun s => cross_z (fst s) (snd s)) (filter real t)) = zsum (map (fun s => cross_z (fst s) (snd s)) t).
Proof using.
  clear. induction t as [|[a b] t IH]; [reflexivity|]. cbn [filter map]. change (zsum (?a :: ?b)) with (a + zsum b). rewrite <- IH. unfold real. cbn [fst snd].
  destruct (lex_z a b) eqn:Q; [|reflexivity..]. apply lex_eq in Q. subst b. unfold cross_z. lia.
Qed.

Lemma follows_in : forall i C t d, Forall2 (follows i) C t -> In d C -> In (fst d) S.
Proof using.
  clear. intros i C t d H. induction H as [|e s C t (H1 & H2 & H3 & _) H IH]; intros Hd; [destruct Hd|]. destruct Hd as [<-|Hd]; auto.
Qed.
Lemma follows_ends : forall i C t, Forall2 (follows i) C t -> map (src zs) C = map fst t /\ map (dst zs) C = map snd t.
Proof using.
  clear. intros i C t H. induction H as [|e s C t (H1 & H2 & H3 & _) H (IH1 & IH2)]; [split; reflexivity|]. cbn [map]. now rewrite H1, H2, IH1, IH2.
Qed.

(** Some edge of the line is not upright. *)
Lemma some_sloped : forall i l x y, nth_error z i = Some l -> winding x y l <> 0 -> exists s e, In s (sides l) /\ left_to_right i s = [e] /\ sloped e.
Proof using.
  clear. intros i l x y Hl W. change (zsum (map (side_sign x y) (sides l)) <> 0) in W.
  assert (H : exists s, In s (sides l) /\ side_sign x y s <> 0).
  { clear Hl. induction (sides l) as [|s t IH]; [now cbn in W|]. change (side_sign x y s + zsum (map (side_sign x y) t) <> 0) in W.
    destruct (Z.eq_dec (side_sign x y s) 0) as [Q|Q]; [|exists s; split; [now left|exact Q]]. destruct IH as (s' & I' & Q'); [lia|]. exists s'. split; [now right|exact Q']. }
  destruct H as (s & Hs & N). exists s. destruct (left_cases i s) as [Q|(e & Q & _)]; [now rewrite (sign_flat i) in N|]. exists e. split; [exact Hs|]. split; [exact Q|].
  rewrite (sign_edge i s e x y Q) in N. destruct (passes_below e x y) eqn:P; [|congruence].
  assert (L : lr e) by (apply (edges_lr zs 0), (ring_side z i l s e Hl Hs); rewrite Q; now left).
  apply (passes_iff e x y L) in P. apply (lr_sloped e x L); apply P.
Qed.

Lemma line_area : forall i l o, nth_error z i = Some l -> (o = 1 \/ o = -1) -> goes_once o l -> 0 < o * shoelace l.
Proof using D F.
  intros i l o Hl Ho ((x0 & y0 & W0) & G). destruct (bends i l (sides l) Hl (fun s H => H)) as (C & HC).
  pose proof (fun d => follows_in i C _ d HC) as CS. destruct (follows_ends i C _ HC) as (EC1 & EC2).
  assert (CB : Permutation (map (dst zs) C) (map (src zs) C)).
  { rewrite EC1, EC2. pose proof (real_perm (sides l) [] []) as R. rewrite !app_nil_r in R. apply R, sides_perm. }
  assert (W : forall x y, wind zs C x y = winding x y l) by (intros x y; rewrite (follows_wind i C _ x y HC); apply real_sum).
  assert (A : shoelace l = area2 zs C).
  { rewrite (follows_area i C _ HC), real_area. unfold shoelace, sides. destruct l as [|a t]; reflexivity. }
  rewrite A. apply (area_positive zs S D C CS CB).
  - intros k y. rewrite W. destruct (G (mid k) y) as [->| ->]; lia.
  - destruct (some_sloped i l x0 y0 Hl W0) as (s & e & Hs & He & Se).
    destruct (across i l s e (mid (fst (e_left e))) Hl Hs He (mid_between _)) as (y & Y).
    { unfold sloped in Se. split; [|apply mid_lt; lia]. unfold mid. lra. }
    specialize (Y i l Hl). rewrite Nat.eqb_refl in Y.
    assert (Ds : dir s <> 0) by (unfold dir; unfold left_to_right in He; destruct (lex_z _ _); [discriminate|lia..]).
    destruct (G (mid (fst (e_left e))) y) as [Q|Q].
    + exists (fst (e_left e)), (yat e (mid (fst (e_left e)))). rewrite W. destruct (G (mid (fst (e_left e))) (yat e (mid (fst (e_left e))))) as [Q'|Q']; [lia|]. rewrite Q'. lia.
    + exists (fst (e_left e)), y. rewrite W, Q. lia.
Qed.
End Rings.
