(** Polygons beside each other: their edges, places and lines. *)

From Coq Require Import List ZArith QArith Bool Lia Lqa Arith Permutation.
From Verif Require Import Base Float Contours Sweep Compute SpecShape SpecOrder SpecIntersect SpecTurn SpecHandle SpecTidy SpecOverlay OrderFacts TidyGeo TidyParity TidyStart FollowFacts SpecFollow SpecBeside.
Import ListNotations.
Local Open Scope Z_scope.

Definition bumped (n : nat) (e : edge) : edge := mk_edge (n + e_poly e) (e_left e) (e_right e).
Lemma bumped_from : forall n ws i, edges_from (n + i) ws = map (bumped n) (edges_from i ws).
Proof.
  intros n. induction ws as [|z ws IH]; intros i; [reflexivity|]. cbn [edges_from]. rewrite map_app. f_equal; [|rewrite <- IH; f_equal; lia].
  unfold polygon_edges. induction (flat_map sides z) as [|s l IHl]; [reflexivity|]. cbn [flat_map]. rewrite map_app, <- IHl. f_equal. unfold left_to_right. destruct (lex_z (fst s) (snd s)); reflexivity.
Qed.
Lemma edges_from_app : forall zs ws i, edges_from i (zs ++ ws) = edges_from i zs ++ edges_from (length zs + i) ws.
Proof. induction zs as [|z zs IH]; intros ws i; [reflexivity|]. cbn [app edges_from length]. rewrite IH, <- app_assoc. do 3 f_equal. lia. Qed.
Lemma edges_app : forall zs ws, edges (zs ++ ws) = edges zs ++ map (bumped (length zs)) (edges ws).
Proof. intros zs ws. unfold edges. rewrite edges_from_app. f_equal. apply bumped_from. Qed.

Lemma lr_le : forall e, lr e -> fst (e_left e) <= fst (e_right e).
Proof. intros e H. unfold lr, lex_z in H. destruct (Z.compare_spec (fst (e_left e)) (fst (e_right e))); [lia|lia|discriminate]. Qed.
Lemma inside_between : forall e x y, lr e -> inside_edge e x y -> (xl e <= x <= xr e)%Q.
Proof.
  intros e x y H (t & T0 & T1 & A & _). apply lr_le in H. rewrite inject_sub in A. rewrite Zle_Qle in H. rewrite A. set (u := xl e) in *. set (v := xr e) in *. clearbody u v.
  assert (P : (0 <= t * (v - u))%Q) by (apply Qmult_le_0_compat; lra). assert (P' : (0 <= (1 - t) * (v - u))%Q) by (apply Qmult_le_0_compat; lra). split; lra.
Qed.
Lemma qlt_false : forall a b, (b <= a)%Q -> qlt a b = false.
Proof. intros a b H. unfold qlt. destruct (a ?= b)%Q eqn:E; auto. apply Qlt_alt in E. lra. Qed.
Lemma qlt_true : forall a b, (a < b)%Q -> qlt a b = true.
Proof. intros a b H. unfold qlt. destruct (a ?= b)%Q eqn:E; [apply Qeq_alt in E; lra|reflexivity|apply Qgt_alt in E; lra]. Qed.
Lemma left_of_edge : forall e x y, (x < xl e)%Q -> passes_below e x y = false.
Proof. intros [k [u v] [u' v']] x y H. cbn [e_left fst] in H. unfold passes_below. cbn [e_left e_right]. rewrite (qlt_true x (inject_Z u) H). reflexivity. Qed.
Lemma right_of_edge : forall e x y, (xr e <= x)%Q -> passes_below e x y = false.
Proof. intros [k [u v] [u' v']] x y H. cbn [e_right fst] in H. unfold passes_below. cbn [e_left e_right]. rewrite (qlt_false x (inject_Z u') H). destruct (negb _); reflexivity. Qed.
Lemma no_filter : forall A (f : A -> bool) l, (forall a, In a l -> f a = false) -> filter f l = [].
Proof. induction l as [|a l IH]; intros H; [reflexivity|]. cbn [filter]. rewrite (H a (or_introl eq_refl)). apply IH. intros b I. apply H. now right. Qed.

Lemma kept_first : forall mz mw (P : nat -> Prop), (forall i, P i -> (i < length mz)%nat) -> kept_place (mz ++ mw) P <-> kept_place mz P.
Proof.
  intros mz mw P H. unfold kept_place. split; intros ((i & I & J) & K); (split; [exists i; split; [|exact J]|intros k X; specialize (K k X); pose proof (H k X) as L]).
  - now apply H.
  - now rewrite nth_error_app1 in K.
  - rewrite app_length. lia.
  - now rewrite nth_error_app1.
Qed.
Lemma kept_second : forall mz mw (P P' : nat -> Prop), (forall i, P' i <-> exists j, (i = length mz + j)%nat /\ P j) -> kept_place (mz ++ mw) P' <-> kept_place mw P.
Proof.
  intros mz mw P P' H. unfold kept_place. split; intros ((i & I & J) & K).
  - apply H in J. destruct J as (j & -> & J). rewrite app_length in I. split; [exists j; split; [lia|exact J]|]. intros k X. specialize (K (length mz + k)%nat). rewrite nth_error_app2 in K by lia. replace (length mz + k - length mz)%nat with k in K by lia. apply K, H. eauto.
  - split; [exists (length mz + i)%nat; split; [rewrite app_length; lia|apply H; eauto]|]. intros k X. apply H in X. destruct X as (j & -> & X). rewrite nth_error_app2 by lia. replace (length mz + j - length mz)%nat with j by lia. now apply K.
Qed.

Section Beside.
Variables (zs ws : list corners) (mz mw : list polygon_mode).
Hypothesis (B : beside zs ws).
Local Notation n := (length zs).
Local Notation bump := (bumped (length zs)).

Lemma has_first : forall e i, In e (edges zs) -> has_edge (zs ++ ws) i e <-> has_edge zs i e.
Proof using B.
  intros e i He. unfold has_edge. rewrite edges_app. split; intros (f & F & P & X & Y).
  - apply in_app_or in F. destruct F as [F|F]; [exists f; auto|]. apply in_map_iff in F. destruct F as (f' & <- & F). cbn [bumped e_left e_right] in X, Y.
    pose proof (B e f' He F) as S. pose proof (lr_le e (edges_lr _ _ _ He)) as S'. rewrite X in S. lia.
  - exists f. split; [apply in_or_app; now left|auto].
Qed.
Lemma has_second : forall f i, In f (edges ws) -> has_edge (zs ++ ws) i (bump f) <-> exists j, (i = n + j)%nat /\ has_edge ws j f.
Proof using B.
  intros f i Hf. unfold has_edge. rewrite edges_app. split.
  - intros (e & F & P & X & Y). cbn [bumped e_left e_right] in X, Y. apply in_app_or in F. destruct F as [F|F].
    + pose proof (B e f F Hf) as S. pose proof (lr_le e (edges_lr _ _ _ F)) as S'. rewrite <- X in S. lia.
    + apply in_map_iff in F. destruct F as (g & <- & F). cbn [bumped SpecTidy.e_poly e_left e_right] in *. exists (SpecTidy.e_poly g). split; [lia|]. exists g. auto.
  - intros (j & -> & g & G & P & X & Y). exists (bump g). split; [apply in_or_app; right; now apply in_map|]. cbn [bumped SpecTidy.e_poly e_left e_right]. split; [lia|]. split; assumption.
Qed.
Lemma cross_first : forall e i x y, In e (edges zs) -> inside_edge e x y -> crossings (zs ++ ws) i x y = crossings zs i x y.
Proof using B.
  intros e i x y He I. unfold crossings. rewrite edges_app, filter_app, app_length. rewrite (no_filter _ _ (map bump (edges ws))); [cbn [length]; lia|].
  intros f F. apply in_map_iff in F. destruct F as (g & <- & G). pose proof (B e g He G) as S. rewrite Zlt_Qlt in S. pose proof (inside_between e x y (edges_lr _ _ _ He) I) as X.
  rewrite (left_of_edge (bump g) x y); [apply andb_false_r|]. cbn [bumped e_left]. lra.
Qed.
Lemma cross_second : forall f i x y, In f (edges ws) -> inside_edge f x y ->
  crossings (zs ++ ws) i x y = length (filter (fun e => (n + SpecTidy.e_poly e =? i)%nat && passes_below e x y) (edges ws)).
Proof using B.
  intros f i x y Hf I. unfold crossings. rewrite edges_app, filter_app, app_length. rewrite (no_filter _ _ (edges zs)).
  2:{ intros e He. pose proof (B e f He Hf) as S. rewrite Zlt_Qlt in S. pose proof (inside_between f x y (edges_lr _ _ _ Hf) I) as X. rewrite (right_of_edge e x y); [apply andb_false_r|lra]. }
  cbn [length Nat.add]. clear. generalize (edges ws). intros m. induction m as [|e l IH]; [reflexivity|]. cbn [map filter bumped SpecTidy.e_poly]. change (passes_below (bump e) x y) with (passes_below e x y). destruct (_ && _); cbn [length]; now rewrite IH.
Qed.
Lemma below_first : forall e i x y, In e (edges zs) -> inside_edge e x y -> inner_below (zs ++ ws) i x y <-> inner_below zs i x y.
Proof using B. intros e i x y He I. unfold inner_below. now rewrite (cross_first e i x y He I). Qed.
Lemma below_second : forall f i x y, In f (edges ws) -> inside_edge f x y -> inner_below (zs ++ ws) i x y <-> exists j, (i = n + j)%nat /\ inner_below ws j x y.
Proof using B.
  intros f i x y Hf I. unfold inner_below. rewrite (cross_second f i x y Hf I).
  assert (E : forall j, filter (fun e => (n + SpecTidy.e_poly e =? n + j)%nat && passes_below e x y) (edges ws) = filter (fun e => (SpecTidy.e_poly e =? j)%nat && passes_below e x y) (edges ws)).
  { intros j. apply filter_ext. intros e. f_equal. apply eq_true_iff_eq. rewrite !Nat.eqb_eq. lia. }
  split.
  - intros O. destruct (le_lt_dec n i) as [G|G].
    + exists (i - n)%nat. split; [lia|]. unfold crossings. rewrite <- E. replace (n + (i - n))%nat with i by lia. exact O.
    + rewrite no_filter in O; [discriminate|]. intros e _. destruct (Nat.eqb_spec (n + SpecTidy.e_poly e) i); [lia|reflexivity].
  - intros (j & -> & O). rewrite E. exact O.
Qed.
Lemma above_first : forall e i x y, In e (edges zs) -> inside_edge e x y -> inner_above (zs ++ ws) e i x y <-> inner_above zs e i x y.
Proof using B. intros e i x y He I. unfold inner_above. now rewrite (below_first e i x y He I), (has_first e i He). Qed.
Lemma above_second : forall f i x y, In f (edges ws) -> inside_edge f x y -> inner_above (zs ++ ws) (bump f) i x y <-> exists j, (i = n + j)%nat /\ inner_above ws f j x y.
Proof using B.
  intros f i x y Hf I. unfold inner_above. rewrite (below_second f i x y Hf I), (has_second f i Hf). split.
  - intros [((j & -> & A) & N)|(N & (j & -> & A))]; exists j; (split; [reflexivity|]); [left; split; [exact A|]; intros X; apply N; eauto|right; split; [|exact A]; intros X; apply N; eauto].
  - intros (j & -> & [(A & N)|(N & A)]); [left; split; [eauto|]|right; split; [|eauto]]; intros (k & E & X); apply N; replace j with k by lia; exact X.
Qed.
Lemma edge_poly : forall i e, In e (edges zs) -> SpecTidy.e_poly e = i -> (i < n)%nat.
Proof. intros i e He <-. apply edges_poly in He. lia. Qed.
Lemma below_lt : forall i x y, inner_below zs i x y -> (i < n)%nat.
Proof.
  intros i x y O. unfold inner_below, crossings in O. destruct (filter _ (edges zs)) as [|e l] eqn:E; [discriminate|]. assert (I : In e (e :: l)) by now left. rewrite <- E in I. apply filter_In in I. destruct I as (I & J).
  apply andb_true_iff in J. destruct J as (J & _). apply Nat.eqb_eq in J. now apply (edge_poly i e).
Qed.
Lemma above_lt : forall e i x y, inner_above zs e i x y -> (i < n)%nat.
Proof. intros e i x y [((f & F & P & _) & _)|(_ & O)]; [now apply (edge_poly i f)|now apply (below_lt i x y)]. Qed.

Hypothesis (L : length mz = length zs).
Lemma sides_first : forall e a b, In e (edges zs) -> kept_sides (mz ++ mw) (zs ++ ws) e a b <-> kept_sides mz zs e a b.
Proof using B L.
  intros e a b He. unfold kept_sides.
  assert (K : kept_edge (mz ++ mw) (zs ++ ws) e <-> kept_edge mz zs e).
  { unfold kept_edge. rewrite nth_error_app1 by (rewrite L; now apply (edge_poly _ e)). split; intros (P & Q1); (split; [exact P|]); intros i Hi; apply Q1; now apply (has_first e i He). }
  assert (PA : forall x y, inside_edge e x y -> kept_place (mz ++ mw) (fun i => inner_above (zs ++ ws) e i x y) <-> kept_place mz (fun i => inner_above zs e i x y)).
  { intros x y I. rewrite kept_first; [|intros i X; rewrite L; apply (above_first e i x y He I) in X; now apply (above_lt e i x y)]. unfold kept_place. split; intros ((i & A1 & A2) & A3); (split; [exists i; split; [exact A1|now apply (above_first e i x y He I)]|intros k X; apply A3; now apply (above_first e k x y He I)]). }
  assert (PB : forall x y, inside_edge e x y -> kept_place (mz ++ mw) (fun i => inner_below (zs ++ ws) i x y) <-> kept_place mz (fun i => inner_below zs i x y)).
  { intros x y I. rewrite kept_first; [|intros i X; rewrite L; apply (below_first e i x y He I) in X; now apply (below_lt i x y)]. unfold kept_place. split; intros ((i & A1 & A2) & A3); (split; [exists i; split; [exact A1|now apply (below_first e i x y He I)]|intros k X; apply A3; now apply (below_first e k x y He I)]). }
  rewrite K. split; intros (K1 & x & y & I & H); (split; [exact K1|]; exists x, y; split; [exact I|]); (destruct H as [(H1 & H2 & H3)|(H1 & H2 & H3)]; [left|right]; (split; [exact H1|]; split; [exact H2|])); first [now apply (PA x y I)|now apply (PB x y I)].
Qed.
Lemma sides_second : forall f a b, In f (edges ws) -> kept_sides (mz ++ mw) (zs ++ ws) (bump f) a b <-> kept_sides mw ws f a b.
Proof using B L.
  intros f a b Hf. unfold kept_sides.
  assert (K : kept_edge (mz ++ mw) (zs ++ ws) (bump f) <-> kept_edge mw ws f).
  { unfold kept_edge. cbn [bumped SpecTidy.e_poly]. rewrite nth_error_app2 by lia. replace (n + SpecTidy.e_poly f - length mz)%nat with (SpecTidy.e_poly f) by lia. split; intros (P & Q1); (split; [exact P|]); intros i Hi.
    - assert (n + i <= n + SpecTidy.e_poly f)%nat; [|lia]. apply Q1. apply (has_second f _ Hf). eauto.
    - apply (has_second f i Hf) in Hi. destruct Hi as (j & -> & Hi). apply Q1 in Hi. lia. }
  assert (PA : forall x y, inside_edge f x y -> kept_place (mz ++ mw) (fun i => inner_above (zs ++ ws) (bump f) i x y) <-> kept_place mw (fun i => inner_above ws f i x y)).
  { intros x y I. apply kept_second. intros i. rewrite L. now apply above_second. }
  assert (PB : forall x y, inside_edge f x y -> kept_place (mz ++ mw) (fun i => inner_below (zs ++ ws) i x y) <-> kept_place mw (fun i => inner_below ws i x y)).
  { intros x y I. apply kept_second. intros i. rewrite L. now apply (below_second f). }
  rewrite K. split; intros (K1 & x & y & I & H); (split; [exact K1|]; exists x, y; split; [exact I|]); (destruct H as [(H1 & H2 & H3)|(H1 & H2 & H3)]; [left|right]; (split; [exact H1|]; split; [exact H2|])); first [now apply (PA x y I)|now apply (PB x y I)].
Qed.
End Beside.
