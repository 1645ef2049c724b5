(** Places, sides and lines moved elsewhere. *)

From Coq Require Import List ZArith QArith Bool Lia Lqa Arith Permutation.
From Verif Require Import Base Float Contours Sweep Compute SpecShape SpecOrder SpecIntersect SpecTurn SpecHandle SpecTidy SpecOverlay OrderFacts TidyGeo TidyParity FollowFacts SpecFollow SpecMove.
Import ListNotations.
Local Open Scope Z_scope.

Section Move.
Variable d : Z * Z.
Local Notation mv := (moved_point d).
Definition moved_edge (e : edge) : edge := mk_edge (e_poly e) (mv (e_left e)) (mv (e_right e)).
Local Notation me := moved_edge.
Local Notation ms s := (mv (fst s), mv (snd s)).

Lemma mv_inj : forall v w, mv v = mv w -> v = w.
Proof. intros [a b] [c e] H. unfold moved_point in H. cbn [fst snd] in H. injection H as H1 H2. f_equal; lia. Qed.
Lemma mv_lex : forall v w, lex_z (mv v) (mv w) = lex_z v w.
Proof.
  assert (X : forall a b c, (a + c ?= b + c) = (a ?= b)) by (intros a b c; rewrite !(Z.add_comm _ c); apply Zcompare_plus_compat).
  intros v w. unfold lex_z, moved_point. cbn [fst snd]. rewrite !X. reflexivity.
Qed.
Lemma mv_sub : forall v w, vsub (mv v) (mv w) = vsub v w.
Proof. intros v w. unfold vsub, moved_point. cbn [fst snd]. f_equal; lia. Qed.
Lemma mv_orient : forall a b c, orient (mv a) (mv b) (mv c) = orient a b c.
Proof. intros a b c. unfold orient, moved_point. cbn [fst snd]. ring. Qed.

Lemma mv_combine : forall l m, combine (map mv l) (map mv m) = map (fun s => ms s) (combine l m).
Proof. induction l as [|a l IH]; intros [|b m]; try reflexivity. cbn [map combine fst snd]. now rewrite IH. Qed.
Lemma mv_sides : forall l, sides (map mv l) = map (fun s => ms s) (sides l).
Proof. intros [|a t]; [reflexivity|]. cbn [map]. unfold sides. rewrite <- mv_combine. cbn [map]. now rewrite map_app. Qed.
Lemma mv_flat : forall z, flat_map sides (moved_lines d z) = map (fun s => ms s) (flat_map sides z).
Proof. induction z as [|l z IH]; [reflexivity|]. cbn [moved_lines map flat_map]. rewrite map_app, mv_sides. unfold moved_lines in IH. now rewrite IH. Qed.
Lemma mv_left : forall i s, left_to_right i (ms s) = map me (left_to_right i s).
Proof. intros i [a b]. unfold left_to_right. cbn [fst snd]. rewrite mv_lex. destruct (lex_z a b); reflexivity. Qed.
Lemma mv_edges_from : forall zs i, edges_from i (moved d zs) = map me (edges_from i zs).
Proof.
  induction zs as [|z zs IH]; intros i; [reflexivity|]. cbn [moved map edges_from]. rewrite map_app. unfold moved in IH. rewrite IH. f_equal. unfold polygon_edges. rewrite mv_flat.
  induction (flat_map sides z) as [|s l IHl]; [reflexivity|]. cbn [map flat_map]. rewrite map_app, <- IHl. f_equal. apply mv_left.
Qed.
Lemma mv_edges : forall zs, edges (moved d zs) = map me (edges zs).
Proof. intros zs. apply mv_edges_from. Qed.
Lemma mv_length : forall zs, length (moved d zs) = length zs.
Proof. intros zs. apply map_length. Qed.

(** *** Places *)
Local Notation dx := (inject_Z (fst d)).
Local Notation dy := (inject_Z (snd d)).
Definition shifted (x y x' y' : Q) : Prop := (x' == x + dx)%Q /\ (y' == y + dy)%Q.
Lemma shift : forall x y, shifted x y (x + dx)%Q (y + dy)%Q.
Proof. intros. split; reflexivity. Qed.
Lemma unshift : forall x y, shifted (x - dx)%Q (y - dy)%Q x y.
Proof. intros. split; ring. Qed.
Lemma qlt_iff : forall a b, qlt a b = true <-> (a < b)%Q.
Proof. intros a b. unfold qlt. rewrite Qlt_alt. destruct (a ?= b)%Q; split; congruence. Qed.
Lemma qlt_same : forall a b a' b', (a < b <-> a' < b')%Q -> qlt a b = qlt a' b'.
Proof. intros a b a' b' H. apply eq_true_iff_eq. now rewrite !qlt_iff. Qed.
Lemma mv_passes : forall e x y x' y', shifted x y x' y' -> passes_below (me e) x' y' = passes_below e x y.
Proof.
  intros [k [xl yl] [xr yr]] x y x' y' [X Y]. unfold passes_below, moved_edge, moved_point. cbn [e_left e_right fst snd].
  replace (yr + snd d - (yl + snd d)) with (yr - yl) by lia. replace (xr + fst d - (xl + fst d)) with (xr - xl) by lia.
  f_equal; [f_equal; [f_equal|]|].
  - apply qlt_same. rewrite X, inject_Z_plus. split; lra.
  - apply qlt_same. rewrite X, inject_Z_plus. split; lra.
  - apply qlt_same. rewrite X, Y, !inject_Z_plus.
    assert (E1 : (x + dx - (inject_Z xl + dx) == x - inject_Z xl)%Q) by ring. assert (E2 : (y + dy - (inject_Z yl + dy) == y - inject_Z yl)%Q) by ring. rewrite E1, E2. reflexivity.
Qed.
Lemma mv_crossings : forall zs i x y x' y', shifted x y x' y' -> crossings (moved d zs) i x' y' = crossings zs i x y.
Proof.
  intros zs i x y x' y' S. unfold crossings. rewrite mv_edges. induction (edges zs) as [|e l IH]; [reflexivity|]. cbn [map filter].
  rewrite (mv_passes e x y x' y' S). cbn [moved_edge e_poly]. destruct (_ && _); cbn [length]; now rewrite IH.
Qed.
Lemma mv_has : forall zs i e, has_edge (moved d zs) i (me e) <-> has_edge zs i e.
Proof.
  intros zs i e. unfold has_edge. rewrite mv_edges. split; intros (f & F & P & L & R).
  - apply in_map_iff in F. destruct F as (f' & <- & F). exists f'. cbn [moved_edge e_poly e_left e_right] in *. split; [exact F|]. split; [exact P|]. split; now apply mv_inj.
  - exists (me f). split; [now apply in_map|]. cbn [moved_edge e_poly e_left e_right]. split; [exact P|]. split; congruence.
Qed.
Lemma mv_below : forall zs i x y x' y', shifted x y x' y' -> inner_below (moved d zs) i x' y' <-> inner_below zs i x y.
Proof. intros zs i x y x' y' S. unfold inner_below. now rewrite (mv_crossings zs i x y x' y' S). Qed.
Lemma mv_above : forall zs e i x y x' y', shifted x y x' y' -> inner_above (moved d zs) (me e) i x' y' <-> inner_above zs e i x y.
Proof. intros zs e i x y x' y' S. unfold inner_above. now rewrite (mv_below zs i x y x' y' S), mv_has. Qed.
Lemma kept_ext : forall modes (P P' : nat -> Prop), (forall i, P i <-> P' i) -> kept_place modes P <-> kept_place modes P'.
Proof. intros modes P P' H. unfold kept_place. split; intros ((i & I & J) & K); (split; [exists i; split; [exact I|now apply H]|intros k X; now apply K, H]). Qed.
Lemma mv_kept : forall modes zs e, kept_edge modes (moved d zs) (me e) <-> kept_edge modes zs e.
Proof. intros modes zs e. unfold kept_edge. cbn [moved_edge e_poly]. split; intros (A & B); (split; [exact A|]); intros i I; apply B; now apply mv_has. Qed.
Lemma mv_inside : forall e x y x' y', shifted x y x' y' -> inside_edge (me e) x' y' <-> inside_edge e x y.
Proof.
  intros e x y x' y' [X Y]. unfold inside_edge, moved_edge, moved_point. cbn [e_left e_right fst snd].
  replace (fst (e_right e) + fst d - (fst (e_left e) + fst d)) with (fst (e_right e) - fst (e_left e)) by lia. replace (snd (e_right e) + snd d - (snd (e_left e) + snd d)) with (snd (e_right e) - snd (e_left e)) by lia.
  split; intros (t & T0 & T1 & A & B); exists t; (split; [exact T0|]; split; [exact T1|]); rewrite !inject_Z_plus in *; rewrite X, Y in *; split; lra.
Qed.
Lemma mv_kept_sides : forall modes zs e a b, kept_sides modes (moved d zs) (me e) (mv a) (mv b) <-> kept_sides modes zs e a b.
Proof.
  intros modes zs e a b. unfold kept_sides. rewrite mv_kept. split; intros (K & x & y & I & H); (split; [exact K|]).
  - exists (x - dx)%Q, (y - dy)%Q. pose proof (unshift x y) as S. split; [now apply (mv_inside e _ _ x y S)|]. cbn [moved_edge e_left e_right] in H. destruct H as [(A & B & H)|(A & B & H)]; [left|right]; (split; [now apply mv_inj|]; split; [now apply mv_inj|]).
    + revert H. apply kept_ext. intros i. now rewrite (mv_above zs e i _ _ x y S).
    + revert H. apply kept_ext. intros i. now rewrite (mv_below zs i _ _ x y S).
  - exists (x + dx)%Q, (y + dy)%Q. pose proof (shift x y) as S. split; [now apply (mv_inside e x y _ _ S)|]. cbn [moved_edge e_left e_right]. destruct H as [(A & B & H)|(A & B & H)]; [left|right]; (split; [congruence|]; split; [congruence|]).
    + revert H. apply kept_ext. intros i. now rewrite (mv_above zs e i x y _ _ S).
    + revert H. apply kept_ext. intros i. now rewrite (mv_below zs i x y _ _ S).
Qed.

(** *** Lines *)
Lemma mv_before : forall l l', starts_before l l' -> starts_before (map mv l) (map mv l').
Proof.
  intros [|a [|b l]] [|a' [|b' l']] H; cbn [map starts_before] in *; try contradiction. rewrite mv_lex, mv_orient. destruct H as [H|[-> H]]; [now left|right; split; [reflexivity|exact H]].
Qed.
Lemma mv_leftmost : forall l, starts_leftmost l -> starts_leftmost (map mv l).
Proof. intros [|a t] H; cbn [map starts_leftmost] in *; [exact H|]. rewrite Forall_map. eapply Forall_impl; [|exact H]. intros v V. cbn beta in V |- *. now rewrite mv_lex. Qed.
Lemma mv_closed : forall l, closed (map mv l) = map mv (closed l).
Proof. intros [|a t]; [reflexivity|]. cbn [map closed]. now rewrite <- map_cons, map_app. Qed.
Lemma mv_left_turn : forall S a b c, furthest_left S a b c -> furthest_left (map (fun s => ms s) S) (mv a) (mv b) (mv c).
Proof.
  intros S a b c (N & H). split; [intros E; now apply mv_inj in E|]. intros w I A B. apply in_map_iff in I. destruct I as ([u v] & E & I). cbn [fst snd] in E. pose proof (f_equal fst E) as E1. pose proof (f_equal snd E) as E2. cbn [fst snd] in E1, E2. apply mv_inj in E1. subst u w.
  rewrite !mv_sub. apply H; [exact I|congruence|congruence].
Qed.
Lemma map_split3 : forall (l : list (Z * Z)) u a b c v, map mv l = u ++ a :: b :: c :: v -> exists u' a' b' c' v', l = u' ++ a' :: b' :: c' :: v' /\ a = mv a' /\ b = mv b' /\ c = mv c'.
Proof.
  intros l u a b c v E. apply map_eq_app in E. destruct E as (u' & t & -> & _ & E). destruct t as [|a' [|b' [|c' v']]]; try discriminate. cbn [map] in E. injection E as <- <- <- _. exists u', a', b', c', v'. auto.
Qed.
Lemma mv_followed : forall z, well_followed z -> well_followed (moved_lines d z).
Proof.
  intros z (A & B & C). split; [|split].
  - unfold moved_lines. apply (FollowFacts.pairs_map _ _ _ starts_before); [exact mv_before|exact A].
  - rewrite mv_flat. apply FinFun.Injective_map_NoDup; [|exact B]. intros [a b] [a' b'] E. cbn [fst snd] in E. pose proof (f_equal fst E) as E1. pose proof (f_equal snd E) as E2. cbn [fst snd] in E1, E2. apply mv_inj in E1. apply mv_inj in E2. congruence.
  - intros l I. unfold moved_lines in I. apply in_map_iff in I. destruct I as (l0 & <- & I). destruct (C l0 I) as (S & T). split; [now apply mv_leftmost|].
    intros u a b c v E. rewrite mv_closed in E. apply map_split3 in E. destruct E as (u' & a' & b' & c' & v' & E & -> & -> & ->). rewrite mv_flat. apply mv_left_turn. exact (T _ _ _ _ _ E).
Qed.
Lemma mv_side_in : forall z a b, In (mv a, mv b) (flat_map sides (moved_lines d z)) <-> In (a, b) (flat_map sides z).
Proof.
  intros z a b. rewrite mv_flat, in_map_iff. split.
  - intros ([u v] & E & I). cbn [fst snd] in E. pose proof (f_equal fst E) as E1. pose proof (f_equal snd E) as E2. cbn [fst snd] in E1, E2. apply mv_inj in E1. apply mv_inj in E2. congruence.
  - intros I. exists (a, b). split; [reflexivity|exact I].
Qed.
Lemma mv_area : forall l, shoelace (map mv l) = shoelace l.
Proof.
  intros l. destruct l as [|p t]; [reflexivity|]. unfold shoelace. cbn [map tl]. rewrite <- (map_cons mv p t). change [mv p] with (map mv [p]). rewrite <- map_app, mv_combine, map_map.
  set (X := fst d). set (Y := snd d).
  assert (G : forall (m : list (Z * Z)) a, fold_right Z.add 0 (map (fun s => cross_z (mv (fst s)) (mv (snd s))) (combine (a :: m) (m ++ [p])))
    = fold_right Z.add 0 (map (fun s => cross_z (fst s) (snd s)) (combine (a :: m) (m ++ [p]))) + (fst a - fst p) * Y + (snd p - snd a) * X).
  { induction m as [|b m IH]; intros a.
    - cbn [app combine map fold_right fst snd]. unfold cross_z, moved_point. cbn [fst snd]. fold X Y. ring.
    - cbn [app]. change (combine (a :: b :: m) (b :: m ++ [p])) with ((a, b) :: combine (b :: m) (m ++ [p])). cbn [map fold_right fst snd]. rewrite IH. unfold cross_z, moved_point. cbn [fst snd]. fold X Y. ring. }
  cbn [fst snd]. rewrite (G t p). ring.
Qed.

(** *** The edge next below *)
Lemma mv_under : forall e s, under (me e) (me s) = under e s.
Proof.
  intros e s. unfold under. cbn [moved_edge e_left e_right]. rewrite !mv_orient, mv_lex. unfold moved_point. cbn [fst snd]. f_equal. f_equal.
  - apply eq_true_iff_eq. rewrite !Z.leb_le. lia.
  - apply eq_true_iff_eq. rewrite !Z.ltb_lt. lia.
Qed.
Lemma mv_slope : forall e, (slope (me e) == slope e)%Q.
Proof.
  intros e. unfold slope, moved_edge, moved_point. cbn [e_left e_right fst snd]. rewrite !inject_Z_plus.
  assert (E1 : (inject_Z (snd (e_right e)) + dy - (inject_Z (snd (e_left e)) + dy) == inject_Z (snd (e_right e)) - inject_Z (snd (e_left e)))%Q) by ring.
  assert (E2 : (inject_Z (fst (e_right e)) + dx - (inject_Z (fst (e_left e)) + dx) == inject_Z (fst (e_right e)) - inject_Z (fst (e_left e)))%Q) by ring.
  rewrite E1, E2. reflexivity.
Qed.
Lemma mv_yat : forall e x, (yat (me e) (x + dx) == yat e x + dy)%Q.
Proof. intros e x. unfold yat. rewrite mv_slope. unfold moved_edge, moved_point. cbn [e_left e_right fst snd]. rewrite !inject_Z_plus. ring. Qed.
Lemma mv_lower : forall s e b, lower_at (me s) (me e) (me b) -> lower_at s e b.
Proof.
  intros s e b. unfold lower_at. rewrite !mv_slope.
  assert (X : (inject_Z (fst (e_left (me s))) == inject_Z (fst (e_left s)) + dx)%Q) by (cbn [moved_edge moved_point e_left fst]; now rewrite inject_Z_plus).
  assert (Yx : forall f, (yat (me f) (inject_Z (fst (e_left (me s)))) == yat f (inject_Z (fst (e_left s))) + dy)%Q).
  { intros f. rewrite <- mv_yat. unfold yat. rewrite X. reflexivity. }
  rewrite !Yx. intros [H|(A & B & C)]; [left; lra|right]. split; [now apply mv_inj in A|]. split; [|exact C]. rewrite X in B. cbn [moved_edge moved_point e_left fst] in B. rewrite inject_Z_plus in B. lra.
Qed.
Lemma mv_next : forall zs b s, next_below (moved d zs) (me b) (me s) -> next_below zs b s.
Proof.
  intros zs b s (U & N). split; [now rewrite <- mv_under|]. intros e He Ue. destruct (N (me e)) as [X|X].
  - rewrite mv_edges. now apply in_map.
  - now rewrite mv_under.
  - left. apply same_ends_iff in X. destruct X as (X1 & X2). apply mv_inj in X1. apply mv_inj in X2. apply same_ends_iff. now split.
  - right. now apply mv_lower.
Qed.
End Move.
