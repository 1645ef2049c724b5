(** Places, sides and lines stretched, skewed and moved. *)

From Coq Require Import List ZArith QArith Bool Lia Lqa Arith Permutation.
From Verif Require Import Base Float Contours Sweep Compute SpecShape SpecOrder SpecIntersect SpecTurn SpecHandle SpecTidy SpecOverlay OrderFacts TidyGeo TidyParity FollowFacts SpecFollow SpecSkew.
Import ListNotations.
Local Open Scope Z_scope.

Section Skew.
Variable d : skew.
Hypothesis (UP : upright d).
Local Notation ka := (k_across d).
Local Notation kb := (k_up d).
Local Notation kc := (k_skew d).
Local Notation mv := (skewed_point d).
Definition skewed_edge (e : edge) : edge := mk_edge (e_poly e) (mv (e_left e)) (mv (e_right e)).
Local Notation me := skewed_edge.
Local Notation ms s := (mv (fst s), mv (snd s)).

Lemma sk_inj : forall v w, mv v = mv w -> v = w.
Proof using UP. destruct UP as (A & B). intros [x y] [u v] H. unfold skewed_point in H. cbn [fst snd] in H. injection H as H1 H2. assert (x = u) by nia. subst u. f_equal. nia. Qed.
Lemma sk_lex : forall v w, lex_z (mv v) (mv w) = lex_z v w.
Proof using UP.
  destruct UP as (A & B). intros [x y] [u v]. unfold lex_z, skewed_point. cbn [fst snd].
  destruct (Z.compare_spec x u) as [->|L|L].
  - rewrite Z.compare_refl. destruct (Z.compare_spec y v) as [->|M|M]; [apply Z.compare_refl|apply Z.compare_lt_iff; nia|apply Z.compare_gt_iff; nia].
  - assert (Q : ka * x + fst (k_by d) < ka * u + fst (k_by d)) by nia. apply Z.compare_lt_iff in Q. now rewrite Q.
  - assert (Q : ka * u + fst (k_by d) < ka * x + fst (k_by d)) by nia. apply Z.compare_gt_iff in Q. now rewrite Q.
Qed.
Definition turned (u : Z * Z) : Z * Z := (ka * fst u, kb * snd u + kc * fst u).
Lemma sk_sub : forall v w, vsub (mv v) (mv w) = turned (vsub v w).
Proof. intros v w. unfold vsub, skewed_point, turned. cbn [fst snd]. f_equal; ring. Qed.
Lemma sk_cross : forall u v, vcross (turned u) (turned v) = ka * kb * vcross u v.
Proof. intros u v. unfold vcross, turned. cbn [fst snd]. ring. Qed.
Lemma kab : 0 < ka * kb.
Proof using UP. destruct UP. nia. Qed.
Lemma sk_dot : forall u w, vcross u w = 0 -> 0 < vdot (turned u) (turned w) <-> 0 < vdot u w.
Proof using UP.
  destruct UP as (A & B). intros [p q] [r s] E.
  assert (I : vdot (p, q) (r, s) * vlen2 (turned (p, q)) - vlen2 (p, q) * vdot (turned (p, q)) (turned (r, s)) = - vdot (turned (p, q)) (turned (- q, p)) * vcross (p, q) (r, s)).
  { unfold vlen2, vdot, vcross, turned. cbn [fst snd]. ring. }
  rewrite E, Z.mul_0_r in I. set (X := vdot (p, q) (r, s)) in *. set (Y := vdot (turned (p, q)) (turned (r, s))) in *.
  destruct (Z.eq_dec p 0) as [P|P]; [destruct (Z.eq_dec q 0) as [Q1|Q1]|].
  - subst p q. unfold X, Y, vdot, turned. cbn [fst snd]. rewrite !Z.mul_0_r, !Z.mul_0_l. cbn. reflexivity.
  - assert (L1 : 0 < vlen2 (p, q)) by (unfold vlen2, vdot; cbn [fst snd]; nia).
    assert (L2 : 0 < vlen2 (turned (p, q))) by (unfold vlen2, vdot, turned; cbn [fst snd]; subst p; assert (kb * q <> 0) by nia; nia). split; intros; nia.
  - assert (L1 : 0 < vlen2 (p, q)) by (unfold vlen2, vdot; cbn [fst snd]; nia).
    assert (L2 : 0 < vlen2 (turned (p, q))) by (unfold vlen2, vdot, turned; cbn [fst snd]; assert (N : ka * p <> 0) by nia; set (m := ka * p) in *; set (n := kb * q + kc * p); clearbody m n; clear - N; nia). split; intros; nia.
Qed.
Lemma sk_as_left : forall u v w, as_left (turned u) (turned v) (turned w) -> as_left u v w.
Proof using UP.
  intros u v w. pose proof kab as K. unfold as_left. rewrite !sk_cross. set (k := ka * kb) in *.
  destruct (Z.ltb_spec 0 (k * vcross u v)), (Z.ltb_spec 0 (vcross u v)); try (exfalso; nia); intros H1.
  - intros P. assert (0 < k * vcross u w) by nia. nia.
  - destruct H1 as (H1 & H2 & H3). split; [nia|]. split; [nia|]. intros P Q1 R. rewrite <- sk_dot by exact P. apply H3; [rewrite P; ring|rewrite Q1; ring|]. now rewrite sk_dot by exact Q1.
Qed.
Lemma sk_orient : forall a b c, orient (mv a) (mv b) (mv c) = ka * kb * orient a b c.
Proof. intros a b c. unfold orient, skewed_point. cbn [fst snd]. ring. Qed.
Lemma sk_turn : forall a b c, 0 < orient (mv a) (mv b) (mv c) <-> 0 < orient a b c.
Proof using UP. intros a b c. rewrite sk_orient. pose proof kab. split; nia. Qed.

Lemma sk_combine : forall l m, combine (map mv l) (map mv m) = map (fun s => ms s) (combine l m).
Proof. induction l as [|a l IH]; intros [|b m]; try reflexivity. cbn [map combine fst snd]. now rewrite IH. Qed.
Lemma sk_sides : forall l, sides (map mv l) = map (fun s => ms s) (sides l).
Proof. intros [|a t]; [reflexivity|]. cbn [map]. unfold sides. rewrite <- sk_combine. cbn [map]. now rewrite map_app. Qed.
Lemma sk_flat : forall z, flat_map sides (skewed_lines d z) = map (fun s => ms s) (flat_map sides z).
Proof. induction z as [|l z IH]; [reflexivity|]. cbn [skewed_lines map flat_map]. rewrite map_app, sk_sides. unfold skewed_lines in IH. now rewrite IH. Qed.
Lemma sk_left : forall i s, left_to_right i (ms s) = map me (left_to_right i s).
Proof. intros i [a b]. unfold left_to_right. cbn [fst snd]. rewrite sk_lex. destruct (lex_z a b); reflexivity. Qed.
Lemma sk_edges_from : forall zs i, edges_from i (skewed d zs) = map me (edges_from i zs).
Proof.
  induction zs as [|z zs IH]; intros i; [reflexivity|]. cbn [skewed map edges_from]. rewrite map_app. unfold skewed in IH. rewrite IH. f_equal. unfold polygon_edges. rewrite sk_flat.
  induction (flat_map sides z) as [|s l IHl]; [reflexivity|]. cbn [map flat_map]. rewrite map_app, <- IHl. f_equal. apply sk_left.
Qed.
Lemma sk_edges : forall zs, edges (skewed d zs) = map me (edges zs).
Proof. intros zs. apply sk_edges_from. Qed.
Lemma sk_length : forall zs, length (skewed d zs) = length zs.
Proof. intros zs. apply map_length. Qed.

(** *** Places *)
Local Notation qa := (inject_Z ka).
Local Notation qb := (inject_Z kb).
Local Notation qc := (inject_Z kc).
Local Notation dx := (inject_Z (fst (k_by d))).
Local Notation dy := (inject_Z (snd (k_by d))).
Lemma qa_pos : (0 < qa)%Q.
Proof using UP. destruct UP. change 0%Q with (inject_Z 0). now rewrite <- Zlt_Qlt. Qed.
Lemma qb_pos : (0 < qb)%Q.
Proof using UP. destruct UP. change 0%Q with (inject_Z 0). now rewrite <- Zlt_Qlt. Qed.
Definition shifted (x y x' y' : Q) : Prop := (x' == qa * x + dx)%Q /\ (y' == qb * y + qc * x + dy)%Q.
Lemma shift : forall x y, shifted x y (qa * x + dx)%Q (qb * y + qc * x + dy)%Q.
Proof. intros. split; reflexivity. Qed.
Definition back_x (x : Q) : Q := ((x - dx) / qa)%Q.
Definition back_y (x y : Q) : Q := ((y - dy - qc * back_x x) / qb)%Q.
Lemma unshift : forall x y, shifted (back_x x) (back_y x y) x y.
Proof using UP.
  intros. pose proof qa_pos. pose proof qb_pos. unfold shifted, back_y. assert (E : (qa * back_x x == x - dx)%Q) by (unfold back_x; field; intros Z0; rewrite Z0 in *; lra).
  split; [rewrite E; ring|]. rewrite Qmult_div_r; [ring|]. intros Z0. rewrite Z0 in *. lra.
Qed.
Lemma qmul_lt : forall k a b, (0 < k)%Q -> (k * a < k * b <-> a < b)%Q.
Proof. intros k a b K. split; intros H; [apply (Qmult_lt_l _ _ k); assumption|apply (Qmult_lt_l _ _ k); assumption]. Qed.
Lemma qlt_iff : forall a b, qlt a b = true <-> (a < b)%Q.
Proof. intros a b. unfold qlt. rewrite Qlt_alt. destruct (a ?= b)%Q; split; congruence. Qed.
Lemma qlt_same : forall a b a' b', (a < b <-> a' < b')%Q -> qlt a b = qlt a' b'.
Proof. intros a b a' b' H. apply eq_true_iff_eq. now rewrite !qlt_iff. Qed.
Lemma sk_passes : forall e x y x' y', shifted x y x' y' -> passes_below (me e) x' y' = passes_below e x y.
Proof using UP.
  intros [k [xl yl] [xr yr]] x y x' y' [X Y]. unfold passes_below, skewed_edge, skewed_point. cbn [e_left e_right fst snd]. pose proof qa_pos as PA. pose proof qb_pos as PB.
  assert (PAB : (0 < qa * qb)%Q) by (apply Qmult_lt_0_compat; assumption).
  f_equal; [f_equal; [f_equal|]|].
  - apply qlt_same. rewrite X, inject_Z_plus, inject_Z_mult, <- (qmul_lt qa x (inject_Z xl) PA). split; lra.
  - apply qlt_same. rewrite X, inject_Z_plus, inject_Z_mult, <- (qmul_lt qa x (inject_Z xr) PA). split; lra.
  - apply qlt_same. rewrite X, Y, !inject_sub, !inject_Z_plus, !inject_Z_mult.
    rewrite <- (qmul_lt (qa * qb) ((inject_Z yr - inject_Z yl) * (x - inject_Z xl)) ((y - inject_Z yl) * (inject_Z xr - inject_Z xl)) PAB). set (u := inject_Z xl). set (v := inject_Z xr). set (w := inject_Z yl). set (z := inject_Z yr).
    match goal with |- (?L < ?R <-> ?L' < ?R')%Q => assert (E : (R - L == R' - L')%Q) by ring; split; intros; lra end.
Qed.
Lemma sk_crossings : forall zs i x y x' y', shifted x y x' y' -> crossings (skewed d zs) i x' y' = crossings zs i x y.
Proof.
  intros zs i x y x' y' S. unfold crossings. rewrite sk_edges. induction (edges zs) as [|e l IH]; [reflexivity|]. cbn [map filter].
  rewrite (sk_passes e x y x' y' S). cbn [skewed_edge e_poly]. destruct (_ && _); cbn [length]; now rewrite IH.
Qed.
Lemma sk_has : forall zs i e, has_edge (skewed d zs) i (me e) <-> has_edge zs i e.
Proof.
  intros zs i e. unfold has_edge. rewrite sk_edges. split; intros (f & F & P & L & R).
  - apply in_map_iff in F. destruct F as (f' & <- & F). exists f'. cbn [skewed_edge e_poly e_left e_right] in *. split; [exact F|]. split; [exact P|]. split; now apply sk_inj.
  - exists (me f). split; [now apply in_map|]. cbn [skewed_edge e_poly e_left e_right]. split; [exact P|]. split; congruence.
Qed.
Lemma sk_below : forall zs i x y x' y', shifted x y x' y' -> inner_below (skewed d zs) i x' y' <-> inner_below zs i x y.
Proof. intros zs i x y x' y' S. unfold inner_below. now rewrite (sk_crossings zs i x y x' y' S). Qed.
Lemma sk_above : forall zs e i x y x' y', shifted x y x' y' -> inner_above (skewed d zs) (me e) i x' y' <-> inner_above zs e i x y.
Proof. intros zs e i x y x' y' S. unfold inner_above. now rewrite (sk_below zs i x y x' y' S), sk_has. Qed.
Lemma kept_ext : forall modes (P P' : nat -> Prop), (forall i, P i <-> P' i) -> kept_place modes P <-> kept_place modes P'.
Proof. intros modes P P' H. unfold kept_place. split; intros ((i & I & J) & K); (split; [exists i; split; [exact I|now apply H]|intros k X; now apply K, H]). Qed.
Lemma sk_kept : forall modes zs e, kept_edge modes (skewed d zs) (me e) <-> kept_edge modes zs e.
Proof. intros modes zs e. unfold kept_edge. cbn [skewed_edge e_poly]. split; intros (A & B); (split; [exact A|]); intros i I; apply B; now apply sk_has. Qed.
Lemma sk_inside : forall e x y x' y', shifted x y x' y' -> inside_edge (me e) x' y' <-> inside_edge e x y.
Proof using UP.
  intros e x y x' y' [X Y]. unfold inside_edge, skewed_edge, skewed_point. cbn [e_left e_right fst snd]. pose proof qa_pos as PA. pose proof qb_pos as PB.
  split; intros (t & T0 & T1 & A & B); exists t; (split; [exact T0|]; split; [exact T1|]); rewrite !inject_sub, ?inject_Z_plus, ?inject_Z_mult in *; rewrite X, Y in *.
  - assert (A' : (qa * x == qa * (xl e + t * (xr e - xl e)))%Q) by lra. apply Qmult_inj_l in A'; [|intros Z0; rewrite Z0 in *; lra]. split; [exact A'|].
    assert (B' : (qb * y == qb * (yl e + t * (yr e - yl e)))%Q) by (rewrite A' in B; lra). apply Qmult_inj_l in B'; [exact B'|intros Z0; rewrite Z0 in *; lra].
  - rewrite A, B. split; ring.
Qed.
Lemma sk_kept_sides : forall modes zs e a b, kept_sides modes (skewed d zs) (me e) (mv a) (mv b) <-> kept_sides modes zs e a b.
Proof.
  intros modes zs e a b. unfold kept_sides. rewrite sk_kept. split; intros (K & x & y & I & H); (split; [exact K|]).
  - exists (back_x x), (back_y x y). pose proof (unshift x y) as S. split; [now apply (sk_inside e _ _ x y S)|]. cbn [skewed_edge e_left e_right] in H. destruct H as [(A & B & H)|(A & B & H)]; [left|right]; (split; [now apply sk_inj|]; split; [now apply sk_inj|]).
    + revert H. apply kept_ext. intros i. now rewrite (sk_above zs e i _ _ x y S).
    + revert H. apply kept_ext. intros i. now rewrite (sk_below zs i _ _ x y S).
  - exists (qa * x + dx)%Q, (qb * y + qc * x + dy)%Q. pose proof (shift x y) as S. split; [now apply (sk_inside e x y _ _ S)|]. cbn [skewed_edge e_left e_right]. destruct H as [(A & B & H)|(A & B & H)]; [left|right]; (split; [congruence|]; split; [congruence|]).
    + revert H. apply kept_ext. intros i. now rewrite (sk_above zs e i x y _ _ S).
    + revert H. apply kept_ext. intros i. now rewrite (sk_below zs i x y _ _ S).
Qed.

(** *** Lines *)
Lemma sk_before : forall l l', starts_before l l' -> starts_before (map mv l) (map mv l').
Proof.
  intros [|a [|b l]] [|a' [|b' l']] H; cbn [map starts_before] in *; try contradiction. rewrite sk_lex, sk_turn. destruct H as [H|[-> H]]; [now left|right; split; [reflexivity|exact H]].
Qed.
Lemma sk_leftmost : forall l, starts_leftmost l -> starts_leftmost (map mv l).
Proof. intros [|a t] H; cbn [map starts_leftmost] in *; [exact H|]. rewrite Forall_map. eapply Forall_impl; [|exact H]. intros v V. cbn beta in V |- *. now rewrite sk_lex. Qed.
Lemma sk_closed : forall l, closed (map mv l) = map mv (closed l).
Proof. intros [|a t]; [reflexivity|]. cbn [map closed]. now rewrite <- map_cons, map_app. Qed.
Lemma sk_left_turn : forall S a b c, furthest_left S a b c -> furthest_left (map (fun s => ms s) S) (mv a) (mv b) (mv c).
Proof.
  intros S a b c (N & H). split; [intros E; now apply sk_inj in E|]. intros w I A B. apply in_map_iff in I. destruct I as ([u v] & E & I). cbn [fst snd] in E. pose proof (f_equal fst E) as E1. pose proof (f_equal snd E) as E2. cbn [fst snd] in E1, E2. apply sk_inj in E1. subst u w.
  rewrite !sk_sub. intros K. apply sk_as_left in K. revert K. apply H; [exact I|congruence|congruence].
Qed.
Lemma map_split3 : forall (l : list (Z * Z)) u a b c v, map mv l = u ++ a :: b :: c :: v -> exists u' a' b' c' v', l = u' ++ a' :: b' :: c' :: v' /\ a = mv a' /\ b = mv b' /\ c = mv c'.
Proof.
  intros l u a b c v E. apply map_eq_app in E. destruct E as (u' & t & -> & _ & E). destruct t as [|a' [|b' [|c' v']]]; try discriminate. cbn [map] in E. injection E as <- <- <- _. exists u', a', b', c', v'. auto.
Qed.
Lemma sk_followed : forall z, well_followed z -> well_followed (skewed_lines d z).
Proof.
  intros z (A & B & C). split; [|split].
  - unfold skewed_lines. apply (FollowFacts.pairs_map _ _ _ starts_before); [exact sk_before|exact A].
  - rewrite sk_flat. apply FinFun.Injective_map_NoDup; [|exact B]. intros [a b] [a' b'] E. cbn [fst snd] in E. pose proof (f_equal fst E) as E1. pose proof (f_equal snd E) as E2. cbn [fst snd] in E1, E2. apply sk_inj in E1. apply sk_inj in E2. congruence.
  - intros l I. unfold skewed_lines in I. apply in_map_iff in I. destruct I as (l0 & <- & I). destruct (C l0 I) as (S & T). split; [now apply sk_leftmost|].
    intros u a b c v E. rewrite sk_closed in E. apply map_split3 in E. destruct E as (u' & a' & b' & c' & v' & E & -> & -> & ->). rewrite sk_flat. apply sk_left_turn. exact (T _ _ _ _ _ E).
Qed.
Lemma sk_side_in : forall z a b, In (mv a, mv b) (flat_map sides (skewed_lines d z)) <-> In (a, b) (flat_map sides z).
Proof.
  intros z a b. rewrite sk_flat, in_map_iff. split.
  - intros ([u v] & E & I). cbn [fst snd] in E. pose proof (f_equal fst E) as E1. pose proof (f_equal snd E) as E2. cbn [fst snd] in E1, E2. apply sk_inj in E1. apply sk_inj in E2. congruence.
  - intros I. exists (a, b). split; [reflexivity|exact I].
Qed.
Lemma sk_area : forall l, shoelace (map mv l) = ka * kb * shoelace l.
Proof.
  intros l. destruct l as [|p t]; [cbn; ring|]. unfold shoelace. cbn [map tl]. rewrite <- (map_cons mv p t). change [mv p] with (map mv [p]). rewrite <- map_app, sk_combine, map_map.
  set (X := fst (k_by d)). set (Y := snd (k_by d)).
  assert (G : forall (m : list (Z * Z)) a, fold_right Z.add 0 (map (fun s => cross_z (mv (fst s)) (mv (snd s))) (combine (a :: m) (m ++ [p])))
    = ka * kb * fold_right Z.add 0 (map (fun s => cross_z (fst s) (snd s)) (combine (a :: m) (m ++ [p]))) + ka * (fst a - fst p) * Y + (kb * snd p + kc * fst p - kb * snd a - kc * fst a) * X).
  { induction m as [|b m IH]; intros a.
    - cbn [app combine map fold_right fst snd]. unfold cross_z, skewed_point. cbn [fst snd]. fold X Y. ring.
    - cbn [app]. change (combine (a :: b :: m) (b :: m ++ [p])) with ((a, b) :: combine (b :: m) (m ++ [p])). cbn [map fold_right fst snd]. rewrite IH. unfold cross_z, skewed_point. cbn [fst snd]. fold X Y. ring. }
  cbn [fst snd]. rewrite (G t p). ring.
Qed.

(** *** The edge next below *)
Lemma turn_same : forall a b c, (0 <? orient (mv a) (mv b) (mv c)) = (0 <? orient a b c).
Proof using UP. intros a b c. apply eq_true_iff_eq. rewrite !Z.ltb_lt. apply sk_turn. Qed.
Lemma sk_under : forall e s, under (me e) (me s) = under e s.
Proof using UP.
  intros e s. unfold under. cbn [skewed_edge e_left e_right]. rewrite !turn_same, sk_lex. unfold skewed_point. cbn [fst snd]. destruct UP as (A & B). f_equal. f_equal.
  - apply eq_true_iff_eq. rewrite !Z.leb_le. split; nia.
  - apply eq_true_iff_eq. rewrite !Z.ltb_lt. split; nia.
Qed.
Lemma wide : forall e, sloped e -> (0 < xr e - xl e)%Q.
Proof. intros e S. unfold sloped in S. rewrite Zlt_Qlt in S. lra. Qed.
Lemma sk_slope : forall e, sloped e -> (slope (me e) == (qb * slope e + qc) / qa)%Q.
Proof using UP.
  intros e S. apply wide in S. pose proof qa_pos as PA. unfold slope, skewed_edge, skewed_point. cbn [e_left e_right fst snd]. rewrite !inject_Z_plus, !inject_Z_mult.
  set (u := xl e) in *. set (v := xr e) in *. set (w := yl e). set (z := yr e).
  assert (E1 : (qb * z + qc * v + dy - (qb * w + qc * u + dy) == qb * (z - w) + qc * (v - u))%Q) by ring. assert (E2 : (qa * v + dx - (qa * u + dx) == qa * (v - u))%Q) by ring. rewrite E1, E2.
  field. split; intros Z0; rewrite Z0 in *; lra.
Qed.
Lemma sk_yat : forall e x, sloped e -> (yat (me e) (qa * x + dx) == qb * yat e x + qc * x + dy)%Q.
Proof using UP.
  intros e x S. pose proof qa_pos as PA. unfold yat. rewrite (sk_slope e S). unfold skewed_edge, skewed_point. cbn [e_left e_right fst snd]. rewrite !inject_Z_plus, !inject_Z_mult. field. intros Z0; rewrite Z0 in *; lra.
Qed.
Lemma sk_lower : forall s e b, sloped e -> sloped b -> lower_at (me s) (me e) (me b) -> lower_at s e b.
Proof using UP.
  intros s e b Se Sb. pose proof qa_pos as PA. pose proof qb_pos as PB. unfold lower_at. rewrite (sk_slope e Se), (sk_slope b Sb).
  assert (X : (inject_Z (fst (e_left (me s))) == qa * xl s + dx)%Q) by (cbn [skewed_edge skewed_point e_left fst]; now rewrite inject_Z_plus, inject_Z_mult).
  assert (Yx : forall f, sloped f -> (yat (me f) (inject_Z (fst (e_left (me s)))) == qb * yat f (xl s) + qc * xl s + dy)%Q).
  { intros f Sf. rewrite <- (sk_yat f (xl s) Sf). unfold yat. rewrite X. reflexivity. }
  rewrite (Yx e Se), (Yx b Sb). intros [H|(A & B & C)].
  - left. apply (qmul_lt qb _ _ PB). lra.
  - right. split; [now apply sk_inj in A|]. split.
    + rewrite X in B. cbn [skewed_edge skewed_point e_left fst] in B. rewrite inject_Z_plus, inject_Z_mult in B. apply (Qmult_inj_l _ _ qa); [intros Z0; rewrite Z0 in *; lra|lra].
    + unfold Qdiv in C. assert (PI : (0 < / qa)%Q) by (apply Qinv_lt_0_compat; exact PA). apply (proj1 (Qmult_lt_r _ _ (/ qa) PI)) in C. apply (proj1 (qmul_lt qb _ _ PB)). lra.
Qed.
Lemma under_sloped : forall e s, under e s = true -> sloped e.
Proof. intros e s H. unfold under in H. apply andb_true_iff in H. destruct H as (H & _). apply andb_true_iff in H. destruct H as (H1 & H2). apply Z.leb_le in H1. apply Z.ltb_lt in H2. unfold sloped. lia. Qed.
Lemma sk_next : forall zs b s, next_below (skewed d zs) (me b) (me s) -> next_below zs b s.
Proof.
  intros zs b s (U & N). assert (U0 : under b s = true) by (now rewrite <- sk_under). split; [exact U0|]. intros e He Ue. destruct (N (me e)) as [X|X].
  - rewrite sk_edges. now apply in_map.
  - now rewrite sk_under.
  - left. apply same_ends_iff in X. destruct X as (X1 & X2). apply sk_inj in X1. apply sk_inj in X2. apply same_ends_iff. now split.
  - right. apply sk_lower; [now apply (under_sloped e s)|now apply (under_sloped b s)|exact X].
Qed.
End Skew.
