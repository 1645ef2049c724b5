(** What the path of a sector in the chart fills. *)

From Coq Require Import String List ZArith QArith Bool Lia Lqa Permutation.
From Coq Require Import ZifyBool ZifyNat.
From Verif Require Import Base BaseFacts Float MapModel SectorPolys Chart Contours Compute SpecMapModel SpecSector SpecShape SpecOrder SpecIntersect SpecHandle SpecTurn SpecFloat64
  SpecTidy SpecOverlay SpecRooms ChartFacts TidyGeo TidyParity TidyWinding NestPlace MapSectorFacts RoomFacts RoomFacts2 RoomFacts3 NestGeo OrderFacts LadderFacts.
From Verif Require Import SpecFill.
Import ListNotations.
Local Open Scope Z_scope.

Lemma subpaths_line : forall {N} (others : list (N * N)) rest,
  subpaths (map (fun v => LineTo (fst v) (snd v)) others ++ rest) = subpaths rest.
Proof. intros N others rest. induction others as [|v others IH]; [reflexivity|exact IH]. Qed.
Lemma drawn_to_line : forall {N} (others : list (N * N)) rest,
  drawn_to (map (fun v => LineTo (fst v) (snd v)) others ++ rest) = others ++ drawn_to rest.
Proof. intros N others rest. induction others as [|[x y] others IH]; [reflexivity|]. cbn [map app drawn_to fst snd]. now rewrite IH. Qed.

(** Each outline, with its first corner once more at the end. *)
Definition closed {A} (l : list A) : list A := match l with [] => [] | a :: _ => l ++ [a] end.

Lemma outlines_subpaths : forall {N} (os : list (list (N * N))) d, outlines_path os = Ok d -> subpaths d = map closed os.
Proof.
  intros N os d H. unfold outlines_path in H. apply obind_ok in H. destruct H as (parts & E & H). injection H as <-.
  assert (K : forall parts, Forall2 (fun o p => outline_path o = Ok p) os parts -> subpaths (concat parts) = map closed os /\ drawn_to (concat parts) = []).
  { clear E parts. intros parts F. induction F as [|o p os parts Op F IH]; [split; reflexivity|]. destruct IH as (IH1 & IH2).
    destruct o as [|[fx fy] others]; [discriminate Op|]. cbn [outline_path] in Op. injection Op as <-.
    cbn [concat app subpaths map closed drawn_to]. split; [|reflexivity].
    rewrite <- app_assoc. rewrite subpaths_line, drawn_to_line. cbn [app subpaths drawn_to]. rewrite IH1, IH2. reflexivity. }
  apply omap_ok in E. exact (proj1 (K parts E)).
Qed.

Lemma closed_sides : forall i l, flat_map (left_to_right i) (sides (closed l)) = flat_map (left_to_right i) (sides l).
Proof.
  intros i [|a t]; [reflexivity|]. cbn [closed app sides].
  assert (C : forall (t : list (Z * Z)) b, combine (b :: t ++ [a]) ((t ++ [a]) ++ [a]) = combine (b :: t) (t ++ [a]) ++ [(a, a)]).
  { clear t. induction t as [|c t IH]; intros b; [reflexivity|]. cbn [app combine]. f_equal. apply IH. }
  rewrite C, flat_map_app. cbn [flat_map]. unfold left_to_right at 2. cbn [fst snd]. rewrite TidyGeo.lex_refl. apply app_nil_r.
Qed.

Lemma odd_windings : forall i x y z, Z.odd (windings x y (map closed z)) = parity (fun e => passes_below e x y) (polygon_edges i z).
Proof.
  intros i x y z. unfold polygon_edges. induction z as [|l z IH]; [reflexivity|]. cbn [map flat_map]. rewrite flat_map_app, parity_app, <- IH.
  unfold windings in *. cbn [map fold_right]. rewrite Z.odd_add. f_equal. unfold winding. rewrite <- closed_sides. apply odd_sides.
Qed.

Lemma parity_length : forall {A} (P : A -> bool) l, parity P l = Nat.odd (length (filter P l)).
Proof.
  intros A P l. induction l as [|a l IH]; [reflexivity|]. rewrite parity_cons. cbn [filter]. destruct (P a); cbn [length]; rewrite IH; [|apply xorb_false_l].
  rewrite Nat.odd_succ, <- Nat.negb_odd. destruct (Nat.odd _); reflexivity.
Qed.

Lemma lines_parity : forall m place ps x y, parity (fun e => passes_below e x y) (flat_map (line_side m place 0) ps) = parity (below m place x y) ps.
Proof.
  intros m place ps x y. induction ps as [|p ps IH]; [reflexivity|]. cbn [flat_map]. rewrite parity_app, parity_cons, IH. f_equal.
  unfold below, line_side. destruct (nth_error (g_lines m) p) as [l|]; [|reflexivity]. unfold line_as_edge, left_to_right. cbn [fst snd].
  destruct (lex_z _ _); [reflexivity|..]; cbn [existsb]; rewrite parity_cons; cbn [parity fold_right]; destruct (passes_below _ _ _); reflexivity.
Qed.

Lemma drawn_in : forall m place k xx x y, drawn_sector m place k xx ->
  (in_sector m place (Z.of_nat k) x y <-> parity (below m place x y) (snd (snd xx)) = true).
Proof.
  intros m place k xx x y (_ & _ & _ & ND & IN & _). set (ps := snd (snd xx)) in *. rewrite parity_length.
  assert (M : forall p, In p (filter (below m place x y) ps) <-> exists l, nth_error (g_lines m) p = Some l /\ m_borders m (Z.of_nat k) l /\ line_below place l x y).
  { intros p. rewrite filter_In, IN. unfold bordering, below, line_below, line_side. split.
    - intros ((l & E & B) & H). rewrite E in H. apply existsb_exists in H. exists l. auto.
    - intros (l & E & B & e & I & H). split; [exists l; auto|]. rewrite E. apply existsb_exists. eauto. }
  split.
  - intros (qs & NQ & MQ & O). rewrite <- O. f_equal. apply Permutation_length, NoDup_Permutation; [now apply NoDup_filter|exact NQ|].
    intros p. rewrite M, MQ. reflexivity.
  - intros O. exists (filter (below m place x y) ps). split; [now apply NoDup_filter|]. split; [exact M|exact O].
Qed.

Lemma closed_points : forall (outs : list (list point)) z, has_corners (map (set_points contour_new) outs) z ->
  Forall2 (Forall2 (fun p w => int_valued (fst p) (fst w) /\ int_valued (snd p) (snd w))) (map closed (map (map (fun p => (px p, py p))) outs)) (map closed z).
Proof.
  intros outs z H. unfold has_corners in H. revert z H. induction outs as [|o outs IH]; intros z H; inversion H as [|? l ? z' Ho Hr]; subst; cbn [map]; constructor; [|now apply IH].
  cbn [set_points c_points] in Ho. clear - Ho.
  assert (G : Forall2 (fun p w => int_valued (fst p) (fst w) /\ int_valued (snd p) (snd w)) (map (fun p => (px p, py p)) o) l).
  { induction Ho as [|p w o l A F IH]; [constructor|]. cbn [map]. constructor; [|exact IH]. destruct A as (_ & _ & A). exact A. }
  destruct G as [|p w o' l' A G]; [constructor|]. cbn [closed]. constructor; [exact A|]. apply Forall2_app; [exact G|]. constructor; [exact A|constructor].
Qed.

(** *** Lines that follow each other *)

Section Forward.
Variables (m : gmap) (place : handle -> Z * Z) (s : Z).
Hypothesis HT : head_to_tail m s.

(** The lines lead from their starts to their ends. *)
Inductive forward : handle -> list nat -> list handle -> handle -> Prop :=
| fw_nil : forall v, forward v [] [] v
| fw_cons : forall p l ps vs z, nth_error (g_lines m) p = Some l -> m_borders m s l -> forward (ln_end l) ps vs z -> forward (ln_start l) (p :: ps) (ln_start l :: vs) z.

Lemma walk_forward : forall first W prev next rest vs, left_walk m s place first W prev next rest vs -> trail m s next rest vs first ->
  (exists q k, In q W /\ nth_error (g_lines m) q = Some k /\ m_borders m s k /\ ln_end k = next) -> forward next rest vs first.
Proof using HT.
  intros first W prev next rest vs LW. induction LW as [W prev next C|W prev next C S|W prev next p w rest vs C [J NI] L LW IH]; intros T Q.
  - inversion T; subst. constructor.
  - inversion T.
  - destruct Q as (q & k & Iq & Eq & Bq & Kq). destruct J as (l & E & B & J).
    assert (D : ln_start l = next).
    { destruct J as [[-> _]|[_ J]]; [reflexivity|]. exfalso. apply NI. rewrite (HT p q l k E Eq B Bq); [exact Iq|]. right. congruence. }
    assert (D' : ln_end l = w) by (destruct J as [[_ J]|[J1 J2]]; congruence).
    inversion T as [|? ? w' ? ? ? J' T']; subst.
    assert (w' = ln_end l).
    { destruct J' as (l' & E' & B' & J'). assert (l' = l) by congruence. subst l'. destruct J' as [[_ J']|[J1 J2]]; congruence. }
    subst w'. rewrite <- D. apply (fw_cons p l); auto. apply IH; auto. exists p, l. split; [apply in_or_app; right; left; reflexivity|]. auto.
Qed.

Lemma walks_forward : forall W ws, sector_walks m s place W ws -> Forall (round m s) ws -> Forall (fun w => exists v, forward v (snd w) (fst w) v) ws.
Proof using HT.
  intros W ws SW. induction SW as [W A|W p l rest vs walks E B NI L LW SW IH]; intros F; [constructor|].
  inversion F as [|? ? (v & T & N) F']; subst. constructor; [|auto]. cbn [fst snd] in *. exists (ln_start l).
  inversion T as [|? ? w ? ? ? J T']; subst. apply (fw_cons p l); auto.
  assert (w = ln_end l) by (destruct J as (l' & E' & B' & J); assert (l' = l) by congruence; subst l'; destruct J as [[_ J]|[J1 J2]]; congruence).
  subst w. apply (walk_forward _ _ _ _ _ _ LW T'). exists p, l. split; [apply in_or_app; right; left; reflexivity|]. auto.
Qed.

Definition line_sign (x y : Q) (p : nat) : Z :=
  match nth_error (g_lines m) p with Some l => side_sign x y (place (ln_start l), place (ln_end l)) | None => 0 end.

Lemma forward_signs : forall x y v ps vs z, forward v ps vs z ->
  zsum (map (side_sign x y) (combine (map place vs) (tl (map place vs) ++ [place z]))) = zsum (map (line_sign x y) ps).
Proof using.
  intros x y v ps vs z F. induction F as [v|p l ps vs z E B F IH]; [reflexivity|]. cbn [map tl].
  assert (S : line_sign x y p = side_sign x y (place (ln_start l), place (ln_end l))) by (unfold line_sign; now rewrite E).
  destruct F as [v|q k ps vs z E' B' F]; cbn [map tl app combine] in *; unfold zsum in *; cbn [fold_right] in *; rewrite S; [reflexivity|].
  now rewrite <- IH.
Qed.

Lemma forward_winding : forall x y w, (exists v, forward v (snd w) (fst w) v) -> winding x y (map place (fst w)) = zsum (map (line_sign x y) (snd w)).
Proof using.
  intros x y [vs ps] (v & F). cbn [fst snd] in *. rewrite <- (forward_signs x y v ps vs v F). unfold winding, zsum, sides. inversion F; subst; reflexivity.
Qed.

Lemma forward_windings : forall x y ws, Forall (fun w => exists v, forward v (snd w) (fst w) v) ws ->
  windings x y (map (map place) (map fst ws)) = zsum (map (line_sign x y) (concat (map snd ws))).
Proof using.
  intros x y ws F. induction F as [|w ws H F IH]; [reflexivity|]. cbn [map concat]. rewrite map_app, zsum_app, <- IH, <- (forward_winding x y w H). reflexivity.
Qed.
End Forward.

Lemma closed_windings : forall x y z, windings x y (map closed z) = windings x y z.
Proof.
  intros x y z. unfold windings. rewrite map_map. f_equal. apply map_ext. intros [|a t]; [reflexivity|]. unfold winding. cbn [closed app sides].
  assert (C : forall (t : list (Z * Z)) b, combine (b :: t ++ [a]) ((t ++ [a]) ++ [a]) = combine (b :: t) (t ++ [a]) ++ [(a, a)]).
  { clear t. induction t as [|c t IH]; intros b; [reflexivity|]. cbn [app combine]. f_equal. apply IH. }
  rewrite C, map_app, fold_right_app. cbn [map fold_right].
  assert (E : side_sign x y (a, a) = 0) by (unfold side_sign; cbn [fst snd]; now rewrite TidyGeo.lex_refl). now rewrite E.
Qed.

Section Exact.
Variables (m : gmap) (place : handle -> Z * Z) (k : nat).
Hypothesis (WD : well_drawn m place) (IS : is_sector m (Z.of_nat k)).
Variable xx : list (list point) * (corners * list nat).
Hypothesis X : drawn_sector m place k xx.
Let s := Z.of_nat k.
Let ps := snd (snd xx).

Definition line_edge (p : nat) : edge := hd (mk_edge 0 (0, 0) (0, 0)) (line_side m place 0 p).
Definition line_dir (p : nat) : Z :=
  match nth_error (g_lines m) p with Some l => match lex_z (place (ln_start l)) (place (ln_end l)) with Lt => 1 | _ => -1 end | None => 0 end.

Lemma edge_of : forall p, In p ps -> exists l e, nth_error (g_lines m) p = Some l /\ m_borders m s l /\ line_as_edge place 0 l = [e] /\ line_edge p = e /\ lr e
  /\ ((line_dir p = 1 /\ e_left e = place (ln_start l) /\ e_right e = place (ln_end l))
      \/ (line_dir p = -1 /\ e_left e = place (ln_end l) /\ e_right e = place (ln_start l))).
Proof using WD IS X.
  intros p I. destruct X as (_ & _ & _ & _ & IN & _). apply IN in I. destruct (key_one m place (drawn_traced m place WD) s 0 p IS I) as (l & e & E & B & L & _).
  exists l, e. split; [exact E|]. split; [exact B|]. unfold line_edge, line_dir. rewrite L, E. unfold line_side in L. rewrite E in L. split; [exact L|]. split; [reflexivity|].
  unfold line_as_edge, left_to_right in L. cbn [fst snd] in L. unfold lr. destruct (lex_z (place (ln_start l)) (place (ln_end l))) eqn:Q; [discriminate|..]; injection L as <-; cbn [e_left e_right].
  - auto.
  - split; [|auto]. destruct (lex_not (place (ln_start l)) (place (ln_end l))) as [H|H]; [congruence| |exact H]. rewrite H, TidyGeo.lex_refl in Q. discriminate.
Qed.

Lemma sign_rung : forall x y p, In p ps -> line_sign m place x y p = if passes_below (line_edge p) x y then line_dir p else 0.
Proof using WD IS X.
  intros x y p I. destruct (edge_of p I) as (l & e & E & _ & L & -> & _). unfold line_sign, line_dir, side_sign. rewrite E. cbn [fst snd].
  unfold line_as_edge, left_to_right in L. cbn [fst snd] in L. destruct (lex_z _ _); [discriminate|..]; injection L as <-; reflexivity.
Qed.

Lemma odd_lines : forall x y, odd_below _ line_edge x y ps = true <-> in_sector m place s x y.
Proof using WD IS X.
  intros x y. unfold s. rewrite (drawn_in m place k xx x y X). unfold odd_below. fold ps. rewrite (parity_ext _ (below m place x y) ps); [reflexivity|].
  intros p I. destruct (edge_of p I) as (l & e & E & _ & L & -> & _). unfold below, line_side. rewrite E, L. cbn [existsb]. symmetry. apply orb_false_r.
Qed.

Lemma lines_apart : ForallOrdPairs (fun p q => apart (line_edge p) (line_edge q)) ps.
Proof using WD IS X.
  assert (G : forall qs, NoDup qs -> (forall p, In p qs -> In p ps) -> ForallOrdPairs (fun p q => apart (line_edge p) (line_edge q)) qs).
  { intros qs NQ. induction NQ as [|p qs NI NQ IH]; intros H; constructor; [|apply IH; intros q J; apply H; right; exact J].
    apply Forall_forall. intros q J. destruct (edge_of p (H p (or_introl eq_refl))) as (l & e & E & B & L & P & _).
    destruct (edge_of q (H q (or_intror J))) as (l' & e' & E' & B' & L' & P' & _).
    apply (keys_apart m place WD s s 0%nat 0%nat p q); [exact IS|exact IS|exists l; auto|exists l'; auto|intros ->; contradiction|..]; unfold line_side;
      [rewrite E, L, P|rewrite E', L', P']; left; reflexivity. }
  apply G; [|auto]. destruct X as (_ & _ & _ & ND & _). exact ND.
Qed.

(** Whether the place below a line is in the sector is the same all along. *)
Lemma same_along : forall p x y x' y', In p ps -> inside_edge (line_edge p) x y -> inside_edge (line_edge p) x' y' ->
  odd_below _ line_edge x y ps = odd_below _ line_edge x' y' ps.
Proof using WD IS X.
  intros p x y x' y' I H H'. destruct (edge_of p I) as (l & e & E & _ & L & P & LE & _). rewrite P in H, H'.
  destruct X as (_ & _ & PE & _). fold ps in PE.
  assert (IE : forall f, In f (edges [fst (snd xx)]) -> exists q, In q ps /\ f = line_edge q).
  { intros f J. unfold edges in J. cbn [edges_from] in J. rewrite app_nil_r, PE in J. apply in_flat_map in J. destruct J as (q & Iq & J). exists q. split; [exact Iq|].
    destruct (edge_of q Iq) as (l' & e' & E' & _ & L' & P' & _). unfold line_side in J. rewrite E', L' in J. destruct J as [<-|[]]. congruence. }
  assert (R : forall f, In f (edges [fst (snd xx)]) -> related f e).
  { intros f J. destruct (IE f J) as (q & Iq & ->). destruct (Nat.eq_dec p q) as [<-|N]; [left; rewrite P; auto|right].
    destruct (edge_of q Iq) as (l' & e' & E' & B' & L' & P' & _). destruct (edge_of p I) as (l2 & e2 & E2 & B2 & L2 & P2 & _).
    apply (keys_apart m place WD s s 0%nat 0%nat q p); [exact IS|exact IS|exists l'; auto|exists l2; auto|auto|..]; unfold line_side;
      [rewrite E', L', P'|rewrite E2, L2, <- P, P2]; left; reflexivity. }
  assert (Q : forall x y, odd_below _ line_edge x y ps = Nat.odd (crossings [fst (snd xx)] 0 x y)).
  { intros u v. unfold crossings. rewrite parity_odd. unfold edges. cbn [edges_from]. rewrite app_nil_r, PE.
    unfold odd_below. generalize (fun q H => edge_of q H). clear. intros EO. 
    assert (EO' : forall q, In q ps -> exists e, line_side m place 0 q = [e] /\ line_edge q = e).
    { intros q H. destruct (EO q H) as (l & e & E & _ & L & P & _). exists e. split; [|exact P]. unfold line_side. now rewrite E. }
    clear EO. induction ps as [|q qs IH]; [reflexivity|]. cbn [flat_map]. rewrite parity_cons, parity_app, <- IH by (intros r H; apply EO'; right; exact H). f_equal.
    destruct (EO' q (or_introl eq_refl)) as (e & L & ->). rewrite L. cbn [parity fold_right]. rewrite xorb_false_r.
    assert (e_poly e = 0%nat); [|now rewrite H]. unfold line_side in L. destruct (nth_error (g_lines m) q); [|discriminate]. unfold line_as_edge, left_to_right in L.
    destruct (lex_z _ _); [discriminate|..]; injection L as <-; reflexivity. }
  rewrite !Q, (crossings_parity _ 0 e x y LE R H), (crossings_parity _ 0 e x' y' LE R H'). reflexivity.
Qed.

Lemma inside_spans : forall e x, lr e -> spans e x -> inside_edge e x (yat e x).
Proof using.
  intros e x L (X1 & X2). exists ((x - xl e) / (xr e - xl e))%Q. assert (D : (0 < xr e - xl e)%Q) by lra.
  assert (V : ((x - xl e) / (xr e - xl e) * (xr e - xl e) == x - xl e)%Q) by (field; lra).
  split; [apply Qlt_shift_div_l; lra|]. split; [apply Qlt_shift_div_r; lra|]. rewrite !inject_sub. split; [rewrite V; ring|].
  unfold yat, slope. field. lra.
Qed.

Lemma hand_windings : forall g, (g = -1 /\ (forall l, In l (g_lines m) -> m_borders m s l -> right_hand m place s l)
    \/ g = 1 /\ (forall l, In l (g_lines m) -> m_borders m s l -> left_hand m place s l)) ->
  head_to_tail m s -> forall x y, windings x y (fst (snd xx)) = if odd_below _ line_edge x y ps then g else 0.
Proof using WD IS X.
  intros g G HT x y. pose proof X as (_ & _ & _ & _ & _ & _ & ws & SW & F & Z1 & Z2 & _). rewrite Z1.
  rewrite (forward_windings m place s) by (apply (walks_forward m place s HT [] ws SW F)). rewrite <- Z2. fold ps.
  rewrite (map_ext_in _ (fun p => if passes_below (line_edge p) x y then line_dir p else 0)) by (intros p I; now apply sign_rung).
  change (zsum _) with (rungs nat line_edge line_dir x y ps). apply ladder.
  - intros p I. destruct (edge_of p I) as (l & e & _ & _ & _ & -> & L & _). exact L.
  - exact lines_apart.
  - intros p u I SP. destruct (edge_of p I) as (l & e & E & B & L & P & LE & DIR).
    assert (A : forall x0 y0, inside_edge e x0 y0 -> odd_below _ line_edge u (yat (line_edge p) u) ps = odd_below _ line_edge x0 y0 ps).
    { intros x0 y0 I0. apply (same_along p); [exact I|apply inside_spans; [rewrite P; exact LE|exact SP]|rewrite P; exact I0]. }
    assert (NE : e_left e <> e_right e) by (intros Q; unfold lr in LE; rewrite Q, TidyGeo.lex_refl in LE; discriminate).
    destruct G as [(-> & G)|(-> & G)]; destruct (G l (nth_error_In _ _ E) B) as (e' & x0 & y0 & I0 & J0 & H); rewrite L in I0; destruct I0 as [<-|[]];
      rewrite (A x0 y0 J0); pose proof (odd_lines x0 y0) as O; destruct (odd_below _ line_edge x0 y0 ps);
      destruct DIR as [(-> & D1 & D2)|(-> & D1 & D2)]; try reflexivity; exfalso; destruct H as [(H1 & H2)|(H1 & H2)];
      first [apply NE; congruence | apply O in H2; discriminate | apply H2, O; reflexivity].
Qed.

Lemma hand_painted : one_hand m place s -> head_to_tail m s -> forall x y, painted (map closed (fst (snd xx))) x y -> in_sector m place s x y.
Proof using WD IS X.
  intros H HT x y P. unfold painted in P. rewrite closed_windings in P.
  assert (W : exists g, windings x y (fst (snd xx)) = if odd_below _ line_edge x y ps then g else 0).
  { destruct H as [H|H]; [exists (-1)|exists 1]; apply hand_windings; auto. }
  destruct W as (g & W). apply odd_lines. rewrite W in P. destruct (odd_below _ line_edge x y ps); [reflexivity|contradiction].
Qed.
End Exact.

Lemma chart_fill : forall m place d, well_drawn m place -> map_as_svg m = Ok d ->
  exists before ss, d_shapes d = before ++ ss /\ length ss = length (g_sectors m)
    /\ forall k s, nth_error ss k = Some s ->
       exists path tag light cs zs, s = SPath path tag light cs /\ runs_through path zs
         /\ (forall x y, in_sector m place (Z.of_nat k) x y <-> Z.odd (windings x y zs) = true)
         /\ (forall x y, in_sector m place (Z.of_nat k) x y -> painted zs x y)
         /\ (one_hand m place (Z.of_nat k) -> head_to_tail m (Z.of_nat k) -> forall x y, painted zs x y -> in_sector m place (Z.of_nat k) x y).
Proof.
  intros m place d WD H. unfold map_as_svg in H. apply obind_ok in H. destruct H as (ls & _ & H). apply obind_ok in H. destruct H as (ss & S & H).
  assert (D : d_shapes d = (ls ++ map map_thing_shape (g_things m)) ++ ss) by (injection H as <-; cbn [d_shapes]; apply app_assoc).
  clear H. exists (ls ++ map map_thing_shape (g_things m)), ss. split; [exact D|]. clear D.
  apply omap_ok in S. assert (LEN : length ss = length (g_sectors m)).
  { rewrite <- (Forall2_len _ _ _ S). unfold enumerate. clear. generalize 0%nat. induction (g_sectors m) as [|a l IH]; intros n; [reflexivity|]. cbn [enumerate_from length]. now rewrite IH. }
  split; [exact LEN|]. intros k s E.
  assert (L : (k < length (g_sectors m))%nat) by (rewrite <- LEN; apply nth_error_Some; congruence).
  destruct (nth_error (g_sectors m) k) as [sec|] eqn:N; [|apply nth_error_None in N; lia].
  destruct (MapSectorFacts.Forall2_nth _ _ _ _ _ S E) as (ks & K & P). rewrite (enumerate_nth _ _ _ N) in K. injection K as <-.
  unfold map_sector_shape in P. apply obind_ok in P. destruct P as (polys & PO & P). apply obind_ok in P. destruct P as (path & PA & P).
  apply obind_ok in P. destruct P as (implicit & _ & P). injection P as <-.
  assert (IS : is_sector m (Z.of_nat k)) by (unfold is_sector, has_item; lia). destruct (sector_drawn m place (drawn_traced m place WD) k IS) as (xx & X). pose proof X as (O & HC & PE & _).
  rewrite PO in O. injection O as ->. apply outlines_subpaths in PA.
  assert (Q : forall x y, in_sector m place (Z.of_nat k) x y <-> Z.odd (windings x y (map closed (fst (snd xx)))) = true).
  { intros x y. rewrite (drawn_in m place k xx x y X), (odd_windings 0), PE, lines_parity. reflexivity. }
  eexists path, _, _, _, (map closed (fst (snd xx))). split; [reflexivity|]. split; [unfold runs_through; rewrite PA; now apply closed_points|].
  split; [exact Q|]. split; [|exact (hand_painted m place k WD IS xx X)]. intros x y I. apply Q in I. unfold painted. intros Z0. rewrite Z0 in I. discriminate I.
Qed.
