(** Proofs about the drawing of the route command (C88, C89). *)

From Coq Require Import String List ZArith Bool Arith Lia Sorted Permutation.
From Verif Require Import Base BaseFacts ParseWad ArchiveWad ParseMap SpecLumps SpecMap Float FloatFacts MapModel SpecMapModel FlipFacts MapFacts Geometry Sweep Contours Compute
  SpecCompute ShapeFacts ContainerFacts SweepFacts TraceFacts ComputeFacts HolesFacts Route SpecRoute FillFacts
  Chart SpecChart ChartFacts RouteDraw SpecRouteDraw.
Import ListNotations.

(** ** Contours have points *)

Definition pointed (c : contour) : Prop := c_points c <> [].

Lemma trace_loop_pointed : forall fuel included cid start cur c ks c' ks' cur', pointed c ->
  trace_loop fuel included cid start cur c ks = Ok (c', ks', cur') -> pointed c'.
Proof.
  induction fuel as [|fuel IH]; intros included cid start cur c ks c' ks' cur' P H; cbn [trace_loop] in H; [discriminate|].
  bind H k Ek. bind H from Ef. destruct (point_eqb (ep_other cur) start).
  - inv H. exact P.
  - bind H next En. eapply IH; [|exact H]. unfold pointed, contour_add, set_points, set_from. cbn. destruct (c_points c); discriminate.
Qed.

Lemma set_nth_all : forall {A} (P : A -> Prop) i x l, P x -> (forall y, In y l -> P y) -> forall y, In y (set_nth i x l) -> P y.
Proof. intros A P i x l Hx Hl y Hy. apply in_set_nth in Hy. destruct Hy as [-> |Hy]; auto. Qed.

Lemma update_pointed : forall l i f l', (forall c c', f c = Ok c' -> c_points c' = c_points c) ->
  (forall c, In c l -> pointed c) -> update_nat l i f = Ok l' -> forall c, In c l' -> pointed c.
Proof.
  intros l i f l' Hf Hl H. apply update_nat_ok in H. destruct H as (x & y & Hx & Hy & ->). apply set_nth_all; [|exact Hl].
  unfold pointed. rewrite (Hf _ _ Hy). apply Hl. eapply nth_error_In, Hx.
Qed.

Lemma trace_one_pointed : forall segs included st e st', (forall c, In c (snd st) -> pointed c) ->
  trace_one segs included st e = Ok st' -> forall c, In c (snd st') -> pointed c.
Proof.
  intros segs included [ks final] [segment end_] [ks' final'] P H. cbn [snd] in *. unfold trace_one in H.
  bind H done Ed. destruct done; [inv H; exact P|].
  bind H k Ek. bind H current Ec. bind H r Er. destruct r as [[c1 ks1] cur1].
  apply trace_loop_pointed in Er; [|unfold pointed, contour_add, set_points, set_from; cbn; discriminate].
  bind H r Ew. destruct r as [cw c2]. apply clockwise_inv in Ew. destruct Ew as (_ & Ep & _).
  assert (P2 : forall c, In c (final ++ [c2]) -> pointed c).
  { intros c Hc. apply in_app_or in Hc. destruct Hc as [Hc|[<-|[]]]; [auto|]. unfold pointed. rewrite Ep. exact Er. }
  destruct cw; [|inv H; exact P2].
  bind H k2 Ek2. destruct (k_below k2) as [bid|]; [|inv H; exact P2].
  bind H bel Eb. bind H bk Ebk. bind H par Epar. bind H f1 Ef1. bind H f2 Ef2. inv H.
  eapply update_pointed; [| |exact Ef2]; [intros c c' E; inv E; reflexivity|].
  eapply update_pointed; [| |exact Ef1]; [intros c c' E; inv E; reflexivity|]. exact P2.
Qed.

Lemma neighbors_pointed : forall ks l e l', (forall c, In c l -> pointed c) ->
  assign_neighbors ks l e = Ok l' -> forall c, In c l' -> pointed c.
Proof.
  intros ks l e l' P H. unfold assign_neighbors in H. bind H k Ek.
  destruct (k_right_contour k); [|inv H; exact P]. destruct (k_left_contour k); [|inv H; exact P].
  bind H f1 Ef1.
  eapply update_pointed; [| |exact H]; [intros c c' E; bind E b Eb; inv E; reflexivity|].
  eapply update_pointed; [| |exact Ef1]; [intros c c' E; bind E b Eb; inv E; reflexivity|]. exact P.
Qed.

Lemma compute_pointed : forall std fuel polys op r, compute std fuel polys op = Ok r -> forall c, In c r -> pointed c.
Proof.
  intros std fuel polys op r H. unfold compute in H.
  bind H w0 E0. bind H w E1. bind H se E2. destruct se as [ss es]. bind H u E3. bind H included E4. bind H ks E5. bind H kf E6.
  destruct kf as [ks' final].
  assert (P : forall c, In c final -> pointed c).
  { change final with (snd (ks', final)). revert E6. apply (ofold_inv _ (fun st => forall c, In c (snd st) -> pointed c)).
    - intros c [].
    - intros x s s' _ I E. eapply trace_one_pointed; eauto. }
  revert H. apply (ofold_inv _ (fun l => forall c, In c l -> pointed c)).
  - intros c Hc. apply in_map_iff in Hc. destruct Hc as (c0 & <- & Hc). exact (P c0 Hc).
  - intros x s s' _ I E. eapply neighbors_pointed; eauto.
Qed.

(** ** Strokes *)

Lemma last_cons : forall {A} (l : list A) x a, last (x :: l) a = last l x.
Proof. induction l as [|y l IH]; intros x a; [reflexivity|]. change (last (x :: y :: l) a) with (last (y :: l) a). now rewrite !IH. Qed.

Lemma strokes_follow : forall (pts : list (f64 * f64)) a rest,
  strokes_from (Some a) (map (fun p => LineTo (fst p) (snd p)) pts ++ rest)
  = combine (a :: pts) pts ++ strokes_from (Some (last pts a)) rest.
Proof.
  induction pts as [|[x y] pts IH]; intros a rest; [reflexivity|].
  cbn [map app strokes_from fst snd]. rewrite IH, last_cons. reflexivity.
Qed.

(** Commands that begin by moving. *)
Definition moves {N} (d : list (command N)) : Prop := match d with LineTo _ _ :: _ => False | _ => True end.

Lemma strokes_moved : forall {N} (d : list (command N)) a b, moves d -> strokes_from a d = strokes_from b d.
Proof. intros N [|[x y|x y] d] a b H; [reflexivity|reflexivity|destruct H]. Qed.

Lemma combine_close : forall {A} (l : list A) a p, combine (a :: l) (l ++ [p]) = combine (a :: l) l ++ [(last l a, p)].
Proof.
  induction l as [|x l IH]; intros a p; [reflexivity|]. rewrite last_cons. change ((x :: l) ++ [p]) with (x :: (l ++ [p])).
  change (combine (a :: x :: l) (x :: l ++ [p])) with ((a, x) :: combine (x :: l) (l ++ [p])). rewrite IH. reflexivity.
Qed.

Lemma last_map : forall {A B} (f : A -> B) l d, last (map f l) (f d) = f (last l d).
Proof. intros A B f l d. induction l as [|x l IH]; [reflexivity|]. cbn [map last]. destruct l; [reflexivity|exact IH]. Qed.

Lemma contour_path_draws : forall c rest, pointed c -> moves rest -> exists d, contour_path c = Ok d /\ moves d
  /\ Permutation (strokes (d ++ rest)) (edges_of (map xy (c_points c)) ++ strokes rest).
Proof.
  intros c rest P R. unfold contour_path. unfold pointed in P. destruct (c_points c) as [|p l] eqn:E; [contradiction|].
  eexists. split; [reflexivity|]. split; [exact I|]. unfold strokes. rewrite <- app_comm_cons. cbn [strokes_from].
  replace (map (fun point => LineTo (px point) (py point)) (p :: l))
    with (map (fun q => LineTo (fst q) (snd q)) (map xy (p :: l))) by (rewrite map_map; reflexivity).
  rewrite strokes_follow. apply Permutation_app; [|erewrite strokes_moved; [apply Permutation_refl|exact R]].
  change (px (last (p :: l) p), py (last (p :: l) p)) with (xy (last (p :: l) p)). rewrite <- last_map.
  cbn [map edges_of]. rewrite combine_close. cbn [combine]. rewrite <- Permutation_cons_append.
  rewrite last_cons. reflexivity.
Qed.

Lemma holes_path : forall result hs, (forall h, In h hs -> exists hc, nth_error result h = Some hc /\ pointed hc) ->
  exists ds hcs, omap (fun h => let* hole := index_nat result h in contour_path hole) hs = Ok ds
    /\ Forall2 (fun h hc => nth_error result h = Some hc) hs hcs /\ moves (concat ds)
    /\ Permutation (strokes (concat ds)) (flat_map (fun c => edges_of (map xy (c_points c))) hcs).
Proof.
  intros result. induction hs as [|h hs IH]; intros H.
  - exists [], []. cbn. repeat split; constructor.
  - destruct IH as (ds & hcs & E & F & M & P); [intros; apply H; right; assumption|].
    destruct (H h (or_introl eq_refl)) as (hc & Hh & Hp).
    destruct (contour_path_draws hc (concat ds) Hp M) as (d & Ed & Md & Pd).
    exists (d :: ds), (hc :: hcs). cbn [omap concat flat_map].
    assert (Ei : index_nat result h = Ok hc) by (unfold index_nat; rewrite Hh; reflexivity). rewrite Ei. cbn [obind]. rewrite Ed. cbn [obind].
    rewrite E. cbn [obind]. split; [reflexivity|]. split; [constructor; assumption|]. split.
    + destruct d as [|[x y|x y] d]; [exact M|exact I|destruct Md].
    + rewrite Pd. apply Permutation_app_head, P.
Qed.

(** ** Origins *)

Lemma origins_found : forall refs bits p, (length bits + p <= length refs)%nat ->
  exists rs ks, contour_origins refs bits p = Ok rs /\ StronglySorted lt ks
    /\ (forall k, In k ks <-> (p <= k)%nat /\ nth_error bits (k - p) = Some true)
    /\ Forall2 (fun k r => nth_error refs k = Some r) ks rs.
Proof.
  intros refs. induction bits as [|b bits IH]; intros p L; cbn [contour_origins length] in *.
  - exists [], []. split; [reflexivity|]. split; [constructor|]. split; [|constructor].
    intros k. split; [intros []|]. intros [_ H]. destruct (k - p)%nat; discriminate.
  - destruct (IH (S p)) as (rs & ks & E & S & K & F); [lia|]. destruct b.
    + destruct (nth_error_lt refs p) as [r Hr]; [lia|]. unfold index_nat. rewrite Hr. cbn [obind]. rewrite E. cbn [obind app].
      exists (r :: rs), (p :: ks). split; [reflexivity|]. split; [|split; [|constructor; auto]].
      * constructor; [exact S|]. apply Forall_forall. intros k Hk. apply K in Hk. lia.
      * intros k. cbn [In]. rewrite K. split.
        -- intros [<- |(L1 & H)]; [rewrite Nat.sub_diag; auto|]. split; [lia|]. replace (k - p)%nat with (Datatypes.S (k - Datatypes.S p)) by lia. exact H.
        -- intros (L1 & H). destruct (Nat.eq_dec p k) as [->|N]; [auto|]. right. split; [lia|].
           replace (k - p)%nat with (Datatypes.S (k - Datatypes.S p)) in H by lia. exact H.
    + cbn [obind]. rewrite E. cbn [obind app]. exists rs, ks. split; [reflexivity|]. split; [exact S|]. split; [|exact F].
      intros k. rewrite K. split; intros (L1 & H).
      * split; [lia|]. replace (k - p)%nat with (Datatypes.S (k - Datatypes.S p)) by lia. exact H.
      * destruct (Nat.eq_dec p k) as [<-|N]; [rewrite Nat.sub_diag in H; discriminate|]. split; [lia|].
        replace (k - p)%nat with (Datatypes.S (k - Datatypes.S p)) in H by lia. exact H.
Qed.

Lemma origins_total : forall refs c, length (c_from c) = length refs ->
  exists rs, contour_origins refs (c_from c) 0 = Ok rs /\ origins_shown refs c (map show_origin rs).
Proof.
  intros refs c L. destruct (origins_found refs (c_from c) 0) as (rs & ks & E & S & K & F); [lia|].
  exists rs. split; [exact E|]. exists ks. split; [exact S|]. split.
  - intros k. rewrite K, Nat.sub_0_r. split; [tauto|]. intros H. split; [lia|exact H].
  - clear - F. induction F as [|k r ks rs H F IH]; cbn [map]; constructor; [|exact IH]. exists r. split; [exact H|]. destruct r; reflexivity.
Qed.

(** ** Lines *)

Lemma line_classes : forall l, exactly ["line"%string;
    (if is_one_sided l then "one-sided" else if is_two_sided l then "two-sided" else "zero-sided")%string] (route_class l).
Proof.
  intros l. unfold is_one_sided, is_two_sided. split.
  - constructor; [|constructor; [intros []|constructor]]. intros [H|[]]. revert H.
    destruct (ln_front l), (ln_back l); cbn; discriminate.
  - intros c. destruct (ln_front l) as [f|] eqn:Ef, (ln_back l) as [b|] eqn:Eb; cbn [is_some Bool.eqb negb andb In]; (split;
      [intros [<-|[<-|[]]]; [constructor|]
      |intros H; inversion H; subst; try congruence; auto]).
    + apply rc_both; congruence.
    + apply rc_front; congruence.
    + apply rc_back; congruence.
    + apply rc_none; congruence.
Qed.

Lemma index_at : forall {A} (l : list A) h v, index l h = Ok v -> (0 <= h)%Z /\ nth_error l (Z.to_nat h) = Some v.
Proof.
  intros A l h v H. unfold index in H. destruct ((0 <=? h)%Z && (h <? zlen l)%Z) eqn:E; [|discriminate].
  apply andb_true_iff in E. destruct E as [E _]. apply Z.leb_le in E. destruct (nth_error l (Z.to_nat h)); inv H. auto.
Qed.

Lemma lines_drawn : forall m polygons refs, route_input m = Ok (polygons, refs) ->
  exists ls, omap (route_line_shape m) (g_lines m) = Ok ls /\ Forall2 (route_line_drawn m) (g_lines m) ls.
Proof.
  intros m polygons refs H. unfold route_input in H. bind H sectors Es. bind H lines El. clear H Es. revert lines El.
  induction (g_lines m) as [|l ls IH]; intros lines El; cbn [omap] in *; [exists []; split; [reflexivity|constructor]|].
  bind El x Ex. bind El xs Exs. inv El. destruct (IH xs Exs) as (ss & E & F). unfold line_input in Ex. bind Ex v0 E0. bind Ex v1 E1. inv Ex.
  unfold route_line_shape at 1. rewrite E0. cbn [obind]. rewrite E1. cbn [obind]. rewrite E. cbn [obind]. eexists. split; [reflexivity|].
  constructor; [|exact F]. unfold bound_start, bound_end, map_vertex in E0, E1. apply index_at in E0, E1.
  eexists _, _, _. split; [exact E0|]. split; [exact E1|]. split; [reflexivity|apply line_classes].
Qed.

(** ** All of it *)

Lemma counterclockwise_total : forall c, pointed c -> exists r, counterclockwise c = Ok r.
Proof.
  intros c P. unfold counterclockwise, clockwise. destruct (c_cache c); [eexists; reflexivity|]. unfold pointed in P.
  destruct (c_points c); [contradiction|]. eexists. reflexivity.
Qed.

Lemma input_lengths : forall m polygons refs, route_input m = Ok (polygons, refs) -> length polygons = length refs.
Proof.
  intros m polygons refs H. unfold route_input in H. bind H sectors Es. bind H lines El. inv H.
  apply omap_ok in Es, El. apply Forall2_len in Es, El. rewrite !app_length, !map_length in *. lia.
Qed.

Section Paths.
  Variable refs : list polygon_ref.
  Variable result : polygon.
  Variable dist : list nat.
  Variable d : Z.
  Hypothesis HP : forall c, In c result -> pointed c.
  Hypothesis HF : forall c, In c result -> length (c_from c) = length refs.
  Hypothesis HH : forall c h, In c result -> In h (c_holes c) -> exists hc, nth_error result h = Some hc.
  Hypothesis HD : length dist = length result.

  Definition path_of (i : nat) (c : contour) (p : route_path) : Prop :=
    rp_contour p = i /\ contour_drawn result c (rp_d p) /\ origins_shown refs c (rp_origin p)
    /\ exists k, nth_error dist i = Some k /\ rp_fill p = distance_colour (Z.of_nat k) d.

  Lemma one_path : forall i c, nth_error result i = Some c ->
    exists ps, route_contour_path refs result dist d (i, c) = Ok ps
      /\ ((c_external c = false /\ ps = []) \/ (c_external c = true /\ exists p, ps = [p] /\ path_of i c p)).
  Proof using HP HF HH HD.
    intros i c Hi. pose proof (nth_error_In _ _ Hi) as Hc. unfold route_contour_path.
    destruct (counterclockwise_total c (HP c Hc)) as [r Er]. rewrite Er. cbn [obind].
    destruct (c_external c) eqn:Ee; cbn [negb]; [|eexists; split; [reflexivity|]; left; auto].
    destruct (holes_path result (c_holes c)) as (ds & hcs & E1 & E2 & E3 & E4).
    { intros h Hh. destruct (HH c h Hc Hh) as [hc Hhc]. exists hc. split; [exact Hhc|]. apply HP. eapply nth_error_In, Hhc. }
    destruct (contour_path_draws c (concat ds) (HP c Hc) E3) as (dd & F1 & _ & F2).
    rewrite F1. cbn [obind]. rewrite E1. cbn [obind].
    destruct (origins_total refs c (HF c Hc)) as (rs & G1 & G2). rewrite G1. cbn [obind].
    assert (L : (i < length dist)%nat) by (rewrite HD; apply nth_error_Some; congruence).
    destruct (nth_error_lt dist i L) as [k Hk]. unfold index_nat. rewrite Hk. cbn [obind].
    eexists. split; [reflexivity|]. right. split; [reflexivity|]. eexists. split; [reflexivity|].
    unfold path_of. cbn [rp_contour rp_d rp_origin rp_fill]. split; [reflexivity|]. split; [|split; [exact G2|eauto]].
    exists hcs. split; [exact E2|]. cbn [flat_map]. rewrite F2. apply Permutation_app_head, E4.
  Qed.

  Lemma some_paths : forall n l, (forall j c, nth_error l j = Some c -> nth_error result (n + j) = Some c) ->
    exists pss, omap (route_contour_path refs result dist d) (enumerate_from n l) = Ok pss
      /\ StronglySorted lt (map rp_contour (concat pss))
      /\ (forall i, In i (map rp_contour (concat pss)) <-> exists j c, i = (n + j)%nat /\ nth_error l j = Some c /\ c_external c = true)
      /\ forall p, In p (concat pss) -> exists c, nth_error result (rp_contour p) = Some c /\ path_of (rp_contour p) c p.
  Proof using HP HF HH HD.
    intros n l. revert n. induction l as [|c l IH]; intros n Hl; cbn [enumerate_from omap].
    - exists []. cbn. split; [reflexivity|]. split; [constructor|]. split; [|intros p []].
      intros i. split; [intros []|]. intros (j & c & _ & H & _). destruct j; discriminate.
    - destruct (IH (S n)) as (pss & E & S & I & P).
      { intros j c' Hj. replace (Datatypes.S n + j)%nat with (n + Datatypes.S j)%nat by lia. apply Hl. exact Hj. }
      assert (Hn : nth_error result n = Some c) by (rewrite <- (Nat.add_0_r n); apply Hl; reflexivity).
      destruct (one_path n c Hn) as (ps & Ep & H). rewrite Ep. cbn [obind]. rewrite E. cbn [obind].
      exists (ps :: pss). split; [reflexivity|]. cbn [concat]. destruct H as [(Hx & ->)|(Hx & p & -> & Hp)]; cbn [app map].
      + split; [exact S|]. split; [|exact P]. intros i. rewrite I. split.
        * intros (j & c' & -> & Hj & Hc). exists (Datatypes.S j), c'. split; [lia|auto].
        * intros (j & c' & -> & Hj & Hc). destruct j as [|j]; [cbn in Hj; congruence|]. exists j, c'. split; [lia|auto].
      + pose proof Hp as (Hr & _). rewrite Hr. split; [|split].
        * constructor; [exact S|]. apply Forall_forall. intros i Hi. apply I in Hi. destruct Hi as (j & _ & -> & _). lia.
        * intros i. cbn [In]. rewrite I. split.
          -- intros [<-|(j & c' & -> & Hj & Hc)].
             ++ exists 0%nat, c. split; [lia|auto].
             ++ exists (Datatypes.S j), c'. split; [lia|auto].
          -- intros (j & c' & -> & Hj & Hc). destruct j as [|j]; [left; lia|]. right. exists j, c'. split; [lia|auto].
        * intros q [<-|Hq]; [|apply P, Hq]. exists c. rewrite Hr. auto.
  Qed.

  Lemma all_paths : exists pss, omap (route_contour_path refs result dist d) (enumerate result) = Ok pss
    /\ drawn_contours result (concat pss)
    /\ forall p c, In p (concat pss) -> nth_error result (rp_contour p) = Some c -> path_of (rp_contour p) c p.
  Proof using HP HF HH HD.
    destruct (some_paths 0 result) as (pss & E & S & I & P); [auto|]. exists pss. split; [exact E|]. split; [split; [exact S|]|].
    - intros i. rewrite I. split; [intros (j & c & -> & H); exists c; exact H|intros (c & H); exists i, c; auto].
    - intros p c Hp Hc. destruct (P p Hp) as (c' & Hc' & H). congruence.
  Qed.
End Paths.

Lemma route_decomposed : forall std fuel mode m result dist chunks, std_laws std -> floors_i16 m ->
  route std fuel mode m = Ok (result, (dist, chunks)) ->
  exists polygons refs start ls pss, route_input m = Ok (polygons, refs) /\ start_of m start
    /\ compute std fuel polygons Union = Ok result
    /\ Forall2 (route_line_drawn m) (g_lines m) ls /\ drawn_contours result (concat pss)
    /\ (forall i, nth_error dist i = Some 0%nat <-> (i < length result)%nat /\ ~ reached result start i)
    /\ (forall i k, nth_error dist i = Some (S k) <-> in_chunk chunks k i)
    /\ (forall p c, In p (concat pss) -> nth_error result (rp_contour p) = Some c ->
          path_of refs result dist (Z.of_nat (S (length chunks))) (rp_contour p) c p)
    /\ route_map_as_svg std fuel mode m = Ok (mk_route_document
        (f64_sub (r_x (map_bbox m)) (f64_of_Z 32), f64_sub (f64_neg (r_max_y (map_bbox m))) (f64_of_Z 32),
         f64_add (r_w (map_bbox m)) (f64_mul (f64_of_Z 32) (f64_of_Z 2)), f64_add (r_h (map_bbox m)) (f64_mul (f64_of_Z 32) (f64_of_Z 2)))
        (1, -1)%Z ls (concat pss)).
Proof.
  intros std fuel mode m result dist chunks SL F H. destruct (route_ok _ _ _ _ _ _ _ F H) as (polygons & refs & A & B & C).
  set (start := match find_player_start m with Some p => p | None => mk_point f64_zero f64_zero end) in *.
  destruct C as (C0 & C1 & C2 & _). cbn [fst snd] in *.
  destruct (lines_drawn m polygons refs A) as (ls & L1 & L2).
  destruct (all_paths refs result dist (Z.of_nat (S (length chunks)))) as (pss & P1 & P2 & P3).
  - eapply compute_pointed, B.
  - intros c Hc. destruct (compute_sources _ _ _ _ _ _ SL B Hc) as (E & _). rewrite E. eapply input_lengths, A.
  - intros c h Hc Hh. destruct (compute_hole_lists _ _ _ _ _ SL B) as (_ & E & _). destruct (In_nth_error _ _ Hc) as [i Hi].
    destruct (E i c h Hi Hh) as (_ & ch & Hch & _). eauto.
  - exact C0.
  - exists polygons, refs, start, ls, pss. split; [exact A|]. split; [unfold start_of, start; destruct (find_player_start m); auto|].
    split; [exact B|]. split; [exact L2|]. split; [exact P2|]. split; [|split; [exact C1|split; [exact P3|]]].
    + intros i. rewrite <- C0. split.
      * intros Hi. split; [apply nth_error_Some; congruence|]. intros R. apply C2 in R. destruct R as (k & ch & Hk & Hin).
        assert (E : nth_error dist i = Some (S k)) by (apply C1; exists ch; auto). congruence.
      * intros (Li & N). destruct (nth_error_lt dist i Li) as [[|k] Hk]; [exact Hk|]. destruct N. apply C2. apply C1 in Hk.
        destruct Hk as (ch & Hk). eauto.
    + unfold route_map_as_svg. rewrite A. cbn [obind]. rewrite L1. cbn [obind]. rewrite H. cbn [obind]. rewrite P1. reflexivity.
Qed.

Lemma distance_colours : forall k d,
  match k with
  | O => distance_colour (Z.of_nat k) d = DarkRed
  | S _ => exists h, distance_colour (Z.of_nat k) d = Hue h
  end.
Proof.
  intros [|k] d; [reflexivity|]. unfold distance_colour.
  destruct (Z.eqb_spec (Z.of_nat (S k)) (-1)); [lia|]. destruct (Z.eqb_spec (Z.of_nat (S k)) 0); [lia|]. eauto.
Qed.

(** C88. *)
Lemma route_drawing : forall std fuel mode m result dist chunks, std_laws std -> floors_i16 m ->
  route std fuel mode m = Ok (result, (dist, chunks)) ->
  exists d polygons refs start, route_map_as_svg std fuel mode m = Ok d
    /\ route_input m = Ok (polygons, refs) /\ compute std fuel polygons Union = Ok result /\ start_of m start
    /\ Forall2 (route_line_drawn m) (g_lines m) (rd_lines d)
    /\ drawn_contours result (rd_paths d)
    /\ forall p c, In p (rd_paths d) -> nth_error result (rp_contour p) = Some c ->
         contour_drawn result c (rp_d p) /\ origins_shown refs c (rp_origin p)
         /\ (rp_fill p = DarkRed <-> ~ reached result start (rp_contour p))
         /\ ((exists h, rp_fill p = Hue h) <-> exists k, in_chunk chunks k (rp_contour p)).
Proof.
  intros std fuel mode m result dist chunks SL F H.
  destruct (route_decomposed _ _ _ _ _ _ _ SL F H) as (polygons & refs & start & ls & pss & A & B & C & D & E & G1 & G2 & G3 & G4).
  eexists _, polygons, refs, start. split; [exact G4|]. cbn [rd_lines rd_paths]. do 5 (split; [assumption|]).
  intros p c Hp Hc. destruct (G3 p c Hp Hc) as (_ & P1 & P2 & k & P3 & P4). split; [exact P1|]. split; [exact P2|].
  assert (Li : (rp_contour p < length result)%nat) by (apply nth_error_Some; congruence).
  pose proof (distance_colours k (Z.of_nat (S (length chunks)))) as DC. rewrite P4. split; split.
  - intros Q. destruct k as [|k]; [apply G1, P3|]. destruct DC as [h DC]. congruence.
  - intros N. assert (Z0 : nth_error dist (rp_contour p) = Some 0%nat) by (apply G1; auto). rewrite P3 in Z0. injection Z0 as ->. exact DC.
  - intros (h & Q). destruct k as [|k]; [congruence|]. exists k. apply G2. exact P3.
  - intros (j & Hj). apply G2 in Hj. rewrite P3 in Hj. injection Hj as ->. exact DC.
Qed.

(** Nothing is drawn if there is no route. *)
Lemma route_no_drawing : forall std fuel mode m d, route_map_as_svg std fuel mode m = Ok d -> exists r, route std fuel mode m = Ok r.
Proof.
  intros std fuel mode m d H. unfold route_map_as_svg in H. bind H x E. destruct x as [ps refs]. bind H ls El. bind H y Er. eauto.
Qed.

(** C89. *)
Lemma never_red : forall std fuel mode m d p, route_map_as_svg std fuel mode m = Ok d -> In p (rd_paths d) -> rp_fill p <> Red.
Proof.
  intros std fuel mode m d p H Hp. unfold route_map_as_svg in H. bind H x E. destruct x as [ps refs]. bind H ls El. bind H y Er.
  destruct y as [result [dist chunks]]. bind H paths Ep. inv H. cbn [rd_paths] in Hp. apply omap_ok in Ep.
  apply in_concat in Hp. destruct Hp as (l & Hl & Hp). apply In_nth_error in Hl. destruct Hl as (n & Hn).
  destruct (MapSectorFacts.Forall2_nth _ _ _ _ _ Ep Hn) as ([i c] & _ & Q). unfold route_contour_path in Q.
  bind Q b Eb. destruct (negb (c_external c)); [inv Q; destruct Hp|]. bind Q data Ed. bind Q hs Eh. bind Q os Eo. bind Q k Ek. inv Q.
  destruct Hp as [<-|[]]. cbn [rp_fill]. pose proof (distance_colours k) as DC.
  destruct k as [|k]; [rewrite DC; discriminate|]. match goal with |- distance_colour _ ?d <> _ => destruct (DC d) as [h E1]; rewrite E1 end. discriminate.
Qed.

(** ** The view box *)

Local Open Scope Z_scope.

Lemma neg_is_int : forall f z, is_int f z -> is_int (f64_neg f) (- z).
Proof.
  intros f z (R & H). split; [lia|]. destruct z as [|q|q]; cbn [Z.opp]; [destruct H as [s ->]; exists (negb s); reflexivity| |]; rewrite H; apply int_neg.
Qed.

Lemma route_view : forall std fuel mode b m d, map_valid b -> from_bare b = Ok m -> route_map_as_svg std fuel mode m = Ok d ->
  m_vertices b <> [] ->
  exists x0 y0 x1 y1, tight vx (m_vertices b) x0 x1 /\ tight vy (m_vertices b) y0 y1
    /\ view_is SpecFloat64.int_valued (rd_view d) (x0 - 32, - y1 - 32, x1 - x0 + 64, y1 - y0 + 64)
    /\ forall v x y, In v (m_vertices b) -> Z.abs (x - vx v) <= 32 -> Z.abs (y - vy v) <= 32 ->
         visible (x0 - 32, - y1 - 32, x1 - x0 + 64, y1 - y0 + 64) (rd_scale d) (x, y).
Proof.
  intros std fuel mode b m d Hb Hm Hd Hne. rewrite from_bare_conv in Hm. injection Hm as <-.
  destruct (bbox_exact b Hb Hne) as (x0 & y0 & x1 & y1 & E & I0 & I1 & I2 & I3 & HX & HY).
  exists x0, y0, x1, y1. split; [exact HX|]. split; [exact HY|].
  unfold route_map_as_svg in Hd. rewrite E in Hd.
  bind Hd x Ex. destruct x as [ps refs]. bind Hd ls El. bind Hd y Er. destruct y as [result [dist chunks]]. bind Hd paths Ep. inv Hd.
  cbn [rd_view rd_scale r_x r_y r_w r_h]. split.
  - unfold view_is, is_i16 in *. unfold r_max_y. cbn [r_y r_h].
    assert (J : forall z, - 2 ^ 50 < z < 2 ^ 50 -> is_int (f64_of_Z z) z) by (intros z Hz; apply is_int_of_Z; lia).
    assert (M : is_int (f64_mul (f64_of_Z 32) (f64_of_Z 2)) 64) by (vm_compute; auto).
    assert (N : is_int (f64_neg (f64_add (f64_of_Z y0) (f64_of_Z (y1 - y0)))) (- y1)).
    { apply neg_is_int. replace y1 with (y0 + (y1 - y0)) at 2 by lia. apply add_int; [apply J|apply J|]; lia. }
    split; [apply is_int_valued, sub_int; [apply J|apply J|]; lia|].
    split; [apply is_int_valued, sub_int; [exact N|apply J|]; lia|].
    split; apply is_int_valued, add_int; try exact M; try apply J; lia.
  - intros v x y Hv Ax Ay. destruct HX as [HX _], HY as [HY _]. specialize (HX v Hv). specialize (HY v Hv). unfold visible. cbn [fst snd]. lia.
Qed.

Lemma route_view_empty : forall std fuel mode b m d, from_bare b = Ok m -> route_map_as_svg std fuel mode m = Ok d -> m_vertices b = [] ->
  view_is SpecFloat64.int_valued (rd_view d) (-32, -32, 64, 64).
Proof.
  intros std fuel mode b m d Hm Hd E. unfold route_map_as_svg in Hd. rewrite (bbox_empty b m Hm E) in Hd.
  bind Hd x Ex. destruct x as [ps refs]. bind Hd ls El. bind Hd y Er. destruct y as [result [dist chunks]]. bind Hd paths Ep. inv Hd.
  cbn [rd_view]. vm_compute. auto.
Qed.
