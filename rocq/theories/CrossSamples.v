(** A check that polygons are cut well, and a sample: two squares and a triangle that cross. *)

From Coq Require Import List ZArith QArith Bool Arith Lia Lqa.
From Verif Require Import Base Float Geometry Sweep Contours Compute SpecShape SpecOrder SpecIntersect SpecHandle SpecTidy SpecFloat64
  OrderFacts TidyGeo ShapeSamples TidySamples CrossPieces StdRef SpecOverlay SpecFollow OverlaySamples FollowSamples SpecCross.
Import ListNotations.
Local Open Scope Z_scope.

(** *** Crossings *)

Lemma on_orient : forall a b x y, on_segment a b x y ->
  (inject_Z (fst b - fst a) * (y - inject_Z (snd a)) == inject_Z (snd b - snd a) * (x - inject_Z (fst a)))%Q.
Proof. intros a b x y (t & _ & _ & T3 & T4). rewrite T3, T4. ring. Qed.

Lemma once : forall a b c d x y x' y', vcross (vsub b a) (vsub d c) <> 0 -> on_both a b c d x y -> on_both a b c d x' y' -> same_point x y x' y'.
Proof.
  intros a b c d x y x' y' N [A C] [A' C']. apply on_orient in A, C, A', C'. unfold vcross, vsub in N. cbn [fst snd] in N.
  set (p := fst b - fst a) in *. set (q := snd b - snd a) in *. set (r := fst d - fst c) in *. set (s := snd d - snd c) in *.
  assert (N' : ~ (inject_Z p * inject_Z s - inject_Z q * inject_Z r == 0)%Q).
  { intros X. apply N. apply inject_inj. unfold Zminus. rewrite inject_Z_plus, inject_Z_opp, !inject_Z_mult. exact X. }
  assert (X1 : (inject_Z p * (y - y') == inject_Z q * (x - x'))%Q) by lra. assert (X2 : (inject_Z r * (y - y') == inject_Z s * (x - x'))%Q) by lra.
  assert (Y1 : ((inject_Z p * inject_Z s - inject_Z q * inject_Z r) * (x - x') == 0)%Q).
  { transitivity (inject_Z p * (inject_Z s * (x - x')) - inject_Z r * (inject_Z q * (x - x')))%Q; [ring|]. rewrite <- X1, <- X2. ring. }
  assert (Y2 : ((inject_Z p * inject_Z s - inject_Z q * inject_Z r) * (y - y') == 0)%Q).
  { transitivity (inject_Z s * (inject_Z p * (y - y')) - inject_Z q * (inject_Z r * (y - y')))%Q; [ring|]. rewrite X1, X2. ring. }
  apply Qmult_integral in Y1, Y2. destruct Y1 as [Y1|Y1]; [now elim N'|]. destruct Y2 as [Y2|Y2]; [now elim N'|]. split; lra.
Qed.

Definition cmp_eqb (c d : comparison) : bool := match c, d with Eq, Eq | Lt, Lt | Gt, Gt => true | _, _ => false end.
Definition onb (e : edge) (v : Z * Z) : bool :=
  cmp_eqb (lex_z (e_left e) (e_right e)) Lt && (orient (e_left e) (e_right e) v =? 0) && negb (cmp_eqb (lex_z v (e_left e)) Lt) && negb (cmp_eqb (lex_z (e_right e) v) Lt).
Lemma onb_ok : forall e v, onb e v = true -> on_segment (e_left e) (e_right e) (inject_Z (fst v)) (inject_Z (snd v)).
Proof.
  intros e v H. unfold onb in H. rewrite !andb_true_iff, !negb_true_iff, Z.eqb_eq in H. destruct H as (((H1 & H2) & H3) & H4).
  apply on_line; [destruct (lex_z (e_left e) (e_right e)) eqn:X; try discriminate; exact X|exact H2| |].
  - intros X. now rewrite X in H3.
  - intros X. now rewrite X in H4.
Qed.

Definition float_eqb (a b : f64) : bool :=
  match a, b with
  | S754_zero s, S754_zero s' => Bool.eqb s s'
  | S754_infinity s, S754_infinity s' => Bool.eqb s s'
  | S754_nan, S754_nan => true
  | S754_finite s m e, S754_finite s' m' e' => Bool.eqb s s' && Pos.eqb m m' && Z.eqb e e'
  | _, _ => false
  end.
Lemma float_eqb_ok : forall a b, float_eqb a b = true -> a = b.
Proof.
  intros [s|s| |s m e] [s'|s'| |s' m' e'] H; cbn in H; try discriminate; try reflexivity.
  - apply eqb_prop in H. now subst.
  - apply eqb_prop in H. now subst.
  - rewrite !andb_true_iff in H. destruct H as ((H1 & H2) & H3). apply eqb_prop in H1. apply Pos.eqb_eq in H2. apply Z.eqb_eq in H3. now subst.
Qed.
Definition findsb (e f : edge) (v : Z * Z) : bool :=
  match intersect_segments (int_point (e_left e), int_point (e_right e)) (int_point (e_left f), int_point (e_right f)) with
  | IPoint p => float_eqb (px p) (px (int_point v)) && float_eqb (py p) (py (int_point v))
  | _ => false
  end.
Lemma findsb_ok : forall e f v, findsb e f v = true -> finds e f v.
Proof.
  intros e f v H. unfold findsb in H. unfold finds. destruct (intersect_segments _ _) as [|[x y]|]; try discriminate. apply andb_true_iff in H. destruct H as [H1 H2].
  apply float_eqb_ok in H1, H2. cbn [px py int_point] in H1, H2. unfold int_point. now rewrite H1, H2.
Qed.

Definition endb (v : Z * Z) (e : edge) : bool := z_eqb v (e_left e) || z_eqb v (e_right e).
Definition crossb (e f : edge) (v : Z * Z) : bool :=
  onb e v && onb f v && negb (vcross (vsub (e_right e) (e_left e)) (vsub (e_right f) (e_left f)) =? 0) && negb (endb v e && endb v f) && findsb e f v && findsb f e v.
Lemma crossb_ok : forall e f v, crossb e f v = true -> crosses e f v.
Proof.
  intros e f v H. unfold crossb in H. rewrite !andb_true_iff, !negb_true_iff, Z.eqb_neq in H. destruct H as (((((H1 & H2) & H3) & H4) & H5) & H6).
  assert (B : on_both (e_left e) (e_right e) (e_left f) (e_right f) (inject_Z (fst v)) (inject_Z (snd v))) by (split; now apply onb_ok).
  split; [split; [exact B|intros x y B'; now apply (once _ _ _ _ _ _ _ _ H3 B' B)]|]. split; [|split; now apply findsb_ok].
  assert (G : forall g, is_end v g -> endb v g = true).
  { intros g Hg. unfold endb. assert (Z0 : forall u, z_eqb u u = true) by (intros u; unfold z_eqb; now rewrite !Z.eqb_refl). destruct Hg as [<-| <-]; rewrite Z0; [reflexivity|apply orb_true_r]. }
  intros [X1 X2]. now rewrite (G e X1), (G f X2) in H4.
Qed.

Definition fitb (vs : list (Z * Z)) (e f : edge) : bool := coincideb e f || apartb e f || existsb (crossb e f) vs.
Lemma fitb_ok : forall vs e f, fitb vs e f = true -> fit e f.
Proof.
  intros vs e f H. unfold fitb in H. rewrite !orb_true_iff in H. destruct H as [[H|H]|H].
  - left. unfold coincideb in H. rewrite !andb_true_iff, negb_true_iff, Nat.eqb_neq in H. destruct H as ((C1 & C2) & C3). apply z_eqb_eq in C1, C2. split; auto.
  - right. left. now apply apartb_ok.
  - right. right. apply existsb_exists in H. destruct H as (v & _ & H). exists v. now apply crossb_ok.
Qed.

(** *** Polygons cut well *)

Fixpoint forwardb (l : list (Z * Z)) : bool :=
  match l with
  | a :: ((b :: _) as l') => cmp_eqb (lex_z a b) Lt && forwardb l'
  | _ => true
  end.
Lemma forwardb_ok : forall l, forwardb l = true -> forward l.
Proof.
  induction l as [|a l IH]; intros H; [exact I|]. destruct l as [|b l]; [exact I|]. cbn [forwardb] in H. apply andb_true_iff in H. destruct H as [H1 H2].
  split; [destruct (lex_z a b); auto; discriminate|now apply IH].
Qed.
Definition straightb (l : list (Z * Z)) : bool :=
  (forwardb l || forwardb (rev l)) && forallb (fun a => forallb (fun b => forallb (fun c => orient a b c =? 0) l) l) l.
Lemma straightb_ok : forall l, straightb l = true -> straight l.
Proof.
  intros l H. apply andb_true_iff in H. destruct H as [H1 H2]. split.
  - apply orb_true_iff in H1. destruct H1 as [H1|H1]; [left|right]; now apply forwardb_ok.
  - intros a b c Ha Hb Hc. rewrite forallb_forall in H2. specialize (H2 a Ha). cbv beta in H2. rewrite forallb_forall in H2. specialize (H2 b Hb). cbv beta in H2. rewrite forallb_forall in H2. specialize (H2 c Hc). now apply Z.eqb_eq.
Qed.

Fixpoint stretches (i : nat) (l : list (Z * Z)) : list edge :=
  match l with
  | [] => []
  | a :: l' => flat_map (fun b => left_to_right i (a, b)) l' ++ stretches i l'
  end.
Lemma stretches_ok : forall r e, stretch r e -> In e (stretches (fst r) (snd r)).
Proof.
  intros [i l] e (pre & a & mid & b & post & Q & H). cbn [fst snd] in *. subst l. induction pre as [|x pre IH]; cbn [app stretches]; apply in_or_app.
  - left. apply in_flat_map. exists b. split; [apply in_or_app; right; now left|exact H].
  - right. exact IH.
Qed.

Fixpoint othersb {A} (f : A -> A -> bool) (seen l : list A) : bool :=
  match l with
  | [] => true
  | x :: l' => forallb (fun y => f x y && f y x) l' && othersb f (x :: seen) l'
  end.
Lemma othersb_ok : forall {A} (f : A -> A -> bool) l seen, othersb f seen l = true ->
  forall j k a b, nth_error l j = Some a -> nth_error l k = Some b -> j <> k -> f a b = true.
Proof.
  intros A f. induction l as [|x l IH]; intros seen H j k a b Ha Hb N; [destruct j; discriminate|]. cbn [othersb] in H. apply andb_true_iff in H. destruct H as [H1 H2]. rewrite forallb_forall in H1.
  destruct j as [|j], k as [|k]; cbn [nth_error] in Ha, Hb.
  - now elim N.
  - injection Ha as <-. apply nth_error_In, H1 in Hb. now apply andb_true_iff in Hb.
  - injection Hb as <-. apply nth_error_In, H1 in Ha. now apply andb_true_iff in Ha.
  - apply (IH _ H2 j k); auto.
Qed.

Definition inner_points (l : list (Z * Z)) : list (Z * Z) := match l with [] => [] | _ :: t => removelast t end.
Definition cut_wellb (ms : list (list (list mark))) : bool :=
  let vs := flat_map (fun r => inner_points (snd r)) (routes ms) in
  tidyb (marked ms) && forallb (fun r => straightb (snd r)) (routes ms)
  && othersb (fun r r' => forallb (fun e => forallb (fitb vs e) (stretches (fst r') (snd r'))) (stretches (fst r) (snd r))) [] (routes ms)
  && forallb (fun v => (2 <=? arrivals (marked ms) v)%nat) vs.
Lemma cut_wellb_ok : forall ms, cut_wellb ms = true -> cut_well ms.
Proof.
  intros ms H. unfold cut_wellb in H. cbv zeta in H. rewrite !andb_true_iff in H. destruct H as (((H1 & H2) & H3) & H4). rewrite forallb_forall in H2, H4. constructor.
  - now apply tidyb_ok.
  - intros r Hr. apply straightb_ok. now apply H2.
  - intros j k r r' e f Hr Hr' N He Hf. pose proof (othersb_ok _ _ _ H3 j k r r' Hr Hr' N) as X. cbv beta in X. rewrite forallb_forall in X. specialize (X e (stretches_ok _ _ He)). rewrite forallb_forall in X.
    eapply fitb_ok, X. now apply stretches_ok.
  - intros r pre v post Hr Q N1 N2. apply Nat.leb_le. apply H4. apply in_flat_map. exists r. split; [exact Hr|]. rewrite Q. destruct pre as [|x pre]; [now elim N1|]. cbn [inner_points app].
    destruct (exists_last N2) as (p0 & y & ->). rewrite app_comm_cons, app_assoc, removelast_last. apply in_or_app. right. now left.
Qed.

(** *** Samples *)

(** Two squares, and a triangle cut out of the second; the points where they cross are marked. *)
Definition crossing_marks : list (list (list mark)) :=
  [[[((0, 0), []); ((10, 0), [(10, 5)]); ((10, 10), [(5, 10)]); ((0, 10), [])]];
   [[((5, 5), [(10, 5); (14, 5)]); ((15, 5), [(15, 6)]); ((15, 15), []); ((5, 15), [(5, 10)])]];
   [[((11, 2), [(14, 5); (15, 6)]); ((19, 10), []); ((19, 2), [])]]].
Definition shapes (zs : list corners) (modes : list polygon_mode) : input :=
  combine (map (map (fun l => set_points contour_new (map int_point l))) zs) modes.
Definition crossing_modes : list polygon_mode := [Normal; Normal; RemoveInterior].

Lemma crossing_cut : cut_well crossing_marks.
Proof. apply cut_wellb_ok. vm_compute. reflexivity. Qed.

Lemma shapes_points : forall zs modes, length zs = length modes -> Forall2 (fun p z => has_points (fst p) z) (shapes zs modes) zs /\ map snd (shapes zs modes) = modes.
Proof.
  unfold shapes. induction zs as [|z zs IH]; intros [|m modes] H; try discriminate; [split; constructor|]. cbn [map combine]. destruct (IH modes) as [I1 I2]; [now injection H|]. split.
  - constructor; [|exact I1]. cbn [fst]. unfold has_points. clear. induction z as [|l z IH]; cbn [map]; constructor; [reflexivity|exact IH].
  - cbn [map snd]. now rewrite I2.
Qed.

Definition crossing : input := shapes (plain crossing_marks) crossing_modes.
Definition crossing_lines : corners :=
  [[(0, 0); (10, 0); (10, 5); (5, 5); (5, 10); (0, 10)]; [(5, 5); (10, 5); (10, 10); (5, 10)];
   [(5, 10); (10, 10); (10, 5); (14, 5); (15, 6); (15, 15); (5, 15)]].
Lemma crossing_crossable : crossable crossing crossing_marks.
Proof.
  split; [apply shapes_points; reflexivity|]. split; [exact crossing_cut|]. split; [apply (compactb_ok 100); reflexivity|].
  apply plain_covered. cbn. intros [H|[H|[H|[]]]]; discriminate.
Qed.
Lemma crossing_result : compute std_ref 57 crossing Union = Ok (sample_contours crossing 57) /\ has_corners (sample_contours crossing 57) crossing_lines.
Proof. split; [vm_compute; reflexivity|]. apply z_points_at; [vm_compute; reflexivity|reflexivity]. Qed.

(** The same in another order, and some of it the other way round. *)
Definition crossed_marks : list (list (list mark)) :=
  [[[((19, 10), [(15, 6); (14, 5)]); ((11, 2), []); ((19, 2), [])]];
   [[((0, 0), []); ((10, 0), [(10, 5)]); ((10, 10), [(5, 10)]); ((0, 10), [])]];
   [[((15, 15), []); ((5, 15), [(5, 10)]); ((5, 5), [(10, 5); (14, 5)]); ((15, 5), [(15, 6)])]]].
Definition crossed : input := shapes (plain crossed_marks) [RemoveInterior; Normal; Normal].
Definition rotated (i : nat) : nat := ((i + 1) mod 3)%nat.
Lemma crossed_crossable : crossable crossed crossed_marks.
Proof.
  split; [apply shapes_points; reflexivity|]. split; [apply cut_wellb_ok; vm_compute; reflexivity|]. split; [apply (compactb_ok 100); reflexivity|].
  apply plain_covered. cbn. intros [H|[H|[H|[]]]]; discriminate.
Qed.
Lemma crossed_same : same_polygons rotated (marked crossing_marks) (marked crossed_marks).
Proof.
  split; [reflexivity|]. split; [|split].
  - intros i Hi. change (length (marked crossing_marks)) with 3%nat in *. destruct i as [|[|[|i]]]; cbn; lia.
  - intros i j Hi Hj. change (length (marked crossing_marks)) with 3%nat in *. destruct i as [|[|[|i]]], j as [|[|[|j]]]; cbn; lia.
  - apply permb_ok. vm_compute. reflexivity.
Qed.
Lemma crossed_modes : forall i, (i < length crossing)%nat -> nth_error (map snd crossed) (rotated i) = nth_error (map snd crossing) i.
Proof. intros [|[|[|i]]] H; try reflexivity. cbn in H. lia. Qed.
Lemma crossed_result : compute std_ref 57 crossed Union = Ok (sample_contours crossed 57) /\ has_corners (sample_contours crossed 57) crossing_lines.
Proof. split; [vm_compute; reflexivity|]. apply z_points_at; [vm_compute; reflexivity|reflexivity]. Qed.
