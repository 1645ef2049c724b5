(** The contours traced along the kept sides of tidy polygons, and which of them are
    neighbours. *)

From Coq Require Import List ZArith Bool Lia Arith Permutation Sorted.
From Verif Require Import Base Float Contours Sweep Compute SpecShape SpecOrder SpecIntersect SpecTurn SpecHandle SpecTidy SpecCompute
  SweepFacts TraceFacts ComputeFacts OrderFacts TurnFacts3 TurnSamples TidyGeo TidyParity TidySetup TidyLine TidyPackets TidySweep TidyFacts
  TidyCorner TidyPair TidyNext TidyWalk TidyTrace.
Import ListNotations.
Local Open Scope Z_scope.

Section Contours.
Variables (zs : list corners) (modes : list polygon_mode) (S : list bseg) (ks : list packet) (act sw : list bseg) (I : list bend).
Notation n := (length modes).
Notation E := (edges zs).
Notation eg := (eg (edges zs)).
Hypothesis (D : drawn E S) (V : inv zs S modes [] ks act sw) (Polys : forall s, In s S -> (e_poly (eg s) < n)%nat).
Hypothesis (PI : Permutation (flat_map (sides_of modes ks) sw) I) (II : increasing endpoint_cmp I).
Hypothesis (Short : forall e, In e E -> short (vsub (e_right e) (e_left e))).
Hypothesis (NE : covered modes zs).

Notation src := (src zs).
Notation dst := (dst zs).
Notation face := (face zs).
Notation walk := (walk zs S I).
Notation state := (state zs modes S I).
Notation traces := (traces zs modes S I).
Notation mistaken := (mistaken zs S I).

(** *** All contours *)

Lemma bend_dec : forall (e : bend) l, In e l \/ ~ In e l.
Proof using.
  intros e l. destruct (in_dec (fun x y : bend => ltac:(repeat decide equality) : {x = y} + {x <> y}) e l); auto.
Qed.

Lemma all_from : forall post pre ks' final Ts, I = pre ++ post -> traces pre ks' final Ts ->
  (exists ks'' final' Ts', ofold (trace_one S I) post (ks', final) = Ok (ks'', final') /\ traces I ks'' final' Ts')
  \/ (ofold (trace_one S I) post (ks', final) = Panic PUnwrap /\ mistaken).
Proof using D V Polys PI II Short NE.
  induction post as [|e post IH]; intros pre ks' final Ts Q Tr.
  - left. exists ks', final, Ts. split; [reflexivity|]. rewrite app_nil_r in Q. now rewrite <- Q in Tr.
  - cbn [ofold]. assert (Q' : I = (pre ++ [e]) ++ post) by (rewrite <- app_assoc; exact Q).
    destruct (bend_dec e (concat Ts)) as [Y|N].
    + destruct (step_done zs modes S ks act sw I D V Polys PI NE pre post e ks' final Ts Q Tr Y) as (R1 & R2). rewrite R1. cbn [obind].
      now apply (IH _ _ _ Ts Q').
    + destruct (step_new zs modes S ks act sw I D V Polys PI II Short NE pre post e ks' final Ts Q Tr N)
        as [(ks'' & final' & Ts' & R1 & R2)|(R1 & R2)]; rewrite R1; cbn [obind].
      * now apply (IH _ _ _ Ts' Q').
      * right. auto.
Qed.

Lemma all_traced : exists ks1, assign_indexes 0 I ks = Ok ks1 /\
  ((exists ks' final Ts, ofold (trace_one S I) I (ks1, []) = Ok (ks', final) /\ traces I ks' final Ts)
   \/ (ofold (trace_one S I) I (ks1, []) = Panic PUnwrap /\ mistaken)).
Proof using D V Polys PI II Short NE.
  destruct (state_start zs modes S ks act sw I D V Polys PI NE) as (ks1 & E1 & St). exists ks1. split; [exact E1|].
  apply (all_from I [] ks1 [] []); [reflexivity|]. constructor; auto; try (now constructor); intros; contradiction.
Qed.

(** *** Neighbours *)

(** Some segment has one end on the contour [i] and the other on [j]. *)
Definition touch (Ts : list (list bend)) (l : list bend) (i j : nat) : Prop :=
  exists s Ti Tj x, In s (map fst l) /\ nth_error Ts i = Some Ti /\ nth_error Ts j = Some Tj /\ In (s, x) Ti
    /\ In (s, match x with LeftEnd => RightEnd | RightEnd => LeftEnd end) Tj.

Definition square (r : polygon) (m : nat) : Prop := length r = m /\ forall c, In c r -> length (c_neighbors c) = m.

Lemma set_bit_ok : forall r m l x, square r m -> (l < m)%nat -> (x < m)%nat ->
  exists r', update_nat r l (fun c => let* b := bits_set (c_neighbors c) x true in Ok (set_neighbors c b)) = Ok r'.
Proof using.
  intros r m l x (L & F) Hl Hx. destruct (nth_error r l) as [c|] eqn:Q; [|apply nth_error_None in Q; lia].
  unfold update_nat. unfold index_nat. rewrite Q. cbn [obind]. unfold bits_set. rewrite (F c (nth_error_In _ _ Q)).
  destruct (Nat.ltb_spec x m); [|lia]. cbn [obind]. eauto.
Qed.

Lemma neighbours_from : forall ks' Ts, state ks' Ts -> NoDup (concat Ts) -> forall l : list bend, (forall d : bend, In d l -> In (fst d) S) -> forall r0 r pre,
  square r (length Ts) -> Forall2 all_but r0 r -> (forall i j, nb r i j = Some true <-> touch Ts pre i j) ->
  exists r', ofold (assign_neighbors ks') l r = Ok r' /\ square r' (length Ts) /\ Forall2 all_but r0 r'
    /\ forall i j, nb r' i j = Some true <-> touch Ts (pre ++ l) i j.
Proof using.
  intros ks' Ts St ND. induction l as [|e l IH]; intros HS r0 r pre Sq AB NB.
  - exists r. rewrite app_nil_r. split; [reflexivity|]. auto.
  - assert (Se : In (fst e) S) by (apply HS; now left). destruct (state_get _ _ _ _ ks' Ts (fst e) St Se) as (k & K1 & K2 & T1 & T2 & T3 & T4 & T5 & T6).
    assert (Uniq : forall d i j Ti Tj, nth_error Ts i = Some Ti -> nth_error Ts j = Some Tj -> In d Ti -> In d Tj -> i = j).
    { clear - ND. induction Ts as [|T Ts IHT]; intros d i j Ti Tj Hi Hj Di Dj; [destruct i; discriminate|]. cbn [concat] in ND.
      assert (Nx : forall c T', nth_error Ts c = Some T' -> In d T' -> ~ In d T).
      { intros c T' Hc Dc DT. apply in_split in DT. destruct DT as (a & b & ->). rewrite <- app_assoc in ND. cbn in ND. apply NoDup_remove_2 in ND.
        apply ND. apply in_or_app. right. apply in_or_app. right. apply in_concat. exists T'. split; [eapply nth_error_In; eassumption|exact Dc]. }
      assert (ND' : NoDup (concat Ts)) by (clear - ND; induction T as [|x T IH]; [exact ND|]; inversion ND; auto).
      destruct i as [|i], j as [|j]; cbn in Hi, Hj; [reflexivity| | |f_equal; eapply (IHT ND'); eassumption].
      - injection Hi as <-. exfalso. eapply Nx; eassumption.
      - injection Hj as <-. exfalso. eapply Nx; eassumption. }
    assert (At : forall x i Ti, nth_error Ts i = Some Ti -> In (fst e, x) Ti -> side_contour k x = Some i).
    { intros x i Ti Hi Hx. destruct (T5 x) as (c & Hc).
      - apply in_concat. exists Ti. split; [eapply nth_error_In; eassumption|exact Hx].
      - rewrite Hc. f_equal. destruct (T4 x c Hc) as (T & A1 & A2). eapply Uniq; eassumption. }
    assert (Go : exists r1, assign_neighbors ks' r e = Ok r1 /\ square r1 (length Ts) /\ Forall2 all_but r0 r1
      /\ forall i j, nb r1 i j = Some true <-> touch Ts (pre ++ [e]) i j).
    { unfold assign_neighbors. rewrite K1. cbn [obind].
      assert (More : forall i j, touch Ts (pre ++ [e]) i j <-> touch Ts pre i j \/ touch Ts [e] i j).
      { intros i j. unfold touch. rewrite map_app. setoid_rewrite in_app_iff. split.
        - intros (s & Ti & Tj & x & [H|H] & R); [left|right]; exists s, Ti, Tj, x; auto.
        - intros [(s & Ti & Tj & x & H & R)|(s & Ti & Tj & x & H & R)]; exists s, Ti, Tj, x; auto. }
      assert (One : forall i j, touch Ts [e] i j <-> exists x, side_contour k x = Some i
        /\ side_contour k (match x with LeftEnd => RightEnd | RightEnd => LeftEnd end) = Some j).
      { intros i j. split.
        - intros (s & Ti & Tj & x & [<-|[]] & H1 & H2 & H3 & H4). exists x. split; eapply At; eassumption.
        - intros (x & H1 & H2). destruct (T4 _ _ H1) as (Ti & A1 & A2), (T4 _ _ H2) as (Tj & B1 & B2).
          exists (fst e), Ti, Tj, x. split; [now left|]. auto. }
      destruct (k_right_contour k) as [cr|] eqn:ER.
      2:{ exists r. split; [reflexivity|]. split; [exact Sq|]. split; [exact AB|]. intros i j. rewrite More, NB, One. split; [now left|].
          intros [H|(x & H1 & H2)]; [exact H|]. destruct x; cbn in H1, H2; congruence. }
      destruct (k_left_contour k) as [cl|] eqn:EL.
      2:{ exists r. split; [reflexivity|]. split; [exact Sq|]. split; [exact AB|]. intros i j. rewrite More, NB, One. split; [now left|].
          intros [H|(x & H1 & H2)]; [exact H|]. destruct x; cbn in H1, H2; congruence. }
      assert (Lr : (cr < length Ts)%nat).
      { destruct (T4 RightEnd cr ER) as (T & A & _). apply nth_error_Some. congruence. }
      assert (Ll : (cl < length Ts)%nat).
      { destruct (T4 LeftEnd cl EL) as (T & A & _). apply nth_error_Some. congruence. }
      destruct (set_bit_ok r (length Ts) cl cr Sq Ll Lr) as (r1 & R1). rewrite R1. cbn [obind].
      destruct (set_bit r r1 cl cr) as (B1 & B2 & B3 & B4 & B5 & B6); [rewrite (proj1 Sq); apply Sq|exact R1|].
      assert (Sq1 : square r1 (length Ts)) by (split; [rewrite B2; apply Sq|rewrite (proj1 Sq) in B3; exact B3]).
      destruct (set_bit_ok r1 (length Ts) cr cl Sq1 Lr Ll) as (r2 & R2). rewrite R2.
      destruct (set_bit r1 r2 cr cl) as (C1 & C2 & C3 & C4 & C5 & C6); [rewrite (proj1 Sq1); apply Sq1|exact R2|].
      exists r2. split; [reflexivity|]. split; [split; [rewrite C2; apply Sq1|rewrite (proj1 Sq1) in C3; exact C3]|].
      split; [eapply all_but_trans; [|exact C1]; eapply all_but_trans; eauto|].
      intros i j. rewrite C6, B6, More, <- NB, One. destruct (Nat.eqb i cr && Nat.eqb j cl) eqn:Q1.
      { apply andb_true_iff in Q1. rewrite !Nat.eqb_eq in Q1. destruct Q1 as [-> ->]. split; [|reflexivity]. intros _. right. exists RightEnd. auto. }
      destruct (Nat.eqb i cl && Nat.eqb j cr) eqn:Q2.
      { apply andb_true_iff in Q2. rewrite !Nat.eqb_eq in Q2. destruct Q2 as [-> ->]. split; [|reflexivity]. intros _. right. exists LeftEnd. auto. }
      split; [now left|]. intros [H|(x & H1 & H2)]; [exact H|exfalso]. destruct x; cbn in H1, H2; rewrite ER, EL in *; injection H1 as <-; injection H2 as <-;
        rewrite ?Nat.eqb_refl in Q1; rewrite ?Nat.eqb_refl in Q2; discriminate. }
    destruct Go as (r1 & R1 & R2 & R3 & R4). cbn [ofold]. rewrite R1. cbn [obind].
    destruct (IH (fun d H => HS d (or_intror H)) r0 r1 (pre ++ [e]) R2 R3 R4) as (r' & X). exists r'. rewrite <- app_assoc in X. exact X.
Qed.

Lemma neighbours_all : forall ks' final Ts, traces I ks' final Ts ->
  exists r, ofold (assign_neighbors ks') I (map (fun c => set_neighbors c (c_neighbors c ++ repeat false (length final))) final) = Ok r
    /\ Forall2 all_but final r /\ square r (length Ts) /\ forall i j, nb r i j = Some true <-> touch Ts I i j.
Proof using D V Polys PI NE.
  intros ks' final Ts [A1 A2 A3 A4 A5 A6 A7 A8]. assert (L : length Ts = length final) by (now apply Forall2_len in A7).
  destruct (neighbours_from ks' Ts A1 A4 I) with (r0 := final) (pre := @nil bend) (r := map (fun c => set_neighbors c (c_neighbors c ++ repeat false (length final))) final)
    as (r & R1 & R2 & R3 & R4).
  - apply (kept_seg zs modes S ks act sw I D V Polys PI NE).
  - split; [now rewrite map_length|]. intros c Hc. apply in_map_iff in Hc. destruct Hc as (c0 & <- & Hc0). cbn.
    assert (N : c_neighbors c0 = []).
    { apply In_nth_error in Hc0. destruct Hc0 as (i & Hi). destruct (Forall2_nth_l _ _ _ _ _ A7 Hi) as (T & _ & H). apply H. }
    rewrite N. cbn. rewrite repeat_length. now symmetry.
  - apply map_grow.
  - intros i j. split.
    + intros H. exfalso. unfold nb in H. rewrite nth_error_map in H. destruct (nth_error final i) as [c|] eqn:Hi; cbn in H; [|discriminate].
      destruct (Forall2_nth_l _ _ _ _ _ A7 Hi) as (T & _ & Sh). destruct Sh as (_ & _ & N & _). rewrite N in H. cbn in H.
      apply nth_error_In, repeat_spec in H. discriminate.
    + intros (s & Ti & Tj & x & [] & _).
  - exists r. auto.
Qed.
End Contours.
