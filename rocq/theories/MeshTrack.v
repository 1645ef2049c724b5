(** Points on a line, a whole number of steps apart. *)

From Coq Require Import List ZArith QArith Bool Arith Lia ZifyBool Sorted.
From Verif Require Import Base SpecShape SpecOrder SpecIntersect SpecHandle SpecTidy SpecOverlay SpecCross SpecGrid SpecSlope CrossSetup GridCut GridLines CrossAgain AgainEdges.
From Coq Require Import Lqa.
Import ListNotations.
Local Open Scope Z_scope.

Lemma minus_Q : forall u v, (inject_Z (u - v) == inject_Z u - inject_Z v)%Q.
Proof. intros. unfold Zminus. rewrite inject_Z_plus, inject_Z_opp. reflexivity. Qed.

Section Track.
  Variable a : Z * Z.
  Variables d1 d2 : Z.
  Hypothesis Hd : d1 <> 0 \/ d2 <> 0.

  Definition pt (t : Z) : Z * Z := (fst a + t * d1, snd a + t * d2).
  Definition at_s (s x y : Q) : Prop := (x == inject_Z (fst a) + s * inject_Z d1)%Q /\ (y == inject_Z (snd a) + s * inject_Z d2)%Q.

  Lemma pt_inj : forall i j, pt i = pt j -> i = j.
  Proof using Hd. intros i j H. unfold pt in H. injection H as H1 H2. destruct Hd; nia. Qed.

  Lemma nonzero_q : (~ inject_Z d1 == 0)%Q \/ (~ inject_Z d2 == 0)%Q.
  Proof using Hd. destruct Hd as [H|H]; [left|right]; intros E; change 0%Q with (inject_Z 0) in E; apply H; now apply inj_eq. Qed.

  Lemma at_unique : forall s s' x y x' y', at_s s x y -> at_s s' x' y' -> (x == x')%Q -> (y == y')%Q -> (s == s')%Q.
  Proof using Hd.
    intros s s' x y x' y' [A B] [C D] E F. rewrite A, C in E. rewrite B, D in F. destruct nonzero_q as [N|N].
    - apply (Qmult_inj_r _ _ (inject_Z d1)); [exact N|]. lra.
    - apply (Qmult_inj_r _ _ (inject_Z d2)); [exact N|]. lra.
  Qed.

  Lemma pt_at : forall t, at_s (inject_Z t) (inject_Z (fst (pt t))) (inject_Z (snd (pt t))).
  Proof using. clear. intros t. unfold pt, at_s. cbn [fst snd]. rewrite !inject_Z_plus, !inject_Z_mult. split; reflexivity. Qed.
  Lemma pt_where : forall t x y, at_s (inject_Z t) x y <-> is_at (pt t) x y.
  Proof using. clear. intros t x y. unfold at_s, is_at, pt. cbn [fst snd]. rewrite !inject_Z_plus, !inject_Z_mult. reflexivity. Qed.

  Lemma span : forall i j x y, i < j -> on_segment (pt i) (pt j) x y <-> exists s, (inject_Z i <= s)%Q /\ (s <= inject_Z j)%Q /\ at_s s x y.
  Proof using Hd.
    intros i j x y L. assert (N : (0 < inject_Z j - inject_Z i)%Q) by (rewrite Zlt_Qlt in L; lra). unfold on_segment, at_s, pt. cbn [fst snd]. split.
    - intros (t & T0 & T1 & X & Y). exists (inject_Z i + t * (inject_Z j - inject_Z i))%Q. split; [nra|]. split; [nra|].
      rewrite !minus_Q, !inject_Z_plus, !inject_Z_mult in X, Y. split; [rewrite X|rewrite Y]; ring.
    - intros (s & S0 & S1 & X & Y). exists ((s - inject_Z i) / (inject_Z j - inject_Z i))%Q. split; [apply Qle_shift_div_l; lra|]. split; [apply Qle_shift_div_r; lra|].
      rewrite !minus_Q, !inject_Z_plus, !inject_Z_mult. split; [rewrite X|rewrite Y]; field; lra.
  Qed.

  Definition rises : bool := match lex_z (0, 0) (d1, d2) with Lt => true | _ => false end.
  Lemma pt_lex : forall i j, i < j -> lex_z (pt i) (pt j) = if rises then Lt else Gt.
  Proof using Hd.
    intros i j L. unfold rises, lex_z, pt. cbn [fst snd]. destruct (Z.compare_spec 0 d1) as [C|C|C].
    - subst d1. replace (fst a + i * 0 ?= fst a + j * 0) with Eq by (symmetry; apply Z.compare_eq_iff; lia).
      destruct (Z.compare_spec 0 d2) as [E|E|E]; [destruct Hd; lia|apply Z.compare_lt_iff; nia|apply Z.compare_gt_iff; nia].
    - replace (fst a + i * d1 ?= fst a + j * d1) with Lt by (symmetry; apply Z.compare_lt_iff; nia). reflexivity.
    - replace (fst a + i * d1 ?= fst a + j * d1) with Gt by (symmetry; apply Z.compare_gt_iff; nia). reflexivity.
  Qed.

  Definition bit (k : nat) (i j : Z) : edge := if rises then mk_edge k (pt i) (pt j) else mk_edge k (pt j) (pt i).
  Lemma bit_edge : forall k i j, i < j -> left_to_right k (pt i, pt j) = [bit k i j].
  Proof using Hd. intros k i j L. unfold left_to_right, bit. cbn [fst snd]. rewrite pt_lex by exact L. now destruct rises. Qed.
  Lemma bit_of : forall k i j, i < j -> edge_of (k, (pt i, pt j)) = bit k i j.
  Proof using Hd. intros k i j L. unfold edge_of, bit. cbn [fst snd]. rewrite pt_lex by exact L. now destruct rises. Qed.
  Lemma bit_on : forall k i j x y, i < j -> on_segment (e_left (bit k i j)) (e_right (bit k i j)) x y <-> exists s, (inject_Z i <= s)%Q /\ (s <= inject_Z j)%Q /\ at_s s x y.
  Proof using Hd.
    intros k i j x y L. rewrite <- span by exact L. unfold bit. destruct rises; cbn [e_left e_right]; [reflexivity|]. split; apply segment_swap.
  Qed.
  Lemma bit_ends : forall k i j v, is_end v (bit k i j) <-> v = pt i \/ v = pt j.
  Proof using. clear. intros k i j v. unfold is_end, bit. destruct rises; cbn [e_left e_right]; tauto. Qed.
  Lemma bit_poly : forall k i j, e_poly (bit k i j) = k.
  Proof using. clear. intros. unfold bit. now destruct rises. Qed.
  Lemma bit_lex : forall k i j, i < j -> lex_z (e_left (bit k i j)) (e_right (bit k i j)) = Lt.
  Proof using Hd.
    intros k i j L. pose proof (pt_lex i j L) as X. unfold bit. destruct rises; cbn [e_left e_right]; [exact X|]. revert X. generalize (pt i) (pt j). clear. intros [a1 a2] [b1 b2] L. unfold lex_z in *. cbn [fst snd] in *. rewrite (Z.compare_antisym a1 b1), (Z.compare_antisym a2 b2).
    destruct (a1 ?= b1) eqn:C1, (a2 ?= b2) eqn:C2; cbn in *; congruence.
  Qed.

  Lemma bit_inside : forall k i j x y, i < j -> inside_edge (bit k i j) x y <-> exists s, (inject_Z i < s)%Q /\ (s < inject_Z j)%Q /\ at_s s x y.
  Proof using Hd.
    intros k i j x y L. assert (N : (0 < inject_Z j - inject_Z i)%Q) by (rewrite Zlt_Qlt in L; lra). unfold inside_edge, bit, at_s, pt. destruct rises; cbn [e_left e_right fst snd]; split.
    - intros (t & T0 & T1 & X & Y). exists (inject_Z i + t * (inject_Z j - inject_Z i))%Q. split; [nra|]. split; [nra|].
      rewrite !minus_Q, !inject_Z_plus, !inject_Z_mult in X, Y. split; [rewrite X|rewrite Y]; ring.
    - intros (s & S0 & S1 & X & Y). exists ((s - inject_Z i) / (inject_Z j - inject_Z i))%Q. split; [apply Qlt_shift_div_l; lra|]. split; [apply Qlt_shift_div_r; lra|].
      rewrite !minus_Q, !inject_Z_plus, !inject_Z_mult. split; [rewrite X|rewrite Y]; field; lra.
    - intros (t & T0 & T1 & X & Y). exists (inject_Z j - t * (inject_Z j - inject_Z i))%Q. split; [nra|]. split; [nra|].
      rewrite !minus_Q, !inject_Z_plus, !inject_Z_mult in X, Y. split; [rewrite X|rewrite Y]; ring.
    - intros (s & S0 & S1 & X & Y). exists ((inject_Z j - s) / (inject_Z j - inject_Z i))%Q. split; [apply Qlt_shift_div_l; lra|]. split; [apply Qlt_shift_div_r; lra|].
      rewrite !minus_Q, !inject_Z_plus, !inject_Z_mult. split; [rewrite X|rewrite Y]; field; lra.
  Qed.

  (** *** All along *)
  Variable ts : list Z.
  Hypothesis Hts : StronglySorted Z.lt ts.

  Lemma track_edges : forall k, route_edges (k, map pt ts) = map (fun s => bit k (fst s) (snd s)) (steps ts).
  Proof using Hd Hts.
    intros k. unfold route_edges. cbn [fst snd]. rewrite steps_map. assert (A : forall s, In s (steps ts) -> fst s < snd s) by (intros s I; apply (steps_lt ts s Hts I)). revert A. generalize (steps ts). clear - Hd.
    induction l as [|s l IH]; intros A; [reflexivity|]. cbn [map flat_map]. rewrite IH by (intros; apply A; now right). rewrite bit_edge by (apply A; now left). reflexivity.
  Qed.

  Lemma track_forward : forward (map pt ts) \/ forward (rev (map pt ts)).
  Proof using Hd Hts.
    assert (F : forall (R : Z * Z -> Z * Z -> Prop) l, StronglySorted R l -> (forall a b, R a b -> lex_z a b = Lt) -> forward l).
    { clear. intros R l S H. induction S as [|b l S IH F]; [exact I|]. destruct l as [|c l]; [exact I|]. inversion F; subst. split; [now apply H|exact IH]. }
    assert (M : forall R : Z * Z -> Z * Z -> Prop, (forall i j, i < j -> R (pt i) (pt j)) -> StronglySorted R (map pt ts)).
    { intros R H. clear - Hts H. induction Hts as [|b l S IH F]; [constructor|]. cbn [map]. constructor; [exact (IH S)|]. rewrite Forall_forall in *. intros v V. apply in_map_iff in V. destruct V as (t & <- & T). auto. }
    assert (Rv : forall (R : Z * Z -> Z * Z -> Prop) l, StronglySorted R l -> StronglySorted (fun a b => R b a) (rev l)).
    { clear. intros R l S. assert (App : forall (R : Z * Z -> Z * Z -> Prop) l v, StronglySorted R l -> Forall (fun u => R u v) l -> StronglySorted R (l ++ [v])).
      { clear. intros R l v S. induction S as [|b l S IH F]; intros A; [repeat constructor|]. inversion A; subst. cbn [app]. constructor; [now apply IH|]. apply Forall_app. split; [exact F|]. now repeat constructor. }
      induction S as [|b l S IH F]; [constructor|]. cbn [rev]. apply App; [exact IH|]. rewrite Forall_forall in *. intros u U. apply F. now apply in_rev. }
    destruct rises eqn:E.
    - left. apply (F (fun u v => lex_z u v = Lt)); [|auto]. apply M. intros i j L. rewrite pt_lex, E by exact L. reflexivity.
    - right. apply (F (fun u v => lex_z v u = Gt)); [apply (Rv (fun u v => lex_z u v = Gt)), M; intros i j L; rewrite pt_lex, E by exact L; reflexivity|].
      clear. intros [a1 a2] [b1 b2] L. unfold lex_z in *. cbn [fst snd] in *. rewrite (Z.compare_antisym b1 a1), (Z.compare_antisym b2 a2). destruct (b1 ?= a1) eqn:C1, (b2 ?= a2) eqn:C2; cbn in *; congruence.
  Qed.

  (** A point of the track that is on a bit of it is an end of the bit. *)
  Lemma track_end : forall k s t x y, In s (steps ts) -> In t ts -> is_at (pt t) x y -> on_segment (e_left (bit k (fst s) (snd s))) (e_right (bit k (fst s) (snd s))) x y -> is_end (pt t) (bit k (fst s) (snd s)).
  Proof using Hd Hts.
    intros k s t x y S T A O. destruct (steps_lt ts s Hts S) as (L & _ & _). apply bit_on in O; [|exact L]. destruct O as (u & U0 & U1 & U). apply pt_where in A.
    pose proof (at_unique _ _ _ _ _ _ A U ltac:(reflexivity) ltac:(reflexivity)) as E. rewrite <- E in U0, U1. rewrite <- Zle_Qle in U0, U1. apply bit_ends.
    destruct (steps_between ts s t Hts S T (conj U0 U1)) as [-> | ->]; auto.
  Qed.

  Lemma track_ends : forall k, ForallOrdPairs only_ends (route_edges (k, map pt ts)).
  Proof using Hd Hts.
    intros k. rewrite track_edges. assert (O : forall l, StronglySorted Z.lt l -> ForallOrdPairs (fun s s' : Z * Z => snd s <= fst s') (steps l)).
    { clear. induction l as [|b [|c l] IH]; intros S; [constructor|constructor|]. rewrite steps_cons. inversion S as [|? ? S' F]; subst. constructor; [|now apply IH]. rewrite Forall_forall. intros s I. cbn [snd].
      destruct (steps_lt _ s S' I) as (_ & J & _). destruct J as [<-|J]; [lia|]. inversion S' as [|? ? _ F']; subst. rewrite Forall_forall in F'. specialize (F' _ J). lia. }
    specialize (O ts Hts).
    assert (Sub : forall l, (forall s, In s l -> In s (steps ts)) -> ForallOrdPairs (fun s s' : Z * Z => snd s <= fst s') l -> ForallOrdPairs only_ends (map (fun s => bit k (fst s) (snd s)) l)).
    { clear O. induction l as [|s l IH]; intros I O; [constructor|]. inversion O as [|? ? O1 O2]; subst. cbn [map]. constructor; [|apply IH; [intros; apply I; now right|exact O2]].
      rewrite Forall_forall in *. intros f Hf. apply in_map_iff in Hf. destruct Hf as (s' & <- & Hs). specialize (O1 s' Hs). intros x y [A B].
      destruct (steps_lt ts s Hts (I s (or_introl eq_refl))) as (L & _ & _). destruct (steps_lt ts s' Hts (I s' (or_intror Hs))) as (L' & _ & _).
      apply bit_on in A, B; try assumption. destruct A as (u & U0 & U1 & U), B as (w & W0 & W1 & W). pose proof (at_unique _ _ _ _ _ _ U W ltac:(reflexivity) ltac:(reflexivity)) as E.
      assert (E1 : snd s = fst s') by (assert (X : (inject_Z (fst s') <= inject_Z (snd s))%Q) by lra; rewrite <- Zle_Qle in X; lia).
      exists (pt (snd s)). rewrite !bit_ends. split; [now right|]. split; [left; now rewrite E1|]. apply pt_where. destruct U as [U2 U3]. assert (Eu : (u == inject_Z (snd s))%Q) by (rewrite E1 in *; lra).
      split; [rewrite U2, Eu|rewrite U3, Eu]; reflexivity. }
    now apply Sub.
  Qed.
  Lemma track_arrive : forall k pre t post, ts = pre ++ t :: post -> pre <> [] -> post <> [] -> exists e, In e (route_edges (k, map pt ts)) /\ e_right e = pt t /\ exists i j, i < j /\ e = bit k i j /\ In i ts /\ In j ts.
  Proof using Hd Hts.
    intros k pre t post E N1 N2. rewrite track_edges. destruct rises eqn:Ri.
    - destruct (steps_before ts pre t post E N1) as (b & B). exists (bit k b t). split; [apply in_map_iff; exists (b, t); now split|]. split; [unfold bit; now rewrite Ri|].
      destruct (steps_lt ts _ Hts B) as (L & I1 & I2). exists b, t. auto.
    - assert (B : exists b, In (t, b) (steps ts)).
      { destruct post as [|b post]; [congruence|]. exists b. rewrite E. destruct pre as [|c pre]; [congruence|]. destruct (exists_last N1) as (p & z & Ez). rewrite Ez, <- app_assoc. cbn [app]. rewrite steps_app. apply in_or_app. right. rewrite !steps_cons. right. now left. }
      destruct B as (b & B). exists (bit k t b). split; [apply in_map_iff; exists (t, b); now split|]. split; [unfold bit; now rewrite Ri|].
      destruct (steps_lt ts _ Hts B) as (L & I1 & I2). exists t, b. auto.
  Qed.
End Track.
