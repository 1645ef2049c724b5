(** Pieces of straight edges: where ends lie, and how longer pieces of the same lines compare. *)

From Coq Require Import List ZArith QArith Bool Arith Lia Lqa.
From Verif Require Import Base Float SpecShape SpecOrder SpecIntersect SpecHandle SpecTidy SpecContainers Geometry Sweep
  Contours Compute OrderFacts TidyGeo TidyParity TidySetup.
Import ListNotations.

(** *** Directions *)

Lemma dir_sign : forall l r1 r2 z, lex_z l r1 = Lt -> lex_z l r2 = Lt -> orient l r1 r2 = 0%Z ->
  Z.sgn (orient l r1 z) = Z.sgn (orient l r2 z).
Proof.
  intros [lx ly] [ax ay] [bx by_] [zx zy] H1 H2 O. apply lex_lt in H1, H2. unfold orient in *. cbn [fst snd] in *.
  set (u := (ax - lx)%Z) in *. set (u' := (ay - ly)%Z) in *. set (w := (bx - lx)%Z) in *. set (w' := (by_ - ly)%Z) in *.
  set (x := (zx - lx)%Z). set (y := (zy - ly)%Z).
  assert (H1' : (0 < u \/ (u = 0 /\ 0 < u'))%Z) by (clear O; unfold u, u'; lia). assert (H2' : (0 < w \/ (w = 0 /\ 0 < w'))%Z) by (clear O; unfold w, w'; lia).
  clearbody u u' w w' x y. clear - O H1' H2'. assert (Q : (u * w' = u' * w)%Z) by lia. destruct H1' as [U|[U U']].
  - destruct H2' as [W|[W W']]; [|subst w; nia].
    assert (I : ((u * y - u' * x) * w = (w * y - w' * x) * u)%Z) by (transitivity (u * y * w - (u' * w) * x)%Z; [ring|rewrite <- Q; ring]).
    rewrite <- (Z.mul_1_r (Z.sgn (u * y - u' * x))), <- (Z.sgn_pos w W), <- Z.sgn_mul, I, Z.sgn_mul, (Z.sgn_pos u U). ring.
  - subst u. assert (w = 0%Z) by nia. subst w. destruct H2' as [W|[_ W']]; [lia|].
    assert (I : ((0 * y - u' * x) * w' = (0 * y - w' * x) * u')%Z) by ring.
    rewrite <- (Z.mul_1_r (Z.sgn (0 * y - u' * x))), <- (Z.sgn_pos w' W'), <- Z.sgn_mul, I, Z.sgn_mul, (Z.sgn_pos u' U'). ring.
Qed.

Lemma orient_swap : forall a b c, orient a b c = (- orient a c b)%Z.
Proof. intros. unfold orient. ring. Qed.
Lemma orient_same : forall a b, orient a b b = 0%Z.
Proof. intros. unfold orient. ring. Qed.
Lemma orient_start : forall a b, orient a b a = 0%Z.
Proof. intros. unfold orient. ring. Qed.

Lemma sgn_ltb : forall a b, Z.sgn a = Z.sgn b -> (0 <? a)%Z = (0 <? b)%Z.
Proof. intros [|a|a] [|b|b] H; try discriminate; reflexivity. Qed.
Lemma sgn_eqb : forall a b, Z.sgn a = Z.sgn b -> (a =? 0)%Z = (b =? 0)%Z.
Proof. intros [|a|a] [|b|b] H; try discriminate; reflexivity. Qed.
Lemma sgn_cmp : forall a b, Z.sgn a = Z.sgn b -> (a ?= 0)%Z = (b ?= 0)%Z.
Proof. intros [|a|a] [|b|b] H; try discriminate; reflexivity. Qed.

(** Two steps along one line. *)
Lemma straight_on : forall a b c d, lex_z b c = Lt -> orient a b c = 0%Z -> orient b c d = 0%Z -> orient a b d = 0%Z.
Proof.
  intros [ax ay] [bx by_] [cx cy] [dx dy] H O1 O2. apply lex_lt in H. unfold orient in *. cbn [fst snd] in *.
  set (u := (bx - ax)%Z) in *. set (u' := (by_ - ay)%Z) in *. set (w := (cx - bx)%Z) in *. set (w' := (cy - by_)%Z) in *.
  set (x := (dx - bx)%Z) in *. set (x' := (dy - by_)%Z) in *.
  replace (cy - ay)%Z with (u' + w')%Z in O1 by (unfold u', w'; lia). replace (cx - ax)%Z with (u + w)%Z in O1 by (unfold u, w; lia).
  replace (dy - ay)%Z with (u' + x')%Z by (unfold u', x'; lia). replace (dx - ax)%Z with (u + x)%Z by (unfold u, x; lia).
  assert (H' : (w <> 0 \/ w' <> 0)%Z) by (clear O1 O2; unfold w, w'; lia). clearbody u u' w w' x x'. clear - O1 O2 H'.
  assert (Q1 : (u * w' = u' * w)%Z) by lia. assert (Q2 : (w * x' = w' * x)%Z) by lia.
  assert (G : (u * x' = u' * x)%Z); [|lia]. destruct H' as [W|W].
  - apply (Z.mul_reg_r _ _ w W). transitivity (u * (w * x'))%Z; [ring|]. rewrite Q2. transitivity (u * w' * x)%Z; [ring|]. rewrite Q1. ring.
  - apply (Z.mul_reg_r _ _ w' W). transitivity (u * w' * x')%Z; [ring|]. rewrite Q1. transitivity (u' * (w * x'))%Z; [ring|]. rewrite Q2. ring.
Qed.

Section Drawn.
Variables (E : list edge) (S : list bseg).
Hypothesis D : drawn E S.
Notation eg := (eg E).
Notation L s := (e_left (eg s)).
Notation R s := (e_right (eg s)).
Notation together := (together E).

(** *** Where the right end of a segment lies *)

Lemma end_off : forall a c, In a S -> In c S -> same_ends (eg a) (eg c) = false -> together a c -> lex_z (R a) (R c) = Lt ->
  orient (L c) (R c) (R a) <> 0%Z.
Proof using D.
  intros a c Ha Hc SE [T1 T2] H O. destruct (seg_spec _ _ D c Hc) as (_ & _ & Lc & _).
  destruct (apart_end (eg a) (eg c) _ _ (pairs_apart _ _ D a c Ha Hc SE) (on_right _)) as (v & V1 & V2 & X & Y).
  - apply on_line; auto; [now apply lex_lt_not|]. now apply lex_lt_not.
  - apply point_ext in X; [|exact Y]. subst v. destruct V2 as [Q|Q]; rewrite Q, lex_refl in *; discriminate.
Qed.

Lemma start_off : forall a c, In a S -> In c S -> same_ends (eg a) (eg c) = false -> lex_z (L c) (L a) = Lt -> lex_z (L a) (R c) = Lt ->
  orient (L c) (R c) (L a) <> 0%Z.
Proof using D.
  intros a c Ha Hc SE H1 H2 O. destruct (seg_spec _ _ D c Hc) as (_ & _ & Lc & _).
  destruct (apart_end (eg a) (eg c) _ _ (pairs_apart _ _ D a c Ha Hc SE) (on_left _)) as (v & V1 & V2 & X & Y).
  - apply on_line; auto; now apply lex_lt_not.
  - apply point_ext in X; [|exact Y]. subst v. destruct V2 as [Q|Q]; rewrite Q, lex_refl in *; discriminate.
Qed.

Lemma later_sloped : forall a c, In a S -> In c S -> same_ends (eg a) (eg c) = false -> together a c -> lex_z (R a) (R c) = Lt -> sloped (eg c).
Proof using D.
  intros a c Ha Hc SE T H. pose proof (end_off a c Ha Hc SE T H) as O. destruct T as [T1 T2]. destruct (seg_spec _ _ D c Hc) as (_ & _ & Lc & _).
  unfold lr in Lc. apply lex_lt in Lc, T2, H. unfold sloped. destruct Lc as [Lc|[Lc _]]; [exact Lc|exfalso].
  apply O. unfold orient. assert (fst (R a) = fst (L c)) by lia. rewrite <- Lc, H0. ring.
Qed.

(** An upright segment cannot have a flat one pass through it. *)
Lemma upright_pass : forall a c, In a S -> In c S -> same_ends (eg a) (eg c) = false -> sloped (eg c) -> fst (L a) = fst (R a) ->
  lex_z (L c) (L a) = Lt -> lex_z (R a) (R c) = Lt -> (orient (L c) (R c) (L a) < 0)%Z -> (0 < orient (L c) (R c) (R a))%Z -> False.
Proof using D.
  intros a c Ha Hc SE Sc V H1 H2 O1 O2. destruct (seg_spec _ _ D a Ha) as (_ & _ & La & _).
  apply orient_below in O1; [|exact Sc]. apply orient_above in O2; [|exact Sc]. rewrite <- V in O2.
  unfold lr in La. pose proof La as La'. apply lex_lt in La'. apply lex_lt in H1, H2.
  destruct (apart_end (eg a) (eg c) (inject_Z (fst (L a))) (yat (eg c) (inject_Z (fst (L a)))) (pairs_apart _ _ D a c Ha Hc SE)) as (v & V1 & V2 & X & Y).
  - apply on_upright; auto; try (apply Qlt_le_weak; assumption); [reflexivity|lia].
  - apply on_sloped; [exact Sc|rewrite <- Zle_Qle; lia..].
  - destruct V1 as [V1|V1]; subst v; rewrite Y in *; [|]; lra.
Qed.

Lemma end_under : forall a c, In a S -> In c S -> same_ends (eg a) (eg c) = false -> together a c -> sc a c = Lt -> lex_z (R a) (R c) = Lt ->
  (orient (L c) (R c) (R a) < 0)%Z.
Proof using D.
  intros a c Ha Hc SE T H HR. pose proof (end_off a c Ha Hc SE T HR) as O. pose proof (later_sloped a c Ha Hc SE T HR) as Sc.
  destruct (Z.lt_trichotomy (orient (L c) (R c) (R a)) 0) as [G|[G|G]]; [exact G|contradiction|exfalso].
  rewrite (sc_apart _ _ D a c) in H by assumption. destruct T as [T1 T2].
  destruct (seg_spec _ _ D a Ha) as (_ & _ & La & _), (seg_spec _ _ D c Hc) as (_ & _ & Lc & _).
  pose proof (pairs_apart _ _ D a c Ha Hc SE) as A. unfold lr in La. pose proof La as La'. apply lex_lt in La'.
  pose proof HR as HR'. apply lex_lt in HR'. pose proof T1 as T1'. apply lex_lt in T1'. pose proof T2 as T2'. apply lex_lt in T2'.
  destruct (lex_z (L a) (L c)) eqn:EL.
  - apply lex_eq in EL. destruct (0 <? orient (L a) (R a) (R c))%Z eqn:O'; [|discriminate]. apply Z.ltb_lt in O'.
    unfold orient in *. rewrite EL in *. nia.
  - destruct (0 <? orient (L a) (R a) (L c))%Z eqn:O'; [|discriminate]. apply Z.ltb_lt in O'. apply lex_lt in EL.
    destruct La' as [La'|[V _]].
    + assert (Sa : sloped (eg a)) by exact La'. apply orient_above in O'; [|exact Sa]. rewrite <- (yat_left (eg c)) in O'.
      apply orient_above in G; [|exact Sc]. rewrite <- (yat_right (eg a) Sa) in G.
      pose proof (same_side (eg a) (eg c) (xl (eg c)) (xr (eg a)) A Sa Sc) as Q. pose proof (sloped_q _ Sa). pose proof (sloped_q _ Sc).
      assert (Q' : (yat (eg a) (xr (eg a)) <= yat (eg c) (xr (eg a)))%Q) by (apply Q; try exact O'; rewrite <- ?Zle_Qle; lia). lra.
    + unfold orient in O'. rewrite V in O'. assert (fst (L c) = fst (R a)) by lia. rewrite H0 in O'. lia.
  - destruct (0 <? orient (L c) (R c) (L a))%Z eqn:O'; [discriminate|]. apply Z.ltb_ge in O'. apply lex_gt in EL.
    pose proof (start_off a c Ha Hc SE EL T1) as O2. assert (O3 : (orient (L c) (R c) (L a) < 0)%Z) by lia.
    destruct La' as [La'|[V _]]; [|now apply (upright_pass a c)].
    assert (Sa : sloped (eg a)) by exact La'. apply orient_below in O3; [|exact Sc]. rewrite <- (yat_left (eg a)) in O3.
    apply orient_above in G; [|exact Sc]. rewrite <- (yat_right (eg a) Sa) in G. apply lex_lt in EL.
    pose proof (same_side (eg a) (eg c) (xl (eg a)) (xr (eg a)) A Sa Sc) as Q.
    assert (Q' : (yat (eg a) (xr (eg a)) <= yat (eg c) (xr (eg a)))%Q) by (apply Q; try exact O3; rewrite <- ?Zle_Qle; lia). lra.
Qed.

Lemma upright_pass2 : forall a c, In a S -> In c S -> same_ends (eg a) (eg c) = false -> sloped (eg c) -> fst (L a) = fst (R a) ->
  (0 < orient (L c) (R c) (L a))%Z -> (orient (L c) (R c) (R a) < 0)%Z -> False.
Proof using D.
  intros a c Ha Hc SE Sc V O1 O2. destruct (seg_spec _ _ D a Ha) as (_ & _ & La & _). apply lex_lt in La.
  unfold sloped in Sc. unfold orient in *. nia.
Qed.

Lemma end_over : forall a c, In a S -> In c S -> same_ends (eg a) (eg c) = false -> together a c -> sc c a = Lt -> lex_z (R a) (R c) = Lt ->
  (0 < orient (L c) (R c) (R a))%Z.
Proof using D.
  intros a c Ha Hc SE T H HR. pose proof (end_off a c Ha Hc SE T HR) as O. pose proof (later_sloped a c Ha Hc SE T HR) as Sc.
  destruct (Z.lt_trichotomy (orient (L c) (R c) (R a)) 0) as [G|[G|G]]; [exfalso|contradiction|exact G].
  assert (SE' : same_ends (eg c) (eg a) = false) by (now rewrite same_sym). pose proof T as [T1 T2].
  rewrite (sc_apart _ _ D c a) in H by (auto; now split).
  destruct (seg_spec _ _ D a Ha) as (_ & _ & La & _), (seg_spec _ _ D c Hc) as (_ & _ & Lc & _).
  pose proof (pairs_apart _ _ D a c Ha Hc SE) as A. pose proof (pairs_apart _ _ D c a Hc Ha SE') as A'. unfold lr in La. pose proof La as La'. apply lex_lt in La'.
  pose proof HR as HR'. apply lex_lt in HR'. pose proof T1 as T1'. apply lex_lt in T1'. pose proof T2 as T2'. apply lex_lt in T2'.
  destruct (lex_z (L c) (L a)) eqn:EL.
  - destruct (0 <? orient (L c) (R c) (R a))%Z eqn:O'; [|discriminate]. apply Z.ltb_lt in O'. lia.
  - destruct (0 <? orient (L c) (R c) (L a))%Z eqn:O'; [|discriminate]. apply Z.ltb_lt in O'. apply lex_lt in EL.
    destruct La' as [La'|[V _]]; [|now apply (upright_pass2 a c)].
    assert (Sa : sloped (eg a)) by exact La'. apply orient_above in O'; [|exact Sc]. rewrite <- (yat_left (eg a)) in O'.
    apply orient_below in G; [|exact Sc]. rewrite <- (yat_right (eg a) Sa) in G.
    pose proof (same_side (eg c) (eg a) (xl (eg a)) (xr (eg a)) A' Sc Sa) as Q.
    assert (Q' : (yat (eg c) (xr (eg a)) <= yat (eg a) (xr (eg a)))%Q) by (apply Q; try exact O'; rewrite <- ?Zle_Qle; lia). lra.
  - destruct (0 <? orient (L a) (R a) (L c))%Z eqn:O'; [discriminate|]. apply Z.ltb_ge in O'. apply lex_gt in EL.
    pose proof (start_off c a Hc Ha SE' EL T2) as O2. assert (O3 : (orient (L a) (R a) (L c) < 0)%Z) by lia. apply lex_lt in EL.
    destruct La' as [La'|[V _]].
    + assert (Sa : sloped (eg a)) by exact La'. apply orient_below in O3; [|exact Sa]. rewrite <- (yat_left (eg c)) in O3.
      apply orient_below in G; [|exact Sc]. rewrite <- (yat_right (eg a) Sa) in G.
      pose proof (same_side (eg c) (eg a) (xl (eg c)) (xr (eg a)) A' Sc Sa) as Q.
      assert (Q' : (yat (eg c) (xr (eg a)) <= yat (eg a) (xr (eg a)))%Q) by (apply Q; try exact O3; rewrite <- ?Zle_Qle; lia). lra.
    + unfold orient in O3. rewrite V in O3. assert (fst (L c) = fst (R a)) by lia. rewrite H0 in O3. lia.
Qed.
End Drawn.
