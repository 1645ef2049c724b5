(** Upright polygons on a grid are cut well by the points where their sides cross. *)

From Coq Require Import List ZArith Bool Lia QArith.
From Verif Require Import Base Float SpecFloat64 Geometry SpecShape ShapeFacts SpecOrder SpecIntersect SpecHandle SpecTidy SpecCross CrossSamples GridFacts CrossSetup CrossCover SpecGrid.
From Coq Require Import Lqa.
Import ListNotations.
Local Open Scope Z_scope.

Definition met (e f : edge) (v : Z * Z) : Prop := meet_at (e_left e) (e_right e) (e_left f) (e_right f) (inject_Z (fst v)) (inject_Z (snd v)).
Definition parted (e f : edge) : Prop := disjoint (e_left e) (e_right e) (e_left f) (e_right f).
Definition along (e f : edge) : Prop := overlap (e_left e) (e_right e) (e_left f) (e_right f).

Lemma both_swap : forall a b c d x y, on_both a b c d x y <-> on_both c d a b x y.
Proof. intros. unfold on_both. tauto. Qed.

Lemma met_swap : forall e f v, met e f v -> met f e v.
Proof. intros e f v [H K]. split; [now apply both_swap|]. intros x y On. apply K. now apply both_swap. Qed.
Lemma parted_swap : forall e f, parted e f -> parted f e.
Proof. intros e f H x y On. apply (H x y). now apply both_swap. Qed.

Lemma inj_eq : forall a b, (inject_Z a == inject_Z b)%Q -> a = b.
Proof. intros a b H. unfold Qeq in H. cbn in H. lia. Qed.

Lemma across_pair : forall g e f, grid_edge g e -> grid_edge g f -> level e -> plumb f -> parted e f \/ exists v, grid_point g v /\ met e f v.
Proof.
  intros g e f He Hf Le Pf. set (v := (fst (e_left f), snd (e_left e))).
  assert (D : (fst (e_left e) <= fst v <= fst (e_right e) /\ snd (e_left f) <= snd v <= snd (e_right f))
    \/ ~ (fst (e_left e) <= fst v <= fst (e_right e) /\ snd (e_left f) <= snd v <= snd (e_right f))) by lia.
  destruct D as [D|D].
  - right. exists v. split.
    + destruct (ge_left g e He) as (a & b & Ea & A & B), (ge_left g f Hf) as (c & d & Ec & C & D'). exists c, b. unfold v. rewrite Ea, Ec. auto.
    + unfold met, meet_at, on_both. split.
      * rewrite (on_level e _ _ Le), (on_plumb f _ _ Pf), <- !Zle_Qle. destruct D. repeat split; try tauto; reflexivity.
      * intros x y On. rewrite (on_level e _ _ Le), (on_plumb f _ _ Pf) in On. unfold same_point, v. cbn [fst snd]. tauto.
  - left. intros x y [O1 O2]. rewrite (on_level e _ _ Le) in O1. rewrite (on_plumb f _ _ Pf) in O2. apply D. unfold v. cbn [fst snd]. destruct O1 as (A & B & C), O2 as (A' & B' & C').
    rewrite C' in A, B. rewrite C in A', B'. rewrite !Zle_Qle. tauto.
Qed.

Lemma level_pair : forall e f, level e -> level f -> ~ along e f -> parted e f \/ exists v, is_end v e /\ is_end v f /\ met e f v.
Proof.
  intros e f Le Lf N. pose proof Le as [Le1 Le2]. pose proof Lf as [Lf1 Lf2].
  destruct (Z.eq_dec (snd (e_left e)) (snd (e_left f))) as [S|S].
  2:{ left. intros x y [O1 O2]. rewrite (on_level e _ _ Le) in O1. rewrite (on_level f _ _ Lf) in O2. apply S. apply inj_eq. destruct O1 as (_ & _ & <-), O2 as (_ & _ & <-). reflexivity. }
  destruct (Z_lt_le_dec (fst (e_right e)) (fst (e_left f))) as [C|C].
  { left. intros x y [O1 O2]. rewrite (on_level e _ _ Le) in O1. rewrite (on_level f _ _ Lf) in O2. rewrite Zlt_Qlt in C. lra. }
  destruct (Z_lt_le_dec (fst (e_right f)) (fst (e_left e))) as [C'|C'].
  { left. intros x y [O1 O2]. rewrite (on_level e _ _ Le) in O1. rewrite (on_level f _ _ Lf) in O2. rewrite Zlt_Qlt in C'. lra. }
  destruct (Z.eq_dec (fst (e_right e)) (fst (e_left f))) as [Q|Q].
  { right. exists (e_right e). split; [now right|]. split; [left; apply injective_projections; lia|]. unfold met, meet_at, on_both. split.
    - rewrite (on_level e _ _ Le), (on_level f _ _ Lf), <- !Zle_Qle, <- S, Le1. repeat split; lia || reflexivity.
    - intros x y On. rewrite (on_level e _ _ Le), (on_level f _ _ Lf), <- Q, <- S, Le1 in On. unfold same_point. split; [apply Qle_antisym; tauto|tauto]. }
  destruct (Z.eq_dec (fst (e_right f)) (fst (e_left e))) as [Q'|Q'].
  { right. exists (e_left e). split; [now left|]. split; [right; apply injective_projections; lia|]. unfold met, meet_at, on_both. split.
    - rewrite (on_level e _ _ Le), (on_level f _ _ Lf), <- !Zle_Qle, <- S. repeat split; lia || reflexivity.
    - intros x y On. rewrite (on_level e _ _ Le), (on_level f _ _ Lf), Q', <- S in On. unfold same_point. split; [apply Qle_antisym; tauto|tauto]. }
  exfalso. apply N. set (lo := Z.max (fst (e_left e)) (fst (e_left f))). set (hi := Z.min (fst (e_right e)) (fst (e_right f))).
  exists (inject_Z lo), (inject_Z (snd (e_left e))), (inject_Z hi), (inject_Z (snd (e_left e))). unfold on_both. rewrite !(on_level e _ _ Le), !(on_level f _ _ Lf), <- !Zle_Qle, <- S.
  split; [repeat split; (unfold lo, hi; lia) || reflexivity|]. split; [repeat split; (unfold lo, hi; lia) || reflexivity|].
  intros [E _]. apply inj_eq in E. unfold lo, hi in E. lia.
Qed.

Lemma plumb_pair : forall e f, plumb e -> plumb f -> ~ along e f -> parted e f \/ exists v, is_end v e /\ is_end v f /\ met e f v.
Proof.
  intros e f Pe Pf N. pose proof Pe as [Pe1 Pe2]. pose proof Pf as [Pf1 Pf2].
  destruct (Z.eq_dec (fst (e_left e)) (fst (e_left f))) as [S|S].
  2:{ left. intros x y [O1 O2]. rewrite (on_plumb e _ _ Pe) in O1. rewrite (on_plumb f _ _ Pf) in O2. apply S. apply inj_eq. destruct O1 as (_ & _ & <-), O2 as (_ & _ & <-). reflexivity. }
  destruct (Z_lt_le_dec (snd (e_right e)) (snd (e_left f))) as [C|C].
  { left. intros x y [O1 O2]. rewrite (on_plumb e _ _ Pe) in O1. rewrite (on_plumb f _ _ Pf) in O2. rewrite Zlt_Qlt in C. lra. }
  destruct (Z_lt_le_dec (snd (e_right f)) (snd (e_left e))) as [C'|C'].
  { left. intros x y [O1 O2]. rewrite (on_plumb e _ _ Pe) in O1. rewrite (on_plumb f _ _ Pf) in O2. rewrite Zlt_Qlt in C'. lra. }
  destruct (Z.eq_dec (snd (e_right e)) (snd (e_left f))) as [Q|Q].
  { right. exists (e_right e). split; [now right|]. split; [left; apply injective_projections; lia|]. unfold met, meet_at, on_both. split.
    - rewrite (on_plumb e _ _ Pe), (on_plumb f _ _ Pf), <- !Zle_Qle, <- S, Pe1. repeat split; lia || reflexivity.
    - intros x y On. rewrite (on_plumb e _ _ Pe), (on_plumb f _ _ Pf), <- Q, <- S, Pe1 in On. unfold same_point. split; [tauto|apply Qle_antisym; tauto]. }
  destruct (Z.eq_dec (snd (e_right f)) (snd (e_left e))) as [Q'|Q'].
  { right. exists (e_left e). split; [now left|]. split; [right; apply injective_projections; lia|]. unfold met, meet_at, on_both. split.
    - rewrite (on_plumb e _ _ Pe), (on_plumb f _ _ Pf), <- !Zle_Qle, <- S. repeat split; lia || reflexivity.
    - intros x y On. rewrite (on_plumb e _ _ Pe), (on_plumb f _ _ Pf), Q', <- S in On. unfold same_point. split; [tauto|apply Qle_antisym; tauto]. }
  exfalso. apply N. set (lo := Z.max (snd (e_left e)) (snd (e_left f))). set (hi := Z.min (snd (e_right e)) (snd (e_right f))).
  exists (inject_Z (fst (e_left e))), (inject_Z lo), (inject_Z (fst (e_left e))), (inject_Z hi). unfold on_both. rewrite !(on_plumb e _ _ Pe), !(on_plumb f _ _ Pf), <- !Zle_Qle, <- S.
  split; [repeat split; (unfold lo, hi; lia) || reflexivity|]. split; [repeat split; (unfold lo, hi; lia) || reflexivity|].
  intros [_ E]. apply inj_eq in E. unfold lo, hi in E. lia.
Qed.

Lemma end_dec : forall v e, is_end v e \/ ~ is_end v e.
Proof. intros v e. unfold is_end. assert (D : forall w u : Z * Z, {w = u} + {w <> u}) by (decide equality; apply Z.eq_dec). destruct (D v (e_left e)), (D v (e_right e)); tauto. Qed.

Lemma grid_fits : forall g e f, grid_edge g e -> grid_edge g f -> coincide e f \/ ~ along e f -> fit e f.
Proof.
  intros g e f He Hf [C|N]; [now left|]. right. pose proof (grid_tell g e f He Hf) as T.
  assert (A : parted e f \/ (exists v, is_end v e /\ is_end v f /\ met e f v) -> apart e f) by (intros [P|(v & A & B & C)]; (split; [exact T|]); [now left|right; exists v; auto]).
  destruct (ge_dir g e He) as [De|De], (ge_dir g f Hf) as [Df|Df].
  - left. apply A. now apply level_pair.
  - destruct (across_pair g e f He Hf De Df) as [P|(v & Gv & M)]; [left; auto|]. destruct (end_dec v e), (end_dec v f); [left; apply A; right; eauto| | |]; right; exists v; (split; [exact M|]; split; [tauto|]).
    all: split; [now apply (found_level g); [..|apply M]|apply (found_plumb g); try assumption; apply both_swap, M].
  - destruct (across_pair g f e Hf He Df De) as [P|(v & Gv & M)]; [left; apply A; left; now apply parted_swap|]. apply met_swap in M. destruct (end_dec v e), (end_dec v f); [left; apply A; right; eauto| | |]; right; exists v; (split; [exact M|]; split; [tauto|]).
    all: split; [now apply (found_plumb g); [..|apply M]|apply (found_level g); try assumption; apply both_swap, M].
  - left. apply A. now apply plumb_pair.
Qed.

(** Edges that have only ends in common do not run along each other. *)
Lemma ends_once : forall g e f, grid_edge g e -> grid_edge g f -> only_ends e f -> ~ along e f.
Proof.
  intros g e f He Hf O (x & y & x' & y' & H & H' & N).
  assert (M : on_both (e_left e) (e_right e) (e_left f) (e_right f) ((x + x') / 2) ((y + y') / 2)).
  { unfold on_both in *. assert (X : forall a b c, (a <= b -> a <= c -> a <= (b + c) / 2)%Q) by (intros; apply Qle_shift_div_l; lra).
    assert (X' : forall a b c, (b <= a -> c <= a -> (b + c) / 2 <= a)%Q) by (intros; apply Qle_shift_div_r; lra).
    assert (X'' : forall a b c, (b == a -> c == a -> (b + c) / 2 == a)%Q) by (intros a b c -> ->; field).
    destruct (ge_dir g e He) as [De|De], (ge_dir g f Hf) as [Df|Df]; rewrite ?(on_level e _ _ De), ?(on_plumb e _ _ De), ?(on_level f _ _ Df), ?(on_plumb f _ _ Df) in *;
      repeat split; first [apply X|apply X'|apply X'']; tauto. }
  apply N. destruct (O _ _ H) as (v & V & _ & Av1 & Av2), (O _ _ H') as (w & W & _ & Aw1 & Aw2), (O _ _ M) as (u & U & _ & Au1 & Au2).
  rewrite Av1, Aw1 in Au1. rewrite Av2, Aw2 in Au2. unfold same_point. rewrite Av1, Av2, Aw1, Aw2.
  assert (Q : forall a b c, ((inject_Z a + inject_Z b) / 2 == inject_Z c)%Q -> a + b = c + c).
  { intros a b c E. apply inj_eq. rewrite !inject_Z_plus. rewrite <- E. field. }
  apply Q in Au1, Au2. unfold is_end in *.
  assert (R : v = w); [|rewrite R; split; reflexivity].
  destruct V as [->| ->], W as [->| ->]; try reflexivity; exfalso; destruct U as [->| ->]; destruct (ge_dir g e He) as [[? ?]|[? ?]]; lia.
Qed.

(** *** The edges of the polygons, and the parts of their sides *)

Section Cut.
  Variable g : Z.
  Variable ms : list (list (list mark)).
  Hypothesis Hg : grid_cut g ms.

  Lemma route_edge : forall r a b e, In r (routes ms) -> In a (snd r) -> In b (snd r) -> In e (left_to_right (fst r) (a, b)) -> grid_edge g e.
  Proof using Hg.
    assert (D : forall a b, upright [a; b] -> lex_z a b = Lt -> forall i, level (mk_edge i a b) \/ plumb (mk_edge i a b)).
    { intros a b U L i. apply lex_lt in L. unfold level, plumb. cbn [e_left e_right]. destruct U as [U|U]; [pose proof (U a b (or_introl eq_refl) (or_intror (or_introl eq_refl)))|pose proof (U a b (or_introl eq_refl) (or_intror (or_introl eq_refl)))]; lia. }
    assert (P : forall r a b i, In r (routes ms) -> In a (snd r) -> In b (snd r) -> lex_z a b = Lt -> grid_edge g (mk_edge i a b)).
    { intros r a b i R A B L. constructor; [apply (grid_size g ms Hg)|exact (grid_points g ms Hg r a R A)|exact (grid_points g ms Hg r b R B)| |exact (grid_reach g ms Hg r R a b A B)].
      apply D; [|exact L]. destruct (grid_upright g ms Hg r R) as [U|U]; [left|right]; intros p q [<-|[<-|[]]] [<-|[<-|[]]]; now apply U. }
    intros r a b e R A B I. unfold left_to_right in I. cbn [fst snd] in I. destruct (lex_z a b) eqn:L; [destruct I| |]; destruct I as [<-|[]].
    - now apply (P r).
    - apply (P r); try assumption. destruct a as [a1 a2], b as [b1 b2]. unfold lex_z in *. cbn [fst snd] in *. rewrite (Z.compare_antisym a1 b1), (Z.compare_antisym a2 b2).
      destruct (a1 ?= b1) eqn:C1, (a2 ?= b2) eqn:C2; cbn in *; congruence.
  Qed.

  Lemma stretch_edge : forall r e, In r (routes ms) -> stretch r e -> grid_edge g e.
  Proof using Hg.
    intros r e R (pre & a & mid & b & post & E & I). apply (route_edge r a b); [exact R| | |exact I]; rewrite E; repeat (rewrite in_app_iff; cbn [In]); tauto.
  Qed.

  Lemma steps_in : forall (l : list (Z * Z)) a b, In (a, b) (steps l) -> In a l /\ In b l.
  Proof using.
    clear. induction l as [|c [|d l] IH]; intros a b H; [destruct H|destruct H|]. rewrite steps_cons in H. destruct H as [H|H]; [injection H as <- <-; cbn; auto|].
    destruct (IH a b H). split; now right.
  Qed.

  Lemma marked_edge : forall e, In e (edges (marked ms)) -> grid_edge g e.
  Proof using Hg.
    intros e H. unfold edges in H. rewrite marked_edges in H. apply in_flat_map in H. destruct H as (r & R & H). unfold route_edges in H. apply in_flat_map in H. destruct H as ([a b] & S & H).
    apply steps_in in S. destruct S. now apply (route_edge r a b).
  Qed.

  Lemma marked_point : forall z c v, In z (marked ms) -> In c z -> In v c -> exists r, In r (routes ms) /\ In v (snd r).
  Proof using.
    clear Hg. assert (C : forall c a v, In v (flat_map (fun m : mark => fst m :: snd m) c) -> exists l, In l (routes_to a c) /\ In v l).
    { induction c as [|[w l] c IH]; intros a v H; [destruct H|]. cbn [flat_map fst snd] in H. rewrite in_app_iff in H. destruct H as [H|H].
      - eexists. split; [left; reflexivity|]. destruct H as [->|H]; [now left|]. right. rewrite in_app_iff. now left.
      - destruct (IH a v H) as (l' & L & V). exists l'. split; [now right|exact V]. }
    unfold routes. generalize 0%nat. induction ms as [|m ms' IH]; intros i z c v Z C' V; [destruct Z|]. cbn [marked map] in Z. destruct Z as [<-|Z].
    - apply in_map_iff in C'. destruct C' as (k & <- & K). destruct k as [|[w l] k]; [destruct V|]. destruct (C _ w _ V) as (l' & L & V'). exists (i, l'). split; [|exact V'].
      cbn [routes_from]. apply in_app_iff. left. apply in_map. apply in_flat_map. exists ((w, l) :: k). split; [exact K|exact L].
    - destruct (IH (S i) z c v Z C' V) as (r & R & V'). exists r. split; [|exact V']. cbn [routes_from]. apply in_app_iff. now right.
  Qed.

  Lemma pairs_impl : forall {A} (P Q : A -> A -> Prop) l, (forall a b, In a l -> In b l -> P a b -> Q a b) -> ForallOrdPairs P l -> ForallOrdPairs Q l.
  Proof using.
    clear. intros A P Q l. induction l as [|a l IH]; intros H F; [constructor|]. inversion F as [|? ? Fa Fl]; subst. constructor.
    - rewrite Forall_forall in *. intros b B. apply H; [now left|now right|now apply Fa].
    - apply IH; [|exact Fl]. intros. apply H; [now right|now right|assumption].
  Qed.

  Lemma grid_apart : forall e f, grid_edge g e -> grid_edge g f -> coincide e f \/ only_ends e f -> coincide e f \/ apart e f.
  Proof using.
    clear. intros e f He Hf [C|O]; [now left|]. destruct (grid_fits g e f He Hf) as [C|[A|(v & M & N & _)]]; [right; now apply (ends_once g)|now left|now right|].
    exfalso. apply N. destruct (O _ _ (proj1 M)) as (w & We & Wf & W1 & W2). apply inj_eq in W1, W2. assert (v = w) as -> by (now apply injective_projections). split; assumption.
  Qed.

  Theorem grid_well : cut_well ms.
  Proof using Hg.
    constructor.
    - split.
      + rewrite Forall_forall. intros z Z. rewrite Forall_forall. intros c C. rewrite Forall_forall. intros v V. destruct (marked_point z c v Z C V) as (r & R & I).
        apply (grid_within g); [apply (grid_size g ms Hg)|exact (grid_points g ms Hg r v R I)].
      + eapply pairs_impl; [|exact (grid_tidy g ms Hg)]. intros e f E F. apply grid_apart; now apply marked_edge.
    - intros r R. split; [exact (grid_order g ms Hg r R)|]. intros a b c A B C. unfold orient. destruct (grid_upright g ms Hg r R) as [U|U].
      + rewrite (U a b A B), (U c b C B). ring_simplify. try lia.
      + rewrite (U a b A B), (U c b C B). ring_simplify. try lia.
    - intros j k r r' e f J K N Se Sf. apply (grid_fits g); [apply (stretch_edge r e); [now apply nth_error_In in J|exact Se]|apply (stretch_edge r' f); [now apply nth_error_In in K|exact Sf]|].
      exact (grid_along g ms Hg j k r r' e f J K N Se Sf).
    - exact (grid_arrive g ms Hg).
  Qed.
End Cut.
