(** A contour traced along kept sides goes round no place twice. *)

From Coq Require Import List ZArith QArith Bool Lia Lqa Arith Permutation Sorted.
From Verif Require Import Base Float Sweep Compute SpecShape SpecOrder SpecIntersect SpecTurn SpecHandle SpecTidy SpecCompute
  OrderFacts TurnFacts3 TurnSamples TidyGeo TidyParity TidySetup TidyLine TidySweep TidyFacts TidyCorner TidyPair TidyNext TidyWalk TidyTrace TidyWinding.
Import ListNotations.
Local Open Scope Z_scope.

Section Simple.
Variables (zs : list corners) (modes : list polygon_mode) (S : list bseg) (ks : list packet) (act sw : list bseg) (I : list bend).
Notation n := (length modes).
Notation E := (edges zs).
Notation eg := (eg (edges zs)).
Hypothesis (D : drawn E S) (V : inv zs S modes [] ks act sw) (Polys : forall s, In s S -> (e_poly (eg s) < n)%nat).
Hypothesis (PI : Permutation (flat_map (sides_of modes ks) sw) I).
Hypothesis (NE : covered modes zs).

Notation src := (src zs).
Notation dst := (dst zs).
Notation face := (face zs).
Notation next := (next zs S I).
Notation chain := (chain zs S I).
Notation walk := (walk zs S I).
Notation first := (first zs).

(** How often a walk goes round the place that a side faces. *)
Definition wface (C : list bend) (d : bend) : Z := match snd d with LeftEnd => WL zs C (fst d) | RightEnd => WR zs C (fst d) end.

Lemma at_src : forall d : bend, In (fst d) S -> at_left (src d) (eg (fst d)) = match snd d with LeftEnd => true | RightEnd => false end.
Proof using D.
  clear V. intros [s x] Hs. cbn [fst] in *. unfold TidyNext.src. cbn [fst snd]. destruct (seg_spec _ _ D s Hs) as (_ & _ & L & _). unfold lr in L.
  destruct x; cbn [end_z]; [now apply same_z_iff|]. apply same_z_false. intros Q. rewrite Q, lex_refl in L. discriminate.
Qed.
Lemma at_dst : forall d : bend, In (fst d) S -> at_left (dst d) (eg (fst d)) = match snd d with LeftEnd => false | RightEnd => true end.
Proof using D.
  clear V. intros [s x] Hs. cbn [fst] in *. unfold TidyNext.dst. cbn [fst snd]. destruct (seg_spec _ _ D s Hs) as (_ & _ & L & _). unfold lr in L.
  destruct x; cbn [other_z]; [|now apply same_z_iff]. apply same_z_false. intros Q. rewrite Q, lex_refl in L. discriminate.
Qed.

Lemma wface_src : forall C (d : bend), In (fst d) S -> wface C d = wcc zs C (src d) (fst d).
Proof using D. intros C d Hs. unfold wface, wcc. rewrite (at_src d Hs). destruct (snd d); reflexivity. Qed.
Lemma wface_dst : forall C (d : bend), In (fst d) S -> wface C d = wcw zs C (dst d) (fst d).
Proof using D. intros C d Hs. unfold wface, wcw. rewrite (at_dst d Hs). destruct (snd d); reflexivity. Qed.

Lemma next_wind : forall C d e, (forall d : bend, In d C -> In (fst d) S) -> Permutation (map dst C) (map src C) ->
  In d I -> next d e -> wface C e = wface C d.
Proof using D V Polys PI NE.
  intros C d e CS CB Hd (A1 & A2 & A3 & A4 & A5). apply (kept_iff zs modes S ks act sw I D V Polys PI NE) in Hd, A1.
  destruct Hd as (Hs & LE & _), A1 as (He & LEe & _).
  rewrite (wface_src C e He), (wface_dst C d Hs), A2. symmetry. apply (prior_wind zs S D C CS CB).
  - split; [now apply here_dst|exact LE].
  - rewrite <- A2. split; [now apply here_src|exact LEe].
  - exact A5.
Qed.

(** The two sides of an edge do not face the same place. *)
Lemma faces_differ : forall s, In (s, LeftEnd) I -> ~ forall i, face (s, LeftEnd) i = face (s, RightEnd) i.
Proof using D V Polys PI NE.
  intros s Hs H. apply (kept_iff zs modes S ks act sw I D V Polys PI NE) in Hs. cbn [fst] in Hs. destruct Hs as (Hs & LE & _).
  assert (Q : ST zs (eg s) (e_poly (eg s)) = true).
  { apply (stack_has zs S D s _ Hs LE). apply (has_edge_seg zs S D). exists s. split; [exact Hs|]. split; [reflexivity|]. apply same_ends_iff. auto. }
  specialize (H (e_poly (eg s))). unfold TidyNext.face in H. cbn [fst snd] in H. unfold LS in H. rewrite Q in H. destruct (RS _ _ _); discriminate.
Qed.

Section One.
Variables (e : bend) (l : list bend).
Notation T := (e :: l).
Notation z := (last l e).
Notation v := (src e).
Hypothesis (W : walk T) (F : first T) (ND : NoDup T).

Lemma T_I : forall d, In d T -> In d I.
Proof using W. intros d. apply (walk_in zs S I T d W). Qed.
Lemma T_S : forall d : bend, In d T -> In (fst d) S.
Proof using D V Polys PI NE W. intros d Hd. apply (kept_seg zs modes S ks act sw I D V Polys PI NE). now apply T_I. Qed.
Lemma T_B : Permutation (map dst T) (map src T).
Proof using W. exact (walk_dst zs S I T W). Qed.
Lemma T_last : forall d, In d T -> last_edge zs (eg (fst d)).
Proof using D V Polys PI NE W. intros d Hd. apply T_I in Hd. now apply (kept_iff zs modes S ks act sw I D V Polys PI NE) in Hd. Qed.

Lemma W_parts : snd e = LeftEnd /\ chain e l /\ dst z = v /\ forall m, In m (removelast T) -> dst m <> v.
Proof using W. destruct W as (e' & l' & Q & A1 & _ & A2 & A3 & A4). injection Q as <- <-. auto. Qed.

Lemma min_src : forall d, In d T -> lex_z v (src d) <> Gt.
Proof using F. intros d Hd. exact (F e l d eq_refl Hd). Qed.
Lemma min_dst : forall d, In d T -> lex_z v (dst d) <> Gt.
Proof using W F.
  intros d Hd. assert (H : In (dst d) (map src T)) by (apply (Permutation_in _ T_B), in_map; exact Hd).
  apply in_map_iff in H. destruct H as (m & <- & Hm). now apply min_src.
Qed.

Lemma only_src : forall d, In d T -> src d = v -> d = e.
Proof using W.
  intros d [<-|Hd] Q; [reflexivity|exfalso]. destruct W_parts as (_ & Ch & _ & N). destruct (chain_prev zs S I l e d Ch Hd) as (m & M1 & M2).
  apply (N m M1). rewrite <- Q. symmetry. apply M2.
Qed.
Lemma only_dst : forall d, In d T -> dst d = v -> d = z.
Proof using W.
  intros d Hd Q. destruct W_parts as (_ & _ & _ & N). rewrite (app_removelast_last e (l := T)) in Hd by discriminate.
  apply in_app_or in Hd. destruct Hd as [Hd|[<-|[]]]; [exfalso; exact (N d Hd Q)|]. now rewrite last_cons.
Qed.

Lemma z_in : In z T.
Proof using. clear. rewrite <- (last_cons _ l e e). pose proof (app_removelast_last e (l := e :: l) ltac:(discriminate)) as Q. rewrite Q at 2. apply in_or_app. right. now left. Qed.

Lemma z_right : snd z = RightEnd.
Proof using D V Polys PI NE W F.
  destruct (snd z) eqn:Q; [exfalso|reflexivity]. destruct W_parts as (_ & _ & Dz & _). pose proof (min_src z z_in) as M. apply M.
  rewrite <- Dz. unfold TidyNext.dst, TidyNext.src. rewrite Q. cbn [other_z end_z]. apply lex_gt. now apply (seg_spec _ _ D), T_S, z_in.
Qed.

Lemma e_left_v : e_left (eg (fst e)) = v.
Proof using W. unfold TidyNext.src. now rewrite (proj1 W_parts). Qed.
Lemma z_left_v : e_left (eg (fst z)) = v.
Proof using D V Polys PI NE W F. destruct W_parts as (_ & _ & Dz & _). rewrite <- Dz. unfold TidyNext.dst. now rewrite z_right. Qed.

Lemma segs_differ : fst e <> fst z.
Proof using D V Polys PI NE W F.
  intros Q. apply (faces_differ (fst e)).
  - rewrite <- (proj1 W_parts), <- surjective_pairing. apply T_I. now left.
  - intros i. rewrite <- (proj1 W_parts) at 1. rewrite <- surjective_pairing. rewrite Q. rewrite <- z_right, <- surjective_pairing.
    apply (walk_face zs S I T); [exact W|now left|exact z_in].
Qed.

Lemma not_same : same_ends (eg (fst z)) (eg (fst e)) = false.
Proof using D V Polys PI NE W F.
  apply not_true_iff_false. intros Q. apply segs_differ. symmetry.
  apply (last_same zs S D); [apply T_S, z_in|apply T_S; now left|apply T_last, z_in|apply T_last; now left|exact Q].
Qed.

Lemma here_e : here zs S v (fst e).
Proof using D V Polys PI NE W. apply here_src. apply T_S. now left. Qed.
Lemma here_z : here zs S v (fst z).
Proof using D V Polys PI NE W. rewrite <- (proj1 (proj2 (proj2 W_parts))). apply here_dst. apply T_S, z_in. Qed.

Lemma no_floor : floor zs T v = 0.
Proof using D V Polys PI NE W F.
  apply total_zero. intros d Hd. replace (lower_right v (eg (fst d))) with false; [reflexivity|]. symmetry. apply not_true_iff_false. intros Q.
  apply lower_right_iff in Q. destruct Q as (Q1 & Q2 & Q3).
  assert (M : lex_z v (e_left (eg (fst d))) <> Gt).
  { destruct (snd d) eqn:X; [pose proof (min_src d Hd) as M; unfold TidyNext.src in M|pose proof (min_dst d Hd) as M; unfold TidyNext.dst in M]; rewrite X in M; exact M. }
  rewrite <- Zle_Qle in Q1. rewrite lex_gt, lex_lt in M.
  assert (X : fst (e_left (eg (fst d))) = fst v) by lia. rewrite <- X, yat_left in Q3. rewrite <- Zlt_Qlt in Q3. lia.
Qed.

Lemma ring_two : forall P, ring zs T v P = b2z (P (eg (fst e))) - b2z (P (eg (fst z))).
Proof using D V Polys PI NE W F ND.
  intros P. assert (Ne : l <> []).
  { intros Q. pose proof segs_differ as SD. rewrite Q in SD. now apply SD. }
  pose proof (app_removelast_last e Ne) as Ql. set (m := removelast l) in *. unfold ring. rewrite Ql at 1. change (e :: m ++ [z]) with ((e :: m) ++ [z]).
  rewrite total_app, !total_cons. rewrite (total_zero zs m).
  - unfold sg. rewrite (proj1 W_parts), z_right. unfold eta. rewrite !at_left_here by (exact e_left_v || exact z_left_v).
    rewrite (proj2 here_e), (proj2 here_z). cbn [andb TidyWinding.total fold_right]. destruct (P (eg (fst e))), (P (eg (fst z))); cbn; lia.
  - intros d Hd. assert (Td : In d T) by (rewrite Ql; right; apply in_or_app; now left).
    replace (inc v (eg (fst d))) with false; [reflexivity|]. symmetry. apply not_true_iff_false. intros Q.
    assert (X : src d = v \/ dst d = v).
    { unfold inc, at_left, at_right in Q. rewrite orb_true_iff, !same_z_iff in Q. unfold TidyNext.src at 1, TidyNext.dst at 1. destruct (snd d); cbn [end_z other_z]; tauto. }
    rewrite Ql in ND. inversion ND as [|? ? N1 N2]; subst. destruct X as [X|X].
    + apply (only_src d Td) in X. subst d. apply N1. apply in_or_app. now left.
    + apply (only_dst d Td) in X. apply (NoDup_remove_2 m [] z) in N2. apply N2. rewrite app_nil_r. now rewrite <- X.
Qed.

(** The walk turns left at its first corner. *)
Definition corner : Z := orient v (dst e) (src z).

Lemma bef_corner : bef v (eg (fst e)) (eg (fst z)) = (0 <? corner).
Proof using D V Polys PI NE W F.
  unfold bef. rewrite !at_left_here by (exact e_left_v || exact z_left_v). f_equal. unfold out. rewrite !at_left_here by (exact e_left_v || exact z_left_v).
  unfold corner, TidyNext.dst. rewrite (proj1 W_parts). cbn [other_z]. replace (src z) with (e_right (eg (fst z))); [now rewrite orient_cross|].
  unfold TidyNext.src. now rewrite z_right.
Qed.
Lemma bef_corner' : bef v (eg (fst z)) (eg (fst e)) = (corner <? 0).
Proof using D V Polys PI NE W F.
  unfold bef. rewrite !at_left_here by (exact e_left_v || exact z_left_v). unfold out. rewrite !at_left_here by (exact e_left_v || exact z_left_v).
  unfold corner, TidyNext.dst. rewrite (proj1 W_parts). cbn [other_z]. replace (src z) with (e_right (eg (fst z))); [|unfold TidyNext.src; now rewrite z_right].
  rewrite orient_cross. rewrite (cross_swap (vsub (e_right (eg (fst e))) v) (vsub (e_right (eg (fst z))) v)). unfold vcross, vsub, cross_z, dir. cbn [fst snd]. lia.
Qed.

Lemma corner_neq : corner <> 0.
Proof using D V Polys PI NE W F.
  intros Q. destruct (bef_total zs S D v (fst z) (fst e) here_z here_e not_same) as [B|B]; [rewrite bef_corner' in B|rewrite bef_corner in B]; lia.
Qed.

Definition turn : Z := if 0 <? corner then 1 else 0.

Lemma wface_all : forall d, In d T -> wface T d = turn.
Proof using D V Polys PI NE W F ND.
  assert (H : wface T e = turn).
  { rewrite (wface_src T e (T_S e (or_introl eq_refl))). rewrite (wcc_eq zs S D T T_S T_B v (fst e) here_e), no_floor, ring_two.
    rewrite bef_self, bef_corner', not_same. rewrite (proj2 (same_ends_iff _ _)) by auto. unfold turn. pose proof corner_neq as N.
    destruct (Z.ltb_spec corner 0), (Z.ltb_spec 0 corner); cbn; lia. }
  destruct W_parts as (_ & Ch & _). assert (Ie : In e I) by (apply T_I; now left).
  assert (X : forall m c, chain c m -> In c I -> wface T c = turn -> forall d, In d m -> wface T d = turn).
  { induction m as [|y m IH]; intros c Cm Ic Hc d Hd; [destruct Hd|]. destruct Cm as (C1 & C2).
    assert (Y : wface T y = turn) by (rewrite <- Hc; apply next_wind; auto; [exact T_S|exact T_B]).
    destruct Hd as [<-|Hd]; [exact Y|]. apply (IH y); auto. apply C1. }
  intros d [<-|Hd]; [exact H|]. exact (X l e Ch Ie H d Hd).
Qed.

Lemma one_side : forall s, In (s, LeftEnd) T -> In (s, RightEnd) T -> False.
Proof using D V Polys PI NE W.
  intros s H1 H2. apply (faces_differ s); [now apply T_I|]. intros i. apply (walk_face zs S I T); auto.
Qed.

Lemma WS_side : forall d, In d T -> WS zs T (fst d) = sg d.
Proof using D V Polys PI NE W F ND.
  intros d Hd. unfold WS. destruct (in_split _ _ Hd) as (a & b & Q).
  assert (N : forall f, In f (a ++ b) -> same_ends (eg (fst f)) (eg (fst d)) = false).
  { intros f Hf. assert (Tf : In f T) by (rewrite Q; apply in_app_iff in Hf; apply in_app_iff; cbn; tauto).
    apply not_true_iff_false. intros SE. assert (X : fst f = fst d).
    { apply (last_same zs S D); [now apply T_S|now apply T_S|now apply T_last|now apply T_last|exact SE]. }
    rewrite Q in ND. apply NoDup_remove_2 in ND. apply ND.
    destruct d as [s x], f as [t y]. cbn [fst] in X. subst t. destruct x, y; try exact Hf; exfalso; now apply (one_side s). }
  rewrite Q at 1. rewrite total_app, total_cons, (total_zero zs a), (total_zero zs b).
  - rewrite (proj2 (same_ends_iff _ _)) by auto. cbn. lia.
  - intros f Hf. rewrite N by (apply in_or_app; now right). reflexivity.
  - intros f Hf. rewrite N by (apply in_or_app; now left). reflexivity.
Qed.

Lemma WL_side : forall d, In d T -> WL zs T (fst d) = match snd d with LeftEnd => turn | RightEnd => turn - 1 end.
Proof using D V Polys PI NE W F ND.
  intros d Hd. pose proof (wface_all d Hd) as Q. unfold wface in Q. pose proof (WS_side d Hd) as WSd. unfold sg in WSd. destruct (snd d); [exact Q|].
  unfold WL. lia.
Qed.

(** The walk goes round a place once or not at all, and always the same way. *)
Lemma wind_range : forall x y, between x -> wind zs T x y = 0 \/ wind zs T x y = 2 * turn - 1.
Proof using D V Polys PI NE W F ND.
  intros x y B. destruct (wind_highest zs S D T T_S T_B x y B) as [(H & _)|(b & B1 & _ & _ & H)]; [now left|].
  rewrite H, (WL_side b B1). unfold turn. destruct (snd b), (0 <? corner); cbn; auto.
Qed.
End One.
End Simple.
