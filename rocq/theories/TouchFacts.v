(** Whether bounding boxes touch. *)

From Coq Require Import List ZArith Bool Lia.
From Verif Require Import Base Float FloatFacts Geometry Contours SpecShape SpecBox BoxFacts.
Import ListNotations.
Local Open Scope Z_scope.

Lemma polygon_ibox : forall p zss, p <> [] ->
  Forall2 (fun c zs => Forall2 at_z (c_points c) zs /\ Forall (within (2 ^ 24)) zs /\ two_points zs) p zss ->
  (exists lo hi bot top, ibox (concat zss) (polygon_bbox p) lo hi bot top) /\ Forall (within (2 ^ 24)) (concat zss).
Proof.
  intros [|c l] zss N F; [congruence|]. split.
  - inversion F as [|c' zs l' zss' (F1 & W1 & N1) Fl]; subst.
    assert (NN : zs <> []) by (destruct N1 as (z & _ & Hz & _); destruct zs; [destruct Hz|discriminate]).
    destruct (contour_ibox c zs F1 W1 NN) as (lo' & hi' & bot' & top' & B').
    destruct (fold_ibox l zss' zs _ _ _ _ _ B' W1 N1 Fl) as (lo & hi & bot & top & B).
    cbn [polygon_bbox concat]. eauto.
  - clear N. induction F as [|c' zs l' zss' (F1 & W1 & N1) Fl IH]; cbn [concat]; [constructor|]. apply Forall_app. split; assumption.
Qed.

Lemma touches_spec : forall p q zss wss, p <> [] -> q <> [] ->
  Forall2 (fun c zs => Forall2 at_z (c_points c) zs /\ Forall (within (2 ^ 24)) zs /\ two_points zs) p zss ->
  Forall2 (fun c zs => Forall2 at_z (c_points c) zs /\ Forall (within (2 ^ 24)) zs /\ two_points zs) q wss ->
  (touches (polygon_bbox p) (polygon_bbox q) = true <-> exists v, boxed (concat zss) v /\ boxed (concat wss) v).
Proof.
  intros p q zss wss P Q FP FQ. destruct (polygon_ibox p zss P FP) as ((lo & hi & bot & top & B) & W).
  destruct (polygon_ibox q wss Q FQ) as ((lo' & hi' & bot' & top' & B') & W').
  destruct (ibox_bounds _ _ _ _ _ _ B W) as (B1 & B2 & B3 & B4 & B5 & B6).
  destruct (ibox_bounds _ _ _ _ _ _ B' W') as (C1 & C2 & C3 & C4 & C5 & C6). clear W W' FP FQ.
  destruct B as (A & (z1 & I1 & Z1) & (z2 & I2 & Z2) & (z3 & I3 & Z3) & (z4 & I4 & Z4) & X & Y & XW & YH).
  destruct B' as (A' & (w1 & J1 & V1) & (w2 & J2 & V2) & (w3 & J3 & V3) & (w4 & J4 & V4) & X' & Y' & XW' & YH').
  unfold touches.
  rewrite (le_int _ _ _ _ X (max_edge _ _ lo' hi' X' XW' C2)), (le_int _ _ _ _ X' (max_edge _ _ lo hi X XW B2)).
  rewrite (le_int _ _ _ _ Y (max_edge _ _ bot' top' Y' YH' C4)), (le_int _ _ _ _ Y' (max_edge _ _ bot top Y YH B4)).
  rewrite !andb_true_iff, !Z.leb_le. unfold boxed. split.
  - intros (((H1 & H2) & H3) & H4). exists (Z.max lo lo', Z.max bot bot'). cbn [fst snd]. split.
    + exists z1, z2, z3, z4. repeat (split; [assumption|]). lia.
    + exists w1, w2, w3, w4. repeat (split; [assumption|]). lia.
  - intros (v & (a & b & c & d & Ia & Ib & Ic & Id & L) & (a' & b' & c' & d' & Ja & Jb & Jc & Jd & M)).
    apply A in Ia, Ib, Ic, Id. apply A' in Ja, Jb, Jc, Jd. lia.
Qed.
