(** Sample shapes used by the examples. *)

From Coq Require Import List ZArith Lia.
From Verif Require Import Base Float FloatFacts MapFacts SpecFloat64 Geometry Sweep Contours Compute StdRef SpecShape SpecContainers SpecOrder.
Import ListNotations.
Local Open Scope Z_scope.

Definition pt (x y : Z) : point := mk_point (f64_of_Z x) (f64_of_Z y).
Definition pt10 (x y : Z) : point := mk_point (f64_div (f64_of_Z x) (f64_of_Z 10)) (f64_div (f64_of_Z y) (f64_of_Z 10)).
Definition rct x y w h : contour := set_points contour_new [pt x y; pt (x + w) y; pt (x + w) (y + h); pt x (y + h)].

Lemma pt_at : forall x y, Z.abs x < 2 ^ 53 -> Z.abs y < 2 ^ 53 -> at_z (pt x y) (x, y).
Proof.
  intros x y Hx Hy. unfold at_z. cbn [px py pt fst snd].
  pose proof (is_int_of_Z x ltac:(lia)) as I. pose proof (is_int_of_Z y ltac:(lia)) as J.
  repeat split; eauto using is_int_is_f64, is_int_valued.
Qed.

Lemma square_int : int_contour 16 [pt 0 0; pt 10 0; pt 10 10; pt 0 10].
Proof.
  exists [(0, 0); (10, 0); (10, 10); (0, 10)]. split; [repeat constructor; apply pt_at; lia|].
  split; [repeat constructor; cbn; lia|]. split; [discriminate|]. split; [reflexivity|]. discriminate.
Qed.

(** Segments. *)
Definition sg (x y x' y' : Z) (index order : nat) : sseg unit := mk_sseg (pt x y) (pt x' y') false index order tt.

Lemma sg_seg : forall x y x' y' i o, lex_z (x, y) (x', y') = Lt ->
  within (2 ^ 24) (x, y) -> within (2 ^ 24) (x', y') -> seg_z (sg x y x' y' i o) (x, y) (x', y').
Proof.
  intros x y x' y' i o H W W'. unfold seg_z, sg. cbn [s_left s_right].
  destruct W as [W1 W2], W' as [W3 W4]. cbn [fst snd] in *.
  assert (2 ^ 24 < 2 ^ 53) by reflexivity.
  repeat split; auto; apply pt_at; lia.
Qed.

Lemma nat_lawful : lawful (fun _ => True) (fun a b => Ok (Nat.compare a b)) Nat.compare.
Proof.
  split; [auto|]. split; [intros; apply PeanoNat.Nat.compare_antisym|].
  intros a b d _ _ _. rewrite !PeanoNat.Nat.compare_le_iff. lia.
Qed.

(** The result of [compute] in readable form. *)
Definition shown (r : outcome polygon) :=
  let* p := r in
  Ok (map (fun c => (c_points c, c_holes c, c_from c, c_neighbors c, c_external c)) p).

Definition tri a b c d e f : contour := set_points contour_new [pt a b; pt c d; pt e f].
(** Two squares that overlap in a square, as in the first tests of src/shapeops.rs. *)
Definition overlapping : input := [([rct 0 0 10 10], Normal); ([rct 5 5 10 10], Normal)].
(** A square in which another one is cut out. *)
Definition cut_out : input := [([rct 0 0 10 10], Normal); ([rct 2 2 2 2], RemoveInterior)].
(** A square within a square. *)
Definition nested : input := [([rct 0 0 10 10], Normal); ([rct 2 2 2 2], Normal)].
Definition shown_overlapping :=
  [([pt 0 0; pt 10 0; pt 10 5; pt 5 5; pt 5 10; pt 0 10], @nil nat, [true; false], [false; true; false], true);
   ([pt 5 5; pt 10 5; pt 10 10; pt 5 10], [], [true; true], [true; false; true], true);
   ([pt 5 10; pt 10 10; pt 10 5; pt 15 5; pt 15 15; pt 5 15], [], [false; true], [false; true; false], true)].
