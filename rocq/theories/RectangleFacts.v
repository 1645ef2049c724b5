(** Three axis-parallel rectangles that cannot be overlaid. *)

From Coq Require Import List ZArith Bool Arith Lia.
From Verif Require Import Base BaseFacts Float Geometry Sweep Contours Compute StdRef StdFacts SpecShape SpecCompute ShapeSamples ShapeFacts FuelFacts ComputeFacts SortFacts.
Import ListNotations.
Local Open Scope Z_scope.

Lemma rct_rectangle : forall x y w h, 0 < w -> 0 < h -> Z.abs x + w < 2 ^ 53 -> Z.abs y + h < 2 ^ 53 -> int_rectangle (rct x y w h).
Proof.
  intros x y w h W H X Y. exists x, (x + w), y, (y + h), (pt x y), (pt (x + w) y), (pt (x + w) (y + h)), (pt x (y + h)).
  split; [reflexivity|]. split; [lia|]. split; [lia|]. repeat apply conj; apply pt_at; lia.
Qed.

Lemma rectangles_panic : exists a b c n, int_rectangle a /\ int_rectangle b /\ int_rectangle c
  /\ (forall std fuel op, std_laws std -> sorts std -> (n <= fuel)%nat -> compute std fuel [([a], Normal); ([b], Normal); ([c], Normal)] op = Panic PAssert)
  /\ (forall std fuel op, std_laws std -> sorts std -> (n <= fuel)%nat ->
        (exists r, compute std fuel [([a], Normal); ([b], Normal)] op = Ok r) /\ (exists r, compute std fuel [([a], Normal); ([c], Normal)] op = Ok r)
        /\ exists r, compute std fuel [([b], Normal); ([c], Normal)] op = Ok r).
Proof.
  exists (rct 0 31 2 1), (rct 0 0 1 39), (rct 1 31 1 1), 100%nat.
  split; [apply rct_rectangle; reflexivity|]. split; [apply rct_rectangle; reflexivity|]. split; [apply rct_rectangle; reflexivity|].
  assert (G : forall std polys fuel op, std_laws std -> sorts std -> (100 <= fuel)%nat -> pieces_orderedb 100 polys = true ->
    (match compute std_ref 100 polys Union with Ok _ => true | _ => false end) = true -> exists r, compute std fuel polys op = Ok r).
  { intros std polys fuel op HL HS L P R. destruct (compute std_ref 100 polys Union) as [r|e|p] eqn:E; try discriminate. exists r.
    apply (compute_more std 100 fuel); [|discriminate|exact L]. rewrite (compute_ref std) by assumption. rewrite (operation_ignored std_ref _ _ op Union). exact E. }
  split.
  - intros std fuel op HL HS L. apply (compute_more std 100 fuel); [|discriminate|exact L].
    rewrite (compute_ref std) by first [assumption|vm_compute; reflexivity]. rewrite (operation_ignored std_ref _ _ op Union). vm_compute. reflexivity.
  - intros std fuel op HL HS L. split; [|split]; apply (G std); auto; vm_compute; reflexivity.
Qed.
