(** C128: rectangles can be overlaid. *)

From Coq Require Import List ZArith.
From Verif Require Import Base Contours Sweep Compute StdRef SpecShape SpecOrder SpecCompute ShapeSamples RectangleFacts.
Import ListNotations.
Local Open Scope Z_scope.

(** C128. Three axis-parallel rectangles with whole-numbered corners can make [compute] panic,
    though it copes with any two of them: a crossing at height 31 is computed just below it, which
    is not rounded; a side that begins at height 31 is then cut below its own left end, and the
    sweep line is no longer in order. *)
Theorem C128_refuted : exists a b c n, int_rectangle a /\ int_rectangle b /\ int_rectangle c
  /\ (forall std fuel op, std_laws std -> sorts std -> (n <= fuel)%nat -> compute std fuel [([a], Normal); ([b], Normal); ([c], Normal)] op = Panic PAssert)
  /\ (forall std fuel op, std_laws std -> sorts std -> (n <= fuel)%nat ->
        (exists r, compute std fuel [([a], Normal); ([b], Normal)] op = Ok r) /\ (exists r, compute std fuel [([a], Normal); ([c], Normal)] op = Ok r)
        /\ exists r, compute std fuel [([b], Normal); ([c], Normal)] op = Ok r).
Proof. exact rectangles_panic. Qed.
Print Assumptions C128_refuted.

(** The rectangles from (0, 31) to (2, 32), from (0, 0) to (1, 39) and from (1, 31) to (2, 32). *)
Example C128_sample : compute std_ref 100 [([rct 0 31 2 1], Normal); ([rct 0 0 1 39], Normal); ([rct 1 31 1 1], Normal)] Union = Panic PAssert.
Proof. vm_compute. reflexivity. Qed.
