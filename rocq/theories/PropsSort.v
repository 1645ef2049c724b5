(** C94: the overlay and the standard library's sort. *)

From Coq Require Import List ZArith.
From Verif Require Import Base Contours Compute StdRef StdFacts SpecCompute SortFacts ShapeSamples.
Import ListNotations.
Local Open Scope Z_scope.

(** C94. Two implementations of the standard library that sort correctly give the same
    result, if the ends of the pieces can be strictly ordered. *)
Theorem C94_same : forall std std' fuel polys op, std_laws std -> std_laws std' -> sorts std -> sorts std' ->
  pieces_ordered fuel polys -> compute std fuel polys op = compute std' fuel polys op.
Proof. exact compute_same. Qed.
Print Assumptions C94_same.

(** The reference implementation sorts. *)
Theorem C94_reference : std_laws std_ref /\ sorts std_ref.
Proof. exact (conj std_ref_laws std_ref_sorts). Qed.
Print Assumptions C94_reference.

Example C94_hypotheses : pieces_ordered 1000 overlapping /\ pieces_ordered 1000 nested
  /\ exists r, compute std_ref 1000 overlapping Union = Ok r /\ length r = 3%nat.
Proof.
  split; [apply pieces_orderedb_iff; vm_compute; reflexivity|]. split; [apply pieces_orderedb_iff; vm_compute; reflexivity|].
  destruct (compute std_ref 1000 overlapping Union) as [r|e|p] eqn:E; vm_compute in E; inversion E. exists r. subst r. split; reflexivity.
Qed.
