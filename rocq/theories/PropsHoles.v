(** C101, C102: the holes of contours that do not cross. *)

From Coq Require Import List ZArith Bool.
From Verif Require Import Base Contours Compute StdRef StdFacts SpecShape SpecTidy SpecOverlay SpecCompute SpecHoles SortFacts HolesSamples NestFacts.
Import ListNotations.
Local Open Scope Z_scope.

(** C101. [compute_holes] finds exactly which contours are directly inside which, and
    makes them go round alternately. *)
Theorem C101_nesting : forall std p z, sorts std -> set_laws std -> has_corners p z -> Forall raw p -> rings z ->
  exists r, compute_holes std p = Ok r /\ holes_found z p r.
Proof. exact nested_holes. Qed.
Print Assumptions C101_nesting.

(** The reference implementation of sets is as assumed. *)
Theorem C101_reference : sorts std_ref /\ set_laws std_ref.
Proof. exact (conj std_ref_sorts ref_sets). Qed.
Print Assumptions C101_reference.

Example C101_hypotheses : has_corners nest nest_z /\ Forall raw nest /\ rings nest_z.
Proof. exact (conj nest_corners (conj nest_raw nest_rings)). Qed.
Example C101_sample : holes_shown (compute_holes std_ref nest)
  = Ok [([], false, Some false); ([0%nat], false, Some true); ([1%nat; 3%nat], true, Some false); ([], false, Some true); ([], true, Some false)].
Proof. vm_compute. reflexivity. Qed.

(** C102. The same fails for contours that may share edges: a contour can become a hole
    of the one below it. *)
Theorem C102_joined_refuted : exists std p z, std_laws std /\ sorts std /\ set_laws std /\ has_corners p z /\ Forall raw p /\ joined_rings z
  /\ exists r, compute_holes std p = Ok r /\ ~ holes_found z p r.
Proof. exact (ex_intro _ std_ref (ex_intro _ stack (ex_intro _ stack_z (conj std_ref_laws (conj std_ref_sorts (conj ref_sets
  (conj stack_corners (conj stack_raw (conj stack_rings stack_wrong))))))))). Qed.
Print Assumptions C102_joined_refuted.

Example C102_sample : holes_shown (compute_holes std_ref stack) = Ok [([], false, Some true); ([0%nat], true, Some false)]
  /\ holes_shown (compute_holes std_ref (rev stack)) = Ok [([], true, Some false); ([], true, Some false)].
Proof. vm_compute. split; reflexivity. Qed.
