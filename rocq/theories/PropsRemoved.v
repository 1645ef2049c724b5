(** C122: polygons whose edges are removed. *)

From Coq Require Import List ZArith.
From Verif Require Import Base Contours Sweep Compute StdRef SpecShape SpecOrder SpecCompute SpecTidy SpecOverlay RemovedFacts.
Import ListNotations.

(** C122. Tidy polygons with edges to be removed that nothing covers can make [compute] panic,
    though it copes with the same polygons if the edges are left: where a hole begins above
    such an edge, that edge is taken for one of the contour that the hole is in, and it belongs
    to none. *)
Theorem C122_refuted : exists a q zs n,
  (forall m, Forall2 (fun p z => has_corners (fst p) z) (a ++ [(q, m)]) zs) /\ tidy zs /\ compact zs /\ ~ In RemoveEdges (map snd a)
  /\ forall std fuel op, std_laws std -> sorts std -> (n <= fuel)%nat ->
       (exists r, compute std fuel (a ++ [(q, Normal)]) op = Ok r) /\ compute std fuel (a ++ [(q, RemoveEdges)]) op = Panic PUnwrap.
Proof. exact bar_panics. Qed.
Print Assumptions C122_refuted.

(** A square with another cut out of it, and a bar below the hole. *)
Example C122_sample : compute std_ref 24 (yard ++ [(bar, RemoveEdges)]) Union = Panic PUnwrap.
Proof. vm_compute. reflexivity. Qed.
