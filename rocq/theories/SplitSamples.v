(** Inputs for the theorems about splitting and about the pieces of edges. *)

From Coq Require Import List ZArith Bool Sorting.Permutation.
From Verif Require Import Base Float Geometry Sweep Contours Compute StdRef ShapeSamples SpecSplit.
Import ListNotations.
Local Open Scope Z_scope.

(** The state of the sweep after all its events. *)
Definition swept_up (fuel : nat) (polys : input) : outcome sweep :=
  let* w := add_polygons (length polys) 0 polys (mk_sweep [] [] [] [] []) in
  sweep_loop fuel (length polys) w.

(** Three triangles. *)
Definition three_triangles : input :=
  [([tri 0 2 4 0 3 2], Normal); ([tri 2 1 3 3 4 3], Normal); ([tri 0 2 1 1 4 4], Normal)].

(** The sweep in the midst of which a segment is split: two segments are active, a
    third one remembers to lie above the first. *)
Definition flat_seg : bseg := mk_sseg (pt 0 0) (pt 8 0) false 0 0 tt.
Definition upper_seg : bseg := mk_sseg (pt 0 4) (pt 8 4) true 1 0 tt.
Definition midst : sweep :=
  mk_sweep [flat_seg; upper_seg]
    [mk_packet 0 Normal EDifferentTransition true true [true] [false] true None false false None None 3 4;
     mk_packet 0 RemoveEdges ESameTransition true false [false] [true] true (Some 0%nat) true false (Some 5%nat) None 6 7]
    [(flat_seg, RightEnd); (upper_seg, RightEnd)] [flat_seg; upper_seg] [].

(** One of the edges stays in the sweep line. *)
Lemma piece_lost : exists polys w s,
  swept_up 100 polys = Ok w /\ In s (w_active w) /\ joins s (pt 2 1) (pt 3 3)
  /\ In (s_order s, pt 2 1, pt 3 3) (edges_of polys) /\ (forall t, In t (w_swept w) -> s_index t <> s_index s)
  /\ compute std_ref 100 polys Union = Panic PIndex.
Proof.
  exists three_triangles. eexists. eexists. split; [vm_compute; reflexivity|].
  split; [left; reflexivity|]. split; [left; split; vm_compute; reflexivity|].
  split; [vm_compute; intuition congruence|].
  split; [cbn [w_swept]; intros t Ht; repeat (destruct Ht as [<-|Ht]; [discriminate|]); destruct Ht|].
  vm_compute. reflexivity.
Qed.
