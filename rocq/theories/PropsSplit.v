(** Splitting segments, and what becomes of the pieces. *)

From Coq Require Import List ZArith Bool Sorting.Permutation.
From Verif Require Import Base Float Geometry Sweep Contours Compute StdRef ShapeSamples SplitFacts PieceFacts SplitSamples SpecSplit.
Import ListNotations.

(** *** C114: splitting a segment *)

Theorem C114_split : forall n w s pt l w', split_segment n w s pt = Ok (l, w') ->
  length (w_packets w) = length (w_segs w) -> Forall (filed (w_segs w)) (s :: w_active w) ->
  exists k r packets kl kr,
    nth_error (w_packets w) (s_index s) = Some k
    /\ point_eqb (s_left s) pt = false /\ point_eqb pt (s_right s) = false
    /\ joins l (s_left s) pt /\ joins r pt (s_right s)
    /\ s_order l = k_polygon k /\ s_order r = k_polygon k
    /\ w_segs w' = w_segs w ++ [l; r] /\ Forall (filed (w_segs w')) [l; r]
    /\ w_packets w' = packets ++ [kl; kr]
    /\ Forall2 (redirected (s_index s) (s_index l)) (w_packets w ++ [k]) (packets ++ [kl]) /\ fresh_like k kr
    /\ Permutation (w_queue w') ((l, RightEnd) :: (r, LeftEnd) :: (r, RightEnd) :: w_queue w)
    /\ (exists A B C D, w_active w = A ++ s :: B /\ A ++ B = C ++ D /\ w_active w' = C ++ l :: D)
    /\ w_swept w' = w_swept w.
Proof. exact split_effect. Qed.
Print Assumptions C114_split.

Example C114_hypotheses :
  length (w_packets midst) = length (w_segs midst) /\ Forall (filed (w_segs midst)) (flat_seg :: w_active midst)
  /\ exists l w', split_segment 1 midst flat_seg (pt 5 0) = Ok (l, w')
    /\ map k_below (w_packets w') = [None; Some 2%nat; None; None]
    /\ map k_up_out (w_packets w') = [true; true; true; false]
    /\ map s_index (w_active w') = [2%nat; 1%nat].
Proof.
  split; [reflexivity|]. split; [repeat constructor|]. eexists. eexists. split; [vm_compute; reflexivity|].
  vm_compute. auto.
Qed.

(** *** C115: no piece is lost on the way *)

Theorem C115_pieces : forall fuel polys w0 w,
  add_polygons (length polys) 0 polys (mk_sweep [] [] [] [] []) = Ok w0 -> sweep_loop fuel (length polys) w0 = Ok w ->
  exists chains, Forall2 cut_up (edges_of polys) chains
    /\ Permutation (concat chains) (w_swept w ++ w_active w) /\ NoDup (w_swept w ++ w_active w)
    /\ forall a b, In a (w_swept w ++ w_active w) -> In b (w_swept w ++ w_active w) -> s_index a = s_index b -> a = b.
Proof. exact pieces_kept. Qed.
Print Assumptions C115_pieces.

(** Eight edges become twelve pieces. *)
Example C115_hypotheses : exists w, swept_up 100 overlapping = Ok w /\ length (edges_of overlapping) = 8%nat
  /\ length (w_swept w) = 12%nat /\ w_active w = [].
Proof. eexists. split; [vm_compute; reflexivity|]. vm_compute. auto. Qed.

(** *** C116: every piece is swept *)

Theorem C116_all_swept_refuted : exists polys w s,
  swept_up 100 polys = Ok w /\ In s (w_active w) /\ joins s (pt 2 1) (pt 3 3)
  /\ In (s_order s, pt 2 1, pt 3 3) (edges_of polys) /\ (forall t, In t (w_swept w) -> s_index t <> s_index s)
  /\ compute std_ref 100 polys Union = Panic PIndex.
Proof. exact piece_lost. Qed.
Print Assumptions C116_all_swept_refuted.
