(** C123: overlays that never end. *)

From Coq Require Import List ZArith.
From Verif Require Import Base Contours Sweep Compute StdRef SpecShape SpecCompute SpecTidy EndlessFacts.
Import ListNotations.

(** C123. There are four triangles, with corners among the integers from -2 to 3 and none of
    them flat, that [compute] never finishes with, whatever it is to compute: however many
    events are allowed, they run out. The queue is never empty, and the segments grow past any
    number. *)
Theorem C123_refuted : exists polys zs w0,
  Forall2 (fun p z => has_corners (fst p) z) polys zs /\ length polys = 4%nat
  /\ Forall (fun z => exists ax ay bx by_ cx cy, z = [[(ax, ay); (bx, by_); (cx, cy)]]
       /\ Forall (fun v => -2 <= v <= 3) [ax; ay; bx; by_; cx; cy] /\ (bx - ax) * (cy - ay) <> (by_ - ay) * (cx - ax))%Z zs
  /\ (forall std fuel op, compute std fuel polys op = Panic PFuel)
  /\ add_polygons 4 0 polys (mk_sweep [] [] [] [] []) = Ok w0
  /\ forall b, exists m w, sweeps 4 m w0 w /\ w_queue w <> [] /\ (b <= m)%nat /\ (b <= length (w_segs w))%nat.
Proof. exact tangle_refutes. Qed.
Print Assumptions C123_refuted.

(** The triangles, and that three of them do not take 200 events. *)
Example C123_sample : map (fun p => length (fst p)) tangle = [1; 1; 1; 1]%nat /\ compute std_ref 200 tangle Union = Panic PFuel
  /\ exists r, compute std_ref 200 (firstn 3 tangle) Union = Ok r.
Proof. split; [reflexivity|]. split; [exact (never_ends std_ref 200 Union)|]. eexists. vm_compute. reflexivity. Qed.
