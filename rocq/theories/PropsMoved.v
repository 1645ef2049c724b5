(** C141: moving polygons can decide whether they can be overlaid. *)

From Coq Require Import List ZArith Lia.
From Verif Require Import Base Contours Sweep Compute StdRef SpecShape SpecOrder SpecCompute SpecTidy SpecOverlay MovedPanic SpecCross SpecMove.
Import ListNotations.
Local Open Scope Z_scope.

(** C141. Whether rectangles with whole-numbered corners can be overlaid depends on where they
    are: there are three that make [compute] panic, but not when they are moved. *)
Theorem C141_refuted : exists zs d polys polys' n, Forall2 (fun p z => has_points (fst p) z) polys zs /\ Forall2 (fun p z => has_points (fst p) z) polys' (moved d zs)
  /\ map snd polys = [Normal; Normal; Normal] /\ map snd polys' = [Normal; Normal; Normal]
  /\ (forall p c, In p polys \/ In p polys' -> In c (fst p) -> int_rectangle c)
  /\ forall std fuel op, std_laws std -> sorts std -> (n <= fuel)%nat -> compute std fuel polys op = Panic PAssert /\ exists r, compute std fuel polys' op = Ok r.
Proof. exact moving_matters. Qed.
Print Assumptions C141_refuted.

(** The rectangles of C128, moved up by 1 and by 2. *)
Example C141_sample : compute std_ref 100 three_input Union = Panic PAssert
  /\ compute std_ref 100 (map (fun z => (map (fun l => set_points contour_new (map int_point l)) z, Normal)) (moved (0, 1) three_rects)) Union = Panic PAssert
  /\ match compute std_ref 100 raised_input Union with Ok r => length r | _ => 0%nat end = 4%nat.
Proof. split; [vm_compute; reflexivity|]. split; vm_compute; reflexivity. Qed.
