(** Specification vocabulary for overlaying the regions of an overlay. *)

From Coq Require Import List ZArith.
From Verif Require Import Base Contours Compute SpecShape SpecOrder SpecIntersect SpecHandle SpecTidy SpecOverlay.
Import ListNotations.
Local Open Scope Z_scope.

(** The corners of one polygon for each of the outer contours [outs], that is all there are:
    the contour, its holes, the holes of those, and so on, in any order. *)
Definition regions_are (r : polygon) (rz : corners) (outs : list nat) (zs : list corners) : Prop :=
  NoDup outs /\ (forall i, In i outs <-> outer r i)
  /\ Forall2 (fun i z => exists js, region_of r i js /\ z = map (fun j => nth j rz []) js) outs zs.

(** Areas are exact even with twice as many edges. *)
Definition roomy (zs : list corners) : Prop :=
  exists m, Forall (Forall (Forall (within m))) zs /\ Z.of_nat (length (edges zs)) * (4 * (m * m)) < 2 ^ 53.
