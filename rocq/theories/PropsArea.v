(** C104: the areas that [count_textures] reports. *)

From Coq Require Import ZArith Reals Floats.SpecFloat.
From Verif Require Import CountTextures SpecTextures SpecArea SingleFacts.
Local Open Scope Z_scope.

(** C104. The areas in C39 are single-precision numbers near the true ones, *)
Theorem C104_area : forall dx dy h, fits dx -> fits dy -> fits h ->
  exists l, single (f32_length dx dy) l /\ single (area dx dy h) (nearest (l * IZR h)%R) /\ close 5 (nearest (l * IZR h)%R) (wall_area dx dy h).
Proof. exact rounded_area. Qed.
Print Assumptions C104_area.

Theorem C104_length : forall dx dy, fits dx -> fits dy ->
  exists l, l = nearest (sqrt (nearest (nearest (IZR dx * IZR dx) + nearest (IZR dy * IZR dy))))%R
    /\ single (f32_length dx dy) l /\ close 3 l (line_length dx dy).
Proof. exact length_near. Qed.
Print Assumptions C104_length.

(** and exact for walls along an axis. *)
Theorem C104_straight : forall d h, fits d -> fits h -> Z.abs (d * h) <= 2 ^ 24 ->
  single (area d 0 h) (IZR (Z.abs d * h)) /\ single (area 0 d h) (IZR (Z.abs d * h)).
Proof. exact straight_area. Qed.
Print Assumptions C104_straight.

Example C104_example : fits (-1000) /\ f32_length 3 4 = f32_of_Z 5 /\ f32_length 1 1 = S754_finite false 11863283 (-23)
  /\ area (-128) 0 72 = f32_of_Z 9216 /\ area 1 1 (-2) = S754_finite true 11863283 (-22).
Proof. vm_compute. repeat split; discriminate. Qed.
