(** Specification vocabulary for intersections of segments: exact rational geometry. *)

From Coq Require Import ZArith QArith.
From Coq Require Import Floats.SpecFloat.
From Verif Require Import Float SpecFloat64.

(** The exact value of a finite double. *)
Definition f64_Q (f : spec_float) : Q :=
  match f with
  | S754_finite s m e =>
      let sm := if s then Z.neg m else Z.pos m in
      if (0 <=? e)%Z then inject_Z (sm * 2 ^ e) else (sm # Z.to_pos (2 ^ (- e)))
  | _ => 0
  end.
Definition is_finite64 (f : spec_float) : Prop :=
  is_f64 f /\ match f with S754_zero _ | S754_finite _ _ _ => True | _ => False end.

(** The point (x, y) lies on the segment from [a] to [b], ends included. *)
Definition on_segment (a b : Z * Z) (x y : Q) : Prop :=
  exists t : Q, 0 <= t /\ t <= 1
    /\ x == inject_Z (fst a) + t * inject_Z (fst b - fst a)
    /\ y == inject_Z (snd a) + t * inject_Z (snd b - snd a).

(** The point (x, y) lies on both segments. *)
Definition on_both (a b c d : Z * Z) (x y : Q) : Prop := on_segment a b x y /\ on_segment c d x y.

(** [p] is less than [eps] away from (x, y) in each coordinate. *)
Definition near (eps : Q) (p : point) (x y : Q) : Prop :=
  is_finite64 (px p) /\ is_finite64 (py p)
  /\ - eps < f64_Q (px p) - x /\ f64_Q (px p) - x < eps
  /\ - eps < f64_Q (py p) - y /\ f64_Q (py p) - y < eps.

Local Open Scope Z_scope.

(** Vectors: difference, cross and dot product, squared length. *)
Definition vsub (b a : Z * Z) : Z * Z := (fst b - fst a, snd b - snd a).
Definition vcross (u v : Z * Z) : Z := fst u * snd v - snd u * fst v.
Definition vdot (u v : Z * Z) : Z := fst u * fst v + snd u * snd v.
Definition vlen2 (u : Z * Z) : Z := vdot u u.

(** The directions [u] and [v] are not parallel, and not nearly so: the squared sine of
    the angle between them is above 1.001e-7. *)
Definition clearly_crossing (u v : Z * Z) : Prop :=
  vcross u v <> 0 /\ 1001 * (vlen2 u * vlen2 v) <= 10 ^ 10 * (vcross u v * vcross u v).

(** The segments lie on one line and have the same direction. *)
Definition in_line (a b c d : Z * Z) : Prop :=
  vcross (vsub b a) (vsub d c) = 0 /\ vcross (vsub c a) (vsub b a) = 0 /\ 0 < vdot (vsub b a) (vsub d c).

(** (x, y) is not behind [e] when looking in direction [u]. *)
Definition ahead (e u : Z * Z) (x y : Q) : Prop :=
  (0 <= (x - inject_Z (fst e)) * inject_Z (fst u) + (y - inject_Z (snd e)) * inject_Z (snd u))%Q.

(** (x, y) is the integer point [e]. *)
Definition is_at (e : Z * Z) (x y : Q) : Prop := (x == inject_Z (fst e))%Q /\ (y == inject_Z (snd e))%Q.
