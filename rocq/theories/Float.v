(** IEEE 754 doubles and the euclid types built on them.

    [f64] is the standard library's pure specification of binary floating point
    ([Coq.Floats.SpecFloat]): round to nearest even, one NaN, no primitive
    floats. *)

From Coq Require Import ZArith Bool List.
From Coq Require Export Floats.SpecFloat.
Import ListNotations.
Local Open Scope Z_scope.

Definition f64 := spec_float.

Definition f64_add : f64 -> f64 -> f64 := SFadd 53 1024.
Definition f64_sub : f64 -> f64 -> f64 := SFsub 53 1024.
Definition f64_mul : f64 -> f64 -> f64 := SFmul 53 1024.
Definition f64_div : f64 -> f64 -> f64 := SFdiv 53 1024.
Definition f64_sqrt : f64 -> f64 := SFsqrt 53 1024.
Definition f64_neg : f64 -> f64 := SFopp.
Definition f64_abs : f64 -> f64 := SFabs.

(** Rust's [<], [<=], [>], [==] and [partial_cmp] on f64. *)
Definition f64_lt (a b : f64) : bool := SFltb a b.
Definition f64_le (a b : f64) : bool := SFleb a b.
Definition f64_gt (a b : f64) : bool := SFltb b a.
Definition f64_eq (a b : f64) : bool := SFeqb a b.
Definition f64_cmp (a b : f64) : option comparison := SFcompare a b.

(** [as f64] from an integer type. *)
Definition f64_of_Z (z : Z) : f64 := binary_normalize 53 1024 z 0 false.

Definition f64_zero : f64 := S754_zero false.
Definition f64_one : f64 := f64_of_Z 1.
Definition f64_nan : f64 := S754_nan.

Definition f64_is_nan (a : f64) : bool := match a with S754_nan => true | _ => false end.

(** [f64::max], [f64::min] (2018 std: [if self.is_nan() || self < other]). *)
Definition f64_max (a b : f64) : f64 := if f64_is_nan a || f64_lt a b then b else a.
Definition f64_min (a b : f64) : f64 := if f64_is_nan b || f64_lt a b then a else b.

(** [f64::trunc]. *)
Definition f64_trunc (a : f64) : f64 :=
  match a with
  | S754_finite s m e =>
      if 0 <=? e then a
      else match Z.pos m / 2 ^ (- e) with
           | Z.pos q => binary_round 53 1024 s q 0
           | _ => S754_zero s
           end
  | _ => a
  end.
(** [f64::fract]: [self - self.trunc()]. *)
Definition f64_fract (a : f64) : f64 := f64_sub a (f64_trunc a).
(** [f64::round]: half away from zero. *)
Definition f64_round (a : f64) : f64 :=
  match a with
  | S754_finite s m e =>
      if 0 <=? e then a
      else match (2 * Z.pos m + 2 ^ (- e)) / (2 * 2 ^ (- e)) with
           | Z.pos q => binary_round 53 1024 s q 0
           | _ => S754_zero s
           end
  | _ => a
  end.

(** The literals 0.0000001, 0.000000000000001 and 1e-9: the doubles nearest to
    these decimals. [1 / 10^k] rounds once and [10^k] is exact below 2^53, so
    the quotient is that double. *)
Definition f64_1em7 : f64 := Eval vm_compute in f64_div f64_one (f64_of_Z 10000000).
Definition f64_1em9 : f64 := Eval vm_compute in f64_div f64_one (f64_of_Z 1000000000).
Definition f64_1em15 : f64 := Eval vm_compute in f64_div f64_one (f64_of_Z 1000000000000000).

(** ** euclid 0.16 (src/geom.rs 1-9) *)

(** [TypedPoint2D<f64>] and [TypedVector2D<f64>]. *)
Record point := mk_point { px : f64; py : f64 }.

(** [==] on points: componentwise. *)
Definition point_eqb (a b : point) : bool := f64_eq (px a) (px b) && f64_eq (py a) (py b).
Definition p_sub (a b : point) : point := mk_point (f64_sub (px a) (px b)) (f64_sub (py a) (py b)).
Definition p_add (a b : point) : point := mk_point (f64_add (px a) (px b)) (f64_add (py a) (py b)).
Definition v_scale (a : point) (k : f64) : point := mk_point (f64_mul (px a) k) (f64_mul (py a) k).
Definition v_dot (a b : point) : f64 := f64_add (f64_mul (px a) (px b)) (f64_mul (py a) (py b)).
Definition v_cross (a b : point) : f64 := f64_sub (f64_mul (px a) (py b)) (f64_mul (py a) (px b)).
Definition v_square_length (a : point) : f64 := v_dot a a.
Definition v_length (a : point) : f64 := f64_sqrt (v_square_length a).

(** [TypedRect<f64>]: origin and size. *)
Record rect := mk_rect { r_x : f64; r_y : f64; r_w : f64; r_h : f64 }.
Definition rect_zero : rect := mk_rect f64_zero f64_zero f64_zero f64_zero.

(** The loop of [TypedRect::from_points]. *)
Fixpoint from_points_loop (l : list point) (minx miny maxx maxy : f64) : rect :=
  match l with
  | [] => mk_rect minx miny (f64_sub maxx minx) (f64_sub maxy miny)
  | p :: l' =>
      from_points_loop l'
        (if f64_lt (px p) minx then px p else minx)
        (if f64_lt (py p) miny then py p else miny)
        (if f64_gt (px p) maxx then px p else maxx)
        (if f64_gt (py p) maxy then py p else maxy)
  end.
(** [TypedRect::from_points]. *)
Definition from_points (l : list point) : rect :=
  match l with
  | [] => rect_zero
  | p :: l' => from_points_loop l' (px p) (py p) (px p) (py p)
  end.

Definition r_max_x (r : rect) : f64 := f64_add (r_x r) (r_w r).
Definition r_max_y (r : rect) : f64 := f64_add (r_y r) (r_h r).
