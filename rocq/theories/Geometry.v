(** src/shapeops.rs 40-172: points, areas and intersections of segments. *)

From Coq Require Import List ZArith Bool.
From Verif Require Import Base Float.
Import ListNotations.
Local Open Scope Z_scope.

(** [partial_cmp(..).unwrap()] *)
Definition fcmp (a b : f64) : outcome comparison :=
  match f64_cmp a b with
  | Some c => Ok c
  | None => Panic PUnwrap
  end.

(** [Ordering::then] on evaluated arguments. *)
Definition cmp_then (a b : comparison) : comparison := match a with Eq => b | _ => a end.

(** src/shapeops.rs 52-54 *)
Definition compare_points (a b : point) : outcome comparison :=
  let* cx := fcmp (px a) (px b) in
  let* cy := fcmp (py a) (py b) in
  Ok (cmp_then cx cy).

(** src/shapeops.rs 62-64 *)
Definition triangle_signed_area (a b c : point) : f64 :=
  f64_sub (f64_mul (f64_sub (px a) (px c)) (f64_sub (py b) (py c)))
          (f64_mul (f64_sub (px b) (px c)) (f64_sub (py a) (py c))).

(** src/shapeops.rs 66-82 *)
Definition check_span_overlap (u0 u1 v0 v1 : f64) : option (f64 * f64) :=
  if f64_lt u1 v0 || f64_gt u0 v1 then None
  else if f64_gt u1 v0 then
    if f64_lt u0 v1 then Some (f64_max u0 v0, f64_min u1 v1) else Some (u0, u0)
  else Some (u1, u1).

(** src/shapeops.rs 84-89 *)
Inductive intersection :=
| INone
| IPoint (p : point)
| ISegment (p q : point).

(** src/shapeops.rs 114-118 and 155-159: snapping to an end of a segment. *)
Definition snap (ends : list point) (p : point) : point :=
  fold_left (fun p e => if f64_lt (v_square_length (p_sub p e)) f64_1em15 then e else p) ends p.

(** src/shapeops.rs 129-134: rounding almost-integers. *)
Definition round_near (x : f64) : f64 :=
  if f64_lt (f64_abs (f64_fract x)) f64_1em9 then f64_round x else x.

(** src/shapeops.rs 93-172 *)
Definition intersect_segments (seg0 seg1 : point * point) : intersection :=
  let p0 := fst seg0 in
  let d0 := p_sub (snd seg0) p0 in
  let p1 := fst seg1 in
  let d1 := p_sub (snd seg1) p1 in
  let sep := p_sub p1 p0 in
  let kross := v_cross d0 d1 in
  let d0len2 := v_square_length d0 in
  let d1len2 := v_square_length d1 in
  let ends := [fst seg0; snd seg0; fst seg1; snd seg1] in
  if f64_gt (f64_mul kross kross) (f64_mul (f64_mul f64_1em7 d0len2) d1len2) then
    let s := f64_div (v_cross sep d1) kross in
    if f64_lt s f64_zero || f64_gt s f64_one then INone
    else
      let t := f64_div (v_cross sep d0) kross in
      if f64_lt t f64_zero || f64_gt t f64_one then INone
      else
        let p := snap ends (p_add p0 (v_scale d0 s)) in
        IPoint (mk_point (round_near (px p)) (round_near (py p)))
  else
    let kross := v_cross sep d0 in
    if f64_gt (f64_mul kross kross) (f64_mul (f64_mul f64_1em7 d0len2) (v_square_length sep)) then INone
    else
      let s0 := f64_div (v_dot d0 sep) d0len2 in
      let s1 := f64_add s0 (f64_div (v_dot d0 d1) d0len2) in
      let smin := f64_min s0 s1 in
      let smax := f64_max s0 s1 in
      match check_span_overlap f64_zero f64_one smin smax with
      | Some (begin_, end_) =>
          let p := snap ends (p_add p0 (v_scale d0 begin_)) in
          if f64_eq begin_ end_ then IPoint p
          else ISegment p (p_add p0 (v_scale d0 end_))
      | None => INone
      end.
