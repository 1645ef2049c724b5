(** Specification of the in-memory map. *)

From Coq Require Import String List ZArith.
From Coq Require Import Strings.Byte.
From Verif Require Import SpecBytes ParseMap SpecLumps Float SpecFloat64 MapModel.
Import ListNotations.
Local Open Scope Z_scope.

(** [w] is the unsigned [bits]-bit pattern of the (sign-extended) integer [z]. *)
Definition pattern_of (bits : Z) (z w : Z) : Prop := 0 <= w < 2 ^ bits /\ exists k, w = z + k * 2 ^ bits.

Definition sector_as (b : bare_sector) (s : sector) : Prop :=
  ms_floor s = sc_floor b /\ ms_ceil s = sc_ceil b
  /\ pattern_of 32 (sc_tag b) (ms_tag s) /\ pattern_of 32 (sc_type b) (ms_special s)
  /\ pattern_of 8 (sc_light b) (ms_light s).

Definition vertex_as (b : bare_vertex) (v : vertex) : Prop :=
  int_valued (px v) (vx b) /\ int_valued (py v) (vy b).

Definition side_as (b : bare_side) (s : side) : Prop :=
  si_upper s = sd_upper b /\ si_lower s = sd_lower b /\ si_middle s = sd_middle b
  /\ pattern_of 64 (sd_sector b) (si_sector s).

Definition side_ref_as (b : Z) (o : option Z) : Prop :=
  match o with
  | None => b = -1
  | Some h => b <> -1 /\ pattern_of 64 b h
  end.

Definition line_as (b : doom_line) (l : line) : Prop :=
  pattern_of 64 (dl_v0 b) (ln_start l) /\ pattern_of 64 (dl_v1 b) (ln_end l)
  /\ pattern_of 32 (dl_flags b) (ln_flags l) /\ pattern_of 64 (dl_special b) (ln_special l)
  /\ pattern_of 32 (dl_tag b) (ln_tag l)
  /\ side_ref_as (dl_front b) (ln_front l) /\ side_ref_as (dl_back b) (ln_back l).

Definition thing_as (b : doom_thing) (t : thing) : Prop :=
  int_valued (px (th_point t)) (dt_x b) /\ int_valued (py (th_point t)) (dt_y b)
  /\ pattern_of 32 (dt_num b) (th_num t).

(** [r] is what an index lookup in [l] must give. *)
Definition looks_up {A} (l : list A) (i : Z) (r : Base.outcome A) : Prop :=
  (0 <= i < Z.of_nat (length l) -> exists a, nth_error l (Z.to_nat i) = Some a /\ r = Base.Ok a)
  /\ (~ 0 <= i < Z.of_nat (length l) -> exists p, r = Base.Panic p).

(** The same for an optional reference, where -1 means none. *)
Definition opt_looks_up {A} (l : list A) (z : Z) (r : Base.outcome (option A)) : Prop :=
  (z = -1 -> r = Base.Ok None)
  /\ (z <> -1 -> exists r', looks_up l z r' /\ r = Base.obind r' (fun a => Base.Ok (Some a))).

(** [t] is the first element satisfying [P], at position [i]. *)
Definition first_with {A} (P : A -> Prop) (l : list A) (t : A) : Prop :=
  exists i, nth_error l i = Some t /\ P t
    /\ forall j u, (j < i)%nat -> nth_error l j = Some u -> ~ P u.

(** The rectangle is exactly [x0, x1] x [y0, y1]. *)
Definition rect_is (r : rect) (x0 y0 x1 y1 : Z) : Prop :=
  int_valued (r_x r) x0 /\ int_valued (r_y r) y0
  /\ int_valued (r_w r) (x1 - x0) /\ int_valued (r_h r) (y1 - y0).

(** [lo, hi] is the tightest interval around the values [f a], [a] in [l]. *)
Definition tight {A} (f : A -> Z) (l : list A) (lo hi : Z) : Prop :=
  (forall a, In a l -> lo <= f a <= hi)
  /\ (exists a, In a l /\ f a = lo) /\ (exists a, In a l /\ f a = hi).
