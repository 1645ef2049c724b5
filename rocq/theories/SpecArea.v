(** What the areas that [count_textures] reports have to do with real ones. *)

From Coq Require Import ZArith Reals Floats.SpecFloat.
From Verif Require Import CountTextures SpecTextures.
From Flocq Require Import Core IEEE754.BinarySingleNaN.
Local Open Scope R_scope.

(** A finite single-precision number, and the real number it stands for. *)
Definition single (f : f32) (r : R) : Prop :=
  is_finite_SF f = true /\ valid_binary 24 128 f = true /\ SF2R radix2 f = r.
(** The nearest single-precision number to [r], the even one of two. *)
Definition nearest (r : R) : R := round radix2 (FLT_exp (-149) 24) ZnearestE r.
(** [r] is within [n] half units in the last place, relatively, of [s]. *)
Definition close (n : Z) (r s : R) : Prop := Rabs (r - s) <= IZR n / 2 ^ 24 * Rabs s.

(** The true length of a line and size of a part of a wall. *)
Definition line_length (dx dy : Z) : R := sqrt (IZR (dx * dx + dy * dy)).
Definition wall_area (dx dy h : Z) : R := line_length dx dy * IZR h.
