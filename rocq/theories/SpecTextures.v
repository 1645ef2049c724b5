(** What [count_textures] should report: which texture is on which part of a
    wall, and how large the part is. *)

From Coq Require Import String List ZArith Bool.
From Verif Require Import Base ParseMap SectorPolys SpecSector CountTextures.
Import ListNotations.
Local Open Scope Z_scope.

Definition fits (z : Z) : Prop := -32768 <= z <= 32767.
Definition fits_neg (z : Z) : Prop := -32767 <= z <= 32767.

Section Walls.
  Context {L T : Type} (ops : line_ops L) (m : binary_map L T).

  (** Side number [id] is [sd], in sector [sc]. *)
  Definition side_sector (id : Z) (sd : bare_side) (sc : bare_sector) : Prop :=
    item_at (m_sides m) id sd /\ item_at (m_sectors m) (sd_sector sd) sc.

  (** The f32 length of a line whose coordinate differences are [dx], [dy]. *)
  Definition f32_length (dx dy : Z) : f32 :=
    f32_sqrt (f32_add (f32_mul (f32_of_Z dx) (f32_of_Z dx)) (f32_mul (f32_of_Z dy) (f32_of_Z dy))).
  Definition area (dx dy h : Z) : f32 := f32_mul (f32_length dx dy) (f32_of_Z h).

  Definition line_deltas (l : L) (dx dy : Z) : Prop :=
    exists v0 v1, item_at (m_vertices m) (fst (lo_vertices ops l)) v0 /\ item_at (m_vertices m) (snd (lo_vertices ops l)) v1
      /\ dx = vx v1 - vx v0 /\ dy = vy v1 - vy v0.

  (** The texture uses the function attributes to a line, with their areas. The
      line's indices exist and no 16-bit difference overflows. *)
  Inductive line_uses (l : L) : list (bytes * f32) -> Prop :=
  | uses_none : fst (lo_sides ops l) = -1 -> snd (lo_sides ops l) = -1 -> line_uses l []
  | uses_one : forall id sd sc dx dy,
      (fst (lo_sides ops l) = id /\ snd (lo_sides ops l) = -1) \/ (fst (lo_sides ops l) = -1 /\ snd (lo_sides ops l) = id) ->
      id <> -1 -> side_sector id sd sc -> line_deltas l dx dy -> fits dx -> fits dy ->
      fits (sc_ceil sc - sc_floor sc) ->
      line_uses l [(sd_middle sd, area dx dy (sc_ceil sc - sc_floor sc))]
  | uses_two : forall f fs b bs dx dy,
      fst (lo_sides ops l) <> -1 -> snd (lo_sides ops l) <> -1 ->
      side_sector (fst (lo_sides ops l)) f fs -> side_sector (snd (lo_sides ops l)) b bs ->
      line_deltas l dx dy -> fits dx -> fits dy ->
      fits_neg (sc_ceil fs - sc_ceil bs) -> fits_neg (sc_floor fs - sc_floor bs) ->
      let top := Z.min (sc_ceil fs) (sc_ceil bs) in
      let bottom := Z.min (sc_floor fs) (sc_floor bs) in
      fits (top - bottom) ->
      line_uses l
        ([(sd_upper f, area dx dy (Z.abs (sc_ceil fs - sc_ceil bs)));
          (sd_lower (if sc_floor bs <? sc_floor fs then b else f), area dx dy (Z.abs (sc_floor fs - sc_floor bs)))]
         ++ if bottom <? top then [(sd_middle f, area dx dy (top - bottom)); (sd_middle b, area dx dy (top - bottom))] else []).

  (** The indices [count_textures] uses for the line exist. *)
  Definition line_indices_exist (l : L) : Prop :=
    (fst (lo_sides ops l) = -1 /\ snd (lo_sides ops l) = -1)
    \/ ((exists dx dy, line_deltas l dx dy)
        /\ forall id, id = fst (lo_sides ops l) \/ id = snd (lo_sides ops l) -> id <> -1 -> exists sd sc, side_sector id sd sc).

  (** The part of the wall a texture is really visible on (the lower texture of
      the side with the lower floor, the upper texture of the side with the
      higher ceiling, the middle textures in the opening). *)
  Definition visible_uses (l : L) (us : list (bytes * Z)) : Prop :=
    exists f fs b bs, side_sector (fst (lo_sides ops l)) f fs /\ side_sector (snd (lo_sides ops l)) b bs
      /\ let top := Z.min (sc_ceil fs) (sc_ceil bs) in
         let bottom := Z.max (sc_floor fs) (sc_floor bs) in
         us = (if sc_ceil fs =? sc_ceil bs then []
               else [(sd_upper (if sc_ceil bs <? sc_ceil fs then f else b), Z.abs (sc_ceil fs - sc_ceil bs))])
              ++ (if sc_floor fs =? sc_floor bs then []
                  else [(sd_lower (if sc_floor fs <? sc_floor bs then f else b), Z.abs (sc_floor fs - sc_floor bs))])
              ++ (if bottom <? top then [(sd_middle f, top - bottom); (sd_middle b, top - bottom)] else []).
End Walls.

(** The areas of the uses of one texture. *)
Definition uses_of (tex : bytes) (us : list (bytes * f32)) : list f32 :=
  map snd (filter (fun u => bytes_eqb (fst u) tex) us).
(** f32 sum, first to last. *)
Definition total (l : list f32) : f32 := fold_left f32_add l f32_zero.

(** [c] reports every used texture but "-", with its number of uses and total area. *)
Definition reports (c : counts) (us : list (bytes * f32)) : Prop :=
  NoDup (map fst c)
  /\ forall tex n a, In (tex, (n, a)) c <->
       (tex <> bs "-" /\ uses_of tex us <> [] /\ n = Z.of_nat (length (uses_of tex us)) /\ a = total (uses_of tex us)).
