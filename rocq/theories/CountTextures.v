(** src/parse/map.rs 595-690: [BareBinaryMap::count_textures]. *)

From Coq Require Import String List ZArith Bool Floats.SpecFloat.
From Verif Require Import Base ParseMap SectorPolys.
Import ListNotations.
Local Open Scope Z_scope.

(** ** f32 *)
Definition f32 := spec_float.
Definition f32_add : f32 -> f32 -> f32 := SFadd 24 128.
Definition f32_mul : f32 -> f32 -> f32 := SFmul 24 128.
Definition f32_sqrt : f32 -> f32 := SFsqrt 24 128.
(** [i16 as f32] *)
Definition f32_of_Z (z : Z) : f32 := binary_normalize 24 128 z 0 false.
Definition f32_zero : f32 := S754_zero false.
Definition f32_gt (a b : f32) : bool := SFltb b a.

(** i16 subtraction. *)
Definition sub_i16 (mode : build) (a b : Z) : outcome Z :=
  match mode with
  | Checked => if in_i16 (a - b) then Ok (a - b) else Panic POverflow
  | Wrapping => Ok (wrap_i16 (a - b))
  end.

(** The [HashMap<&str, (usize, f32)>]. The use counter is not bounded: it is at
    most four times the number of lines in memory. *)
Definition counts := list (bytes * (Z * f32)).

(** [*entry(tex).or_insert((0, 0.0))] with both parts increased. *)
Fixpoint bump (c : counts) (tex : bytes) (area : f32) : counts :=
  match c with
  | [] => [(tex, (1, f32_add f32_zero area))]
  | (k, (n, a)) :: c' =>
      if bytes_eqb k tex then (k, (n + 1, f32_add a area)) :: c' else (k, (n, a)) :: bump c' tex area
  end.

(** src/parse/map.rs 601-608: the closure [add]. *)
Definition count_add (c : counts) (tex : bytes) (area : f32) : counts :=
  if bytes_eqb tex (bs "-") then c else bump c tex area.

(** src/parse/map.rs 628-667: a two-sided line. *)
Definition count_two_sided {L T} (mode : build) (m : binary_map L T) (length : f32) (frontid backid : Z)
    (c : counts) : outcome counts :=
  let* front_side := index (m_sides m) (as_usize frontid) in
  let* back_side := index (m_sides m) (as_usize backid) in
  let* front_sector := index (m_sectors m) (as_usize (sd_sector front_side)) in
  let* back_sector := index (m_sectors m) (as_usize (sd_sector back_side)) in
  let* ceiling_diff := sub_i16 mode (sc_ceil front_sector) (sc_ceil back_sector) in
  let* (c, lowest_ceiling) :=
    (if 0 <? ceiling_diff then
       Ok (count_add c (sd_upper front_side) (f32_mul length (f32_of_Z ceiling_diff)), sc_ceil back_sector)
     else
       let* h := neg_i16 mode ceiling_diff in
       Ok (count_add c (sd_upper front_side) (f32_mul length (f32_of_Z h)), sc_ceil front_sector)) in
  let* floor_diff := sub_i16 mode (sc_floor front_sector) (sc_floor back_sector) in
  let* (c, highest_floor) :=
    (if 0 <? floor_diff then
       Ok (count_add c (sd_lower back_side) (f32_mul length (f32_of_Z floor_diff)), sc_floor back_sector)
     else
       let* h := neg_i16 mode floor_diff in
       Ok (count_add c (sd_lower front_side) (f32_mul length (f32_of_Z h)), sc_floor front_sector)) in
  let* mh := sub_i16 mode lowest_ceiling highest_floor in
  let middle_height := f32_of_Z mh in
  if f32_gt middle_height f32_zero then
    let c := count_add c (sd_middle front_side) (f32_mul length middle_height) in
    Ok (count_add c (sd_middle back_side) (f32_mul length middle_height))
  else Ok c.

(** src/parse/map.rs 668-684: a line with one side. *)
Definition count_one_sided {L T} (mode : build) (m : binary_map L T) (length : f32) (id : Z)
    (c : counts) : outcome counts :=
  let* side := index (m_sides m) (as_usize id) in
  let* sector := index (m_sectors m) (as_usize (sd_sector side)) in
  let* mh := sub_i16 mode (sc_ceil sector) (sc_floor sector) in
  Ok (count_add c (sd_middle side) (f32_mul length (f32_of_Z mh))).

(** src/parse/map.rs 611-685: one line. *)
Definition count_line {L T} (mode : build) (ops : line_ops L) (m : binary_map L T) (c : counts) (l : L)
    : outcome counts :=
  let '(frontid, backid) := lo_sides ops l in
  if (frontid =? -1) && (backid =? -1) then Ok c
  else
    let '(v0i, v1i) := lo_vertices ops l in
    let* v0 := index (m_vertices m) (as_usize v0i) in
    let* v1 := index (m_vertices m) (as_usize v1i) in
    let* idx := sub_i16 mode (vx v1) (vx v0) in
    let dx := f32_of_Z idx in
    let* idy := sub_i16 mode (vy v1) (vy v0) in
    let dy := f32_of_Z idy in
    let length := f32_sqrt (f32_add (f32_mul dx dx) (f32_mul dy dy)) in
    if negb (frontid =? -1) && negb (backid =? -1) then count_two_sided mode m length frontid backid c
    else if backid =? -1 then count_one_sided mode m length frontid c
    else if frontid =? -1 then count_one_sided mode m length backid c
    else Ok c.

(** src/parse/map.rs 595-690 *)
Definition count_textures {L T} (mode : build) (ops : line_ops L) (m : binary_map L T) : outcome counts :=
  ofold (count_line mode ops m) (m_lines m) [].
