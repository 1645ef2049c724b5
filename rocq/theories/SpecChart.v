(** Specification vocabulary for the chart command. *)

From Coq Require Import String List ZArith QArith.
From Verif Require Import ParseWad ParseMap SpecArchive SpecLumps SpecMapModel SectorPolys SpecSector Actors Chart SpecRoute.
Import ListNotations.
Local Open Scope Z_scope.

(** ** What an SVG path draws *)

(** The strokes of a pen following the commands. *)
Fixpoint strokes_from {N} (pen : option (N * N)) (d : list (command N)) : list ((N * N) * (N * N)) :=
  match d with
  | [] => []
  | MoveTo x y :: d' => strokes_from (Some (x, y)) d'
  | LineTo x y :: d' =>
      match pen with Some p => [(p, (x, y))] | None => [] end ++ strokes_from (Some (x, y)) d'
  end.
Definition strokes {N} (d : list (command N)) := strokes_from None d.

(** The places the pen goes to. *)
Definition corners {N} (d : list (command N)) : list (N * N) :=
  map (fun c => match c with MoveTo x y => (x, y) | LineTo x y => (x, y) end) d.

(** What can be seen of a scaled group through a view box. *)
Definition visible (view : Z * Z * Z * Z) (scale : Z * Z) (p : Z * Z) : Prop :=
  let '(x, y, w, h) := view in
  x <= fst scale * fst p <= x + w /\ y <= snd scale * snd p <= y + h.

(** ** Styles *)

(** The classes are those and no others, each once. *)
Definition exactly (cs : list string) (P : string -> Prop) : Prop :=
  NoDup cs /\ forall c, In c cs <-> P c.

(** The class for the sides of a line; -1 means none. *)
Inductive sided (f b : Z) : string -> Prop :=
| zero_sided : f = -1 -> b = -1 -> sided f b "zero-sided"
| one_sided : (f = -1 /\ b <> -1) \/ (f <> -1 /\ b = -1) -> sided f b "one-sided"
| two_sided : f <> -1 -> b <> -1 -> sided f b "two-sided".

Inductive colour : thing_category -> string -> Prop :=
| c_start : colour PlayerStart "green"
| c_monster : colour Monster "red"
| c_misc : colour Miscellaneous "gray"
| c_other : forall c, c <> PlayerStart -> c <> Monster -> c <> Miscellaneous -> colour c "magenta".

(** Colour and radius of things of type [num]. *)
Definition thing_style (num : Z) (fill : string) (r : Z) : Prop :=
  (exists a, first_with (fun a => a_doomednum a = Some num) doom2_actors a
     /\ r = a_radius a /\ colour (a_category a) fill)
  \/ ((forall a, In a doom2_actors -> a_doomednum a <> Some num) /\ r = 8 /\ fill = "gray"%string).

(** ** Shapes, up to the representation of numbers *)

Section Shapes.
  Context {N : Type} (value : N -> Z -> Prop).

  Definition line_between (s : shape N) (p q : bare_vertex) (cs : list string) : Prop :=
    exists x1 y1 x2 y2, s = SLine x1 y1 x2 y2 cs
      /\ value x1 (vx p) /\ value y1 (vy p) /\ value x2 (vx q) /\ value y2 (vy q).

  Definition square_about (s : shape N) (p : Z * Z) (r : Z) (fill : string) : Prop :=
    exists x y, s = SRect x y (2 * r) (2 * r) fill /\ value x (fst p - r) /\ value y (snd p - r).

  Definition view_is (view : N * N * N * N) (z : Z * Z * Z * Z) : Prop :=
    let '(x, y, w, h) := view in
    let '(zx, zy, zw, zh) := z in
    value x zx /\ value y zy /\ value w zw /\ value h zh.
End Shapes.

(** ** Doom maps *)

Section Doom.
  Variable b : doom_map.

  (** The sector a side faces. *)
  Definition faces (id : Z) (sec : bare_sector) : Prop :=
    exists sd, item_at (m_sides b) id sd /\ item_at (m_sectors b) (sd_sector sd) sec.

  (** The player can step over the line either way: at most 24 up, and 56 of headroom. *)
  Definition can_step (l : doom_line) : Prop :=
    exists f k, faces (dl_front l) f /\ faces (dl_back l) k
      /\ sc_floor f - sc_floor k <= 24 /\ sc_floor k - sc_floor f <= 24
      /\ forall lo hi, lo = sc_floor f \/ lo = sc_floor k -> hi = sc_ceil f \/ hi = sc_ceil k -> 56 <= hi - lo.

  Inductive line_class (l : doom_line) : string -> Prop :=
  | lc_line : line_class l "line"
  | lc_sides : forall c, sided (dl_front l) (dl_back l) c -> line_class l c
  | lc_special : dl_special l <> 0 -> line_class l "has-special"
  | lc_blocking : Z.odd (dl_flags l) = true -> line_class l "blocking"
  | lc_step : dl_front l <> -1 -> dl_back l <> -1 -> can_step l -> line_class l "step".

  Definition line_drawn {N} (value : N -> Z -> Prop) (l : doom_line) (s : shape N) : Prop :=
    exists p q cs, item_at (m_vertices b) (dl_v0 l) p /\ item_at (m_vertices b) (dl_v1 l) q
      /\ line_between value s p q cs /\ exactly cs (line_class l).

  Definition thing_drawn {N} (value : N -> Z -> Prop) (t : doom_thing) (s : shape N) : Prop :=
    exists fill r, thing_style (dt_num t) fill r /\ square_about value s (dt_x t, dt_y t) r fill.

  (** A line with its back to the sector that acts on no tagged sector. *)
  Definition untagged_special (k : nat) : Prop :=
    exists l sd, In l (m_lines b) /\ item_at (m_sides b) (dl_back l) sd /\ sd_sector sd = Z.of_nat k
      /\ dl_special l <> 0 /\ dl_tag l = 0.

  Inductive sector_class (k : nat) (sec : bare_sector) : string -> Prop :=
  | sk_sector : sector_class k sec "sector"
  | sk_secret : sc_type sec = 9 -> sector_class k sec "secret"
  | sk_implicit : untagged_special k -> sector_class k sec "implicit-tag".

  (** Sector number [k] is drawn along the given outlines. *)
  Definition sector_drawn {N} (outlines : list (list (N * N))) (k : nat) (sec : bare_sector) (s : shape N) : Prop :=
    exists d tag light cs, s = SPath d tag (Some light) cs
      /\ strokes d = flat_map edges_of outlines
      /\ (forall t, tag = Some t <-> sc_tag sec <> 0 /\ pattern_of 32 (sc_tag sec) t)
      /\ pattern_of 8 (sc_light sec) light
      /\ exactly cs (sector_class k sec).

  (** All the references that are followed lead somewhere. *)
  Definition chart_refs : Prop :=
    (forall l, In l (m_lines b) -> has_item (m_vertices b) (dl_v0 l) /\ has_item (m_vertices b) (dl_v1 l))
    /\ (forall l, In l (m_lines b) -> dl_front l <> -1 -> dl_back l <> -1 ->
          (exists f, faces (dl_front l) f) /\ (exists k, faces (dl_back l) k))
    /\ (m_sectors b <> [] -> forall l id, In l (m_lines b) -> id = dl_front l \/ id = dl_back l ->
          id = -1 \/ has_item (m_sides b) id).

  (** Vectors have less than 2^63 elements. *)
  Definition small_map : Prop :=
    Z.of_nat (length (m_vertices b)) <= 2 ^ 63 /\ Z.of_nat (length (m_sides b)) <= 2 ^ 63
    /\ Z.of_nat (length (m_sectors b)) <= 2 ^ 63.
End Doom.

(** ** Bare maps of either format *)

Section Bare.
  Context {L T : Type} (ops : chart_ops L T) (m : binary_map L T).

  Inductive bare_line_class (l : L) : string -> Prop :=
  | bl_line : bare_line_class l "line"
  | bl_sides : forall c, sided (fst (lo_sides (co_line ops) l)) (snd (lo_sides (co_line ops) l)) c -> bare_line_class l c
  | bl_special : co_special ops l = true -> bare_line_class l "has-special".

  (** A line is drawn as itself and the region around it in which no player fits. *)
  Definition bare_line_drawn (l : L) (ss : list (shape Z)) : Prop :=
    exists p q s cs d, item_at (m_vertices m) (fst (lo_vertices (co_line ops) l)) p
      /\ item_at (m_vertices m) (snd (lo_vertices (co_line ops) l)) q
      /\ ss = [s; SPath d None None ["line-dilation"%string]]
      /\ line_between eq s p q cs /\ exactly cs (bare_line_class l)
      /\ forall x y, in_convex (corners d) x y <-> touches 16 (vx p, vy p) (vx q, vy q) x y.

  Definition bare_thing_drawn (t : T) (s : shape Z) : Prop :=
    exists fill r, thing_style (co_num ops t) fill r /\ square_about eq s (co_coords ops t) r fill.

  Inductive bare_sector_class (sec : bare_sector) : string -> Prop :=
  | bs_sector : bare_sector_class sec "sector"
  | bs_secret : sc_type sec = 9 -> bare_sector_class sec "secret".

  Definition bare_sector_drawn (outlines : list (list Z)) (sec : bare_sector) (s : shape Z) : Prop :=
    exists d tag cs points, s = SPath d tag None cs
      /\ Forall2 (Forall2 (fun v p => exists bv, item_at (m_vertices m) v bv /\ p = (vx bv, vy bv))) outlines points
      /\ strokes d = flat_map edges_of points
      /\ (forall t, tag = Some t <-> sc_tag sec <> 0 /\ t = sc_tag sec)
      /\ exactly cs (bare_sector_class sec).

  Definition bare_refs : Prop :=
    (forall l, In l (m_lines m) -> has_item (m_vertices m) (fst (lo_vertices (co_line ops) l))
       /\ has_item (m_vertices m) (snd (lo_vertices (co_line ops) l)))
    /\ (m_sectors m <> [] -> forall l id, In l (m_lines m) ->
          id = fst (lo_sides (co_line ops) l) \/ id = snd (lo_sides (co_line ops) l) ->
          id = -1 \/ has_item (m_sides m) id).

  (** Vertices and things. *)
  Definition places : list (Z * Z) :=
    map (fun v => (vx v, vy v)) (m_vertices m) ++ map (co_coords ops) (m_things m).

  (** The drawing fits 16-bit numbers: the ends of lines keep 16 units away from the
      limits, things keep their radius away from the lower ones, and the map is at
      most 32767 wide and high and not all along the lower limit. *)
  Definition fits : Prop :=
    (forall l v, In l (m_lines m) ->
       item_at (m_vertices m) (fst (lo_vertices (co_line ops) l)) v
       \/ item_at (m_vertices m) (snd (lo_vertices (co_line ops) l)) v ->
       -32752 <= vx v <= 32751 /\ -32752 <= vy v <= 32751)
    /\ (forall t fill r, In t (m_things m) -> thing_style (co_num ops t) fill r ->
          -32768 <= fst (co_coords ops t) - r /\ -32768 <= snd (co_coords ops t) - r)
    /\ (forall p q, In p places -> In q places -> fst p - fst q <= 32767 /\ snd p - snd q <= 32767)
    /\ (places = [] \/ exists p, In p places /\ snd p <> -32768).

  (** Everything is 16-bit. *)
  Definition bare_i16 : Prop :=
    i16_indices (co_line ops) m
    /\ (forall p, In p places -> is_i16 (fst p) /\ is_i16 (snd p))
    /\ (forall t, In t (m_things m) -> is_i16 (co_num ops t))
    /\ Z.of_nat (length (m_sectors m)) <= 2 ^ 63.
End Bare.

(** ** The command *)

(** The first entry of the directory named like a map. *)
Definition first_marker (dir : list dir_entry) (i : nat) : Prop :=
  marker dir i /\ forall j, (j < i)%nat -> ~ marker dir j.

(** A square filled with green. *)
Definition green {N} (s : shape N) : Prop := match s with SRect _ _ _ _ fill => fill = "green"%string | _ => False end.
