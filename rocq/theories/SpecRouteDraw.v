(** Specification vocabulary for the drawing of the route command. *)

From Coq Require Import String List ZArith QArith Sorted Permutation.
From Verif Require Import Base ParseWad ArchiveWad SpecMapName SpecArchive Float SpecFloat64 SpecIntersect MapModel Contours Route SpecRoute Chart SpecChart RouteDraw.
Import ListNotations.
Local Open Scope Z_scope.

(** ** Lines *)

Definition vertex_of (m : gmap) (h : handle) (v : vertex) : Prop :=
  0 <= h /\ nth_error (g_vertices m) (Z.to_nat h) = Some v.

(** The classes of a line; the class for the number of its sides. *)
Inductive route_class (l : line) : string -> Prop :=
| rc_line : route_class l "line"
| rc_none : ln_front l = None -> ln_back l = None -> route_class l "zero-sided"
| rc_front : ln_front l <> None -> ln_back l = None -> route_class l "one-sided"
| rc_back : ln_front l = None -> ln_back l <> None -> route_class l "one-sided"
| rc_both : ln_front l <> None -> ln_back l <> None -> route_class l "two-sided".

Definition route_line_drawn (m : gmap) (l : line) (s : shape f64) : Prop :=
  exists p q cs, vertex_of m (ln_start l) p /\ vertex_of m (ln_end l) q
    /\ s = SLine (px p) (py p) (px q) (py q) cs /\ exactly cs (route_class l).

(** ** Contours *)

Definition xy (p : point) : f64 * f64 := (px p, py p).

(** The commands draw the edges of the contour and of its holes. *)
Definition contour_drawn (result : polygon) (c : contour) (d : list (command f64)) : Prop :=
  exists hs, Forall2 (fun h hc => nth_error result h = Some hc) (c_holes c) hs
    /\ Permutation (strokes d) (flat_map (fun c => edges_of (map xy (c_points c))) (c :: hs)).

Definition names_ref (r : polygon_ref) (o : origin) : Prop :=
  match r with
  | RSector h => o = FromSector h
  | RLine l => o = FromLine (ln_index l)
  end.

(** The origins are those of the polygons the contour comes from, in order. *)
Definition origins_shown (refs : list polygon_ref) (c : contour) (os : list origin) : Prop :=
  exists ks, StronglySorted lt ks /\ (forall k, In k ks <-> nth_error (c_from c) k = Some true)
    /\ Forall2 (fun k o => exists r, nth_error refs k = Some r /\ names_ref r o) ks os.

(** One path for every contour that is no hole, in order. *)
Definition drawn_contours (result : polygon) (paths : list route_path) : Prop :=
  StronglySorted lt (map rp_contour paths)
  /\ forall i, In i (map rp_contour paths) <-> exists c, nth_error result i = Some c /\ c_external c = true.

(** Contour [i] is in chunk number [k]. *)
Definition in_chunk (chunks : list (list nat)) (k i : nat) : Prop :=
  exists chunk, nth_error chunks k = Some chunk /\ In i chunk.

(** ** Numbers *)

(** The value is [q] up to 2^-40. *)
Definition nearly (f : f64) (q : Q) : Prop :=
  is_finite64 f /\ (- (1 # 2 ^ 40) <= f64_Q f - q <= 1 # 2 ^ 40)%Q.

(** ** The command *)

(** Entry [i] is the marker of one of MAP01 to MAP14. *)
Definition early (dir : list dir_entry) (i : nat) : Prop :=
  exists e n, nth_error dir i = Some e /\ denotes (name e) (MAPxx n) /\ n < 15.

(** The marker of the map the command looks at: the first that is not of those; the maps up
    to it are not broken. *)
Definition route_marker (dir : list dir_entry) (i : nat) : Prop :=
  marker dir i /\ ~ early dir i /\ (forall j, (j < i)%nat -> marker dir j -> early dir j)
  /\ forall j, (j <= i)%nat -> marker dir j -> ~ broken dir j.

(** ** What is missing in a drawing *)

(** The contour is drawn neither as itself nor as a hole of one that is. *)
Definition not_drawn (result : polygon) (i : nat) : Prop :=
  forall k c, nth_error result k = Some c -> c_external c = true -> k <> i /\ ~ In i (c_holes c).
