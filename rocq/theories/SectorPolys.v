(** The two [sector_to_polygons] functions: src/parse/map.rs 480-592 (bare maps)
    and src/map.rs 202-379 (in-memory maps). *)

From Coq Require Import String List ZArith Bool.
From Verif Require Import Base ParseMap Float MapModel.
Import ListNotations.
Local Open Scope Z_scope.

(** ** Bare maps *)

(** src/parse/map.rs 192-226: the [BareBinaryLine] trait, the
    part used here. *)
Record line_ops (L : Type) := mk_lops {
  lo_vertices : L -> Z * Z;
  lo_sides : L -> Z * Z }.
Arguments mk_lops {L} _ _.
Arguments lo_vertices {L} _ _.
Arguments lo_sides {L} _ _.
Definition doom_line_ops : line_ops doom_line :=
  mk_lops (fun l => (dl_v0 l, dl_v1 l)) (fun l => (dl_front l, dl_back l)).
Definition hexen_line_ops : line_ops hexen_line :=
  mk_lops (fun l => (hl_v0 l, hl_v1 l)) (fun l => (hl_front l, hl_back l)).

(** src/parse/map.rs 481-488: [Edge]; a vertex reference is its index in
    [self.vertices] (references are only compared by address). *)
Record edge := mk_edge { e_v0 : Z; e_v1 : Z; e_done : bool }.

(** A [HashMap] from vertex addresses to vectors of edge numbers. *)
Definition vmap := list (Z * list nat).
Fixpoint vmap_get (m : vmap) (v : Z) : option (list nat) :=
  match m with
  | [] => None
  | (k, es) :: m' => if k =? v then Some es else vmap_get m' v
  end.
(** [.entry(k).or_insert_with(Vec::new).push(e)] *)
Fixpoint vmap_push (m : vmap) (v : Z) (e : nat) : vmap :=
  match m with
  | [] => [(v, [e])]
  | (k, es) :: m' => if k =? v then (k, es ++ [e]) :: m' else (k, es) :: vmap_push m' v e
  end.

(** src/parse/map.rs 500-527: one side of a line. *)
Definition bare_add_side {L T} (ops : line_ops L) (m : binary_map L T) (s : Z) (l : L)
    (st : list edge * vmap) (sideid : Z) : outcome (list edge * vmap) :=
  if sideid =? -1 then Ok st
  else
    let* sd := index (m_sides m) (as_usize sideid) in
    if as_usize (sd_sector sd) =? s then
      let '(v0, v1) := lo_vertices ops l in
      let* _ := index (m_vertices m) (as_usize v0) in
      let* _ := index (m_vertices m) (as_usize v1) in
      let '(edges, vm) := st in
      let edges := edges ++ [mk_edge (as_usize v0) (as_usize v1) false] in
      let vm := vmap_push vm (as_usize v0) (length edges - 1) in
      let vm := vmap_push vm (as_usize v1) (length edges - 1) in
      Ok (edges, vm)
    else Ok st.

(** src/parse/map.rs 493-528: one line. *)
Definition bare_add_line {L T} (ops : line_ops L) (m : binary_map L T) (s : Z)
    (st : list edge * vmap) (l : L) : outcome (list edge * vmap) :=
  let '(frontid, backid) := lo_sides ops l in
  let* skip :=
    if negb (frontid =? -1) && negb (backid =? -1) then
      let* f := index (m_sides m) (as_usize frontid) in
      let* b := index (m_sides m) (as_usize backid) in
      Ok (sd_sector f =? sd_sector b)
    else Ok false in
  if skip : bool then Ok st
  else
    let* st := bare_add_side ops m s l st frontid in
    bare_add_side ops m s l st backid.

Definition seen_in (seen : list Z) (v : Z) : bool := existsb (Z.eqb v) seen.

(** src/parse/map.rs 536-546: the vertex to start from. *)
Fixpoint first_unseen (edges : list edge) (seen : list Z) : option Z :=
  match edges with
  | [] => None
  | e :: edges' =>
      if negb (seen_in seen (e_v0 e)) then Some (e_v0 e)
      else if negb (seen_in seen (e_v1 e)) then Some (e_v1 e)
      else first_unseen edges' seen
  end.

(** src/parse/map.rs 567-583: follow the first edge not yet done. Returns the
    edges and the vertices pushed. *)
Fixpoint follow_edge (es : list nat) (edges : list edge) (seen : list Z)
  : outcome (list edge * list Z) :=
  match es with
  | [] => Ok (edges, [])
  | e :: es' =>
      let* ed := index_nat edges e in
      if e_done ed then follow_edge es' edges seen
      else
        let* edges := write_at edges (Z.of_nat e) (fun x => mk_edge (e_v0 x) (e_v1 x) true) in
        Ok (edges,
            if negb (seen_in seen (e_v0 ed)) then [e_v0 ed]
            else if negb (seen_in seen (e_v1 ed)) then [e_v1 ed]
            else [])
  end.

(** The state of the tracing loops. *)
Record trace_state := mk_trace {
  t_edges : list edge; t_seen : list Z; t_outline : list Z; t_next : list Z }.

(** src/parse/map.rs 555-584: one vertex of [vertices]. *)
Definition visit_vertex (vm : vmap) (st : trace_state) (v : Z) : outcome trace_state :=
  let '(mk_trace edges seen outline next) := st in
  if seen_in seen v then Ok st
  else
    let seen := seen ++ [v] in
    let outline := outline ++ [v] in
    match vmap_get vm v with
    | None => Panic PUnwrap
    | Some es =>
        let* (edges, pushed) := follow_edge es edges seen in
        Ok (mk_trace edges seen outline (next ++ pushed))
    end.

(** src/parse/map.rs 552-585: [while next_vertices.len() > 0]. *)
Fixpoint trace_outline (fuel : nat) (vm : vmap) (st : trace_state) : outcome trace_state :=
  match t_next st with
  | [] => Ok st
  | vertices =>
      match fuel with
      | O => Panic PFuel
      | S fuel' =>
          let* st' := ofold (visit_vertex vm) vertices
                        (mk_trace (t_edges st) (t_seen st) (t_outline st) []) in
          trace_outline fuel' vm st'
      end
  end.

(** src/parse/map.rs 534-589: [while edges.len() > 0]; [inner] is the fuel of
    the inner loop. *)
Fixpoint trace_all (fuel inner : nat) (vm : vmap) (edges : list edge) (seen : list Z)
    (outlines : list (list Z)) : outcome (list (list Z)) :=
  match edges with
  | [] => Ok outlines
  | _ =>
      match fuel with
      | O => Panic PFuel
      | S fuel' =>
          match first_unseen edges seen with
          | None => Ok outlines
          | Some v =>
              let* st := trace_outline inner vm (mk_trace edges seen [] [v]) in
              trace_all fuel' inner vm (t_edges st) (t_seen st)
                (match t_outline st with [] => outlines | o => outlines ++ [o] end)
          end
      end
  end.

(** src/parse/map.rs 480-592: [BareBinaryMap::sector_to_polygons]. *)
Definition bare_sector_to_polygons {L T} (ops : line_ops L) (m : binary_map L T) (s : Z)
  : outcome (list (list Z)) :=
  let* (edges, vm) := ofold (bare_add_line ops m s) (m_lines m) ([], []) in
  let fuel := (2 * length edges + 2)%nat in
  trace_all fuel fuel vm edges [] [].

(** ** In-memory maps *)

(** A [&Vertex]: its address (index) and the coordinates behind it. *)
Record vref := mk_vref { vr_ix : Z; vr_pt : point }.

(** src/map.rs 203-210: [Edge]. [me_line] and [me_front] stand for the unused
    fields [_line] and [_facing]; they only serve to state properties. *)
Record medge := mk_medge {
  me_line : Z; me_front : bool; me_v0 : vref; me_v1 : vref; me_done : bool }.

Definition lookup_vref (m : gmap) (h : handle) : outcome vref :=
  let* p := index (g_vertices m) h in Ok (mk_vref h p).

(** src/map.rs 241-267: one side of a line. *)
Definition map_add_side (m : gmap) (s : Z) (l : line) (st : list medge * vmap)
    (fs : bool * option handle) : outcome (list medge * vmap) :=
  let '(facing, sideid) := fs in
  match sideid with
  | None => Ok st
  | Some h =>
      let* sd := index (g_sides m) h in
      if si_sector sd =? s then
        let* v0 := lookup_vref m (ln_start l) in
        let* v1 := lookup_vref m (ln_end l) in
        let '(edges, vm) := st in
        let edges := edges ++ [mk_medge (ln_index l) facing v0 v1 false] in
        let vm := vmap_push vm (vr_ix v0) (length edges - 1) in
        let vm := vmap_push vm (vr_ix v1) (length edges - 1) in
        Ok (edges, vm)
      else Ok st
  end.

(** src/map.rs 229-268: one line. *)
Definition map_add_line (m : gmap) (s : Z) (st : list medge * vmap) (l : line)
  : outcome (list medge * vmap) :=
  let* front := oopt (index (g_sides m)) (ln_front l) in
  let* skip :=
    match front with
    | None => Ok false
    | Some f =>
        let* back := oopt (index (g_sides m)) (ln_back l) in
        Ok match back with
           | None => false
           | Some b => si_sector f =? si_sector b
           end
    end in
  if skip : bool then Ok st
  else ofold (map_add_side m s l) [(true, ln_front l); (false, ln_back l)] st.

(** src/map.rs 302-305: the best neighbour so far. *)
Record closest := mk_closest {
  cl_dot : f64; cl_edge : option nat; cl_vertex : option vref; cl_ccw : bool }.

(** src/map.rs 313-359: one neighbouring edge. *)
Definition consider_edge (i : nat) (edges : list medge) (next : vref) (current_vec : point)
    (c : closest) (e : nat) : outcome closest :=
  if Nat.eqb i e then Ok c
  else
    let* ed := index_nat edges e in
    if me_done ed then Ok c
    else
      let other := if vr_ix (me_v0 ed) =? vr_ix next then me_v1 ed else me_v0 ed in
      let vec := p_sub (vr_pt other) (vr_pt next) in
      let dot := f64_div (v_dot current_vec vec) (v_length vec) in
      let this_ccw := f64_gt (v_cross current_vec vec) f64_zero in
      if this_ccw && negb (cl_ccw c) then Ok (mk_closest dot (Some e) (Some other) true)
      else if negb this_ccw && cl_ccw c then Ok c
      else if negb (is_some (cl_edge c))
              || (this_ccw && f64_lt dot (cl_dot c))
              || (negb this_ccw && f64_gt dot (cl_dot c))
      then Ok (mk_closest dot (Some e) (Some other) (cl_ccw c))
      else Ok c.

Definition set_done (edges : list medge) (e : nat) : outcome (list medge) :=
  write_at edges (Z.of_nat e)
    (fun x => mk_medge (me_line x) (me_front x) (me_v0 x) (me_v1 x) true).

(** src/map.rs 289-372: the walking loop. The first component of the result is
    [edges], the second the outline, the third the edges walked after the
    starting one (a ghost, to state properties). *)
Fixpoint walk (fuel : nat) (vm : vmap) (i : nat) (edges : list medge) (outline : list point)
    (used : list nat) (prev next : vref) : outcome (list medge * list point * list nat) :=
  match fuel with
  | O => Panic PFuel
  | S fuel' =>
      let next_point := vr_pt next in
      let* first := index_nat outline 0 in
      if point_eqb next_point first then Ok (edges, outline, used)
      else
        let outline := outline ++ [next_point] in
        let current_vec := p_sub next_point (vr_pt prev) in
        match vmap_get vm (vr_ix next) with
        | None => Panic PUnwrap
        | Some es =>
            let* c := ofold (consider_edge i edges next current_vec) es
                        (mk_closest f64_nan None None false) in
            match cl_edge c with
            | None => Ok (edges, outline, used)
            | Some e =>
                let* edges := set_done edges e in
                match cl_vertex c with
                | None => Panic PUnwrap
                | Some v => walk fuel' vm i edges outline (used ++ [e]) next v
                end
            end
        end
  end.

(** src/map.rs 277-376: one starting edge. *)
Definition start_edge (vm : vmap) (st : list medge * list (list point * list nat)) (i : nat)
  : outcome (list medge * list (list point * list nat)) :=
  let '(edges, outlines) := st in
  let* ed := index_nat edges i in
  if me_done ed then Ok st
  else
    let* edges := set_done edges i in
    let* (edges, outline, used) :=
      walk (length edges + 1) vm i edges [vr_pt (me_v0 ed)] [i] (me_v0 ed) (me_v1 ed) in
    Ok (edges, if (2 <? length outline)%nat then outlines ++ [(outline, used)] else outlines).

(** src/map.rs 202-379, with the edges each outline walked along. *)
Definition map_polygons_traced (m : gmap) (s : Z)
  : outcome (list medge * list (list point * list nat)) :=
  let* (edges, vm) := ofold (map_add_line m s) (g_lines m) ([], []) in
  let* (_, outlines) := ofold (start_edge vm) (seq 0 (length edges)) (edges, []) in
  Ok (edges, outlines).

(** src/map.rs 202-379: [Map::sector_to_polygons]. *)
Definition map_sector_to_polygons (m : gmap) (s : Z) : outcome (list (list point)) :=
  let* (_, outlines) := map_polygons_traced m s in
  Ok (map fst outlines).
