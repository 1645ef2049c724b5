(** src/archive/wad.rs: the bare WAD's accessors, its iterators, and the
    conversion to an archive. *)

From Coq Require Import String List ZArith Bool.
From Coq Require Import Strings.Byte.
From Verif Require Import Base Nom ParseWad.
Import ListNotations.
Local Open Scope Z_scope.

(** src/archive/wad.rs 299-303: [extract_slice]. Both operands are below 2^32,
    so the usize addition cannot overflow. *)
Definition extract_slice (e : dir_entry) (buf : bytes) : outcome bytes :=
  let start := filepos e in
  let end_ := start + size e in
  slice buf start end_.

(** src/archive/wad.rs 203-208: [BareWAD::entry_slice]. *)
Definition entry_slice (w : bare_wad) (i : nat) : outcome bytes :=
  let* e := index_nat (directory w) i in
  let start := filepos e in
  let end_ := start + size e in
  slice (buffer w) start end_.

(** src/archive/wad.rs 210-219: [BareWAD::first_entry]. *)
Definition first_entry (w : bare_wad) (nm : bytes) : outcome (option bytes) :=
  match find (fun e => bytes_eqb (name e) nm) (directory w) with
  | None => Ok None
  | Some e =>
      let start := filepos e in
      let end_ := start + size e in
      let* d := slice (buffer w) start end_ in
      Ok (Some d)
  end.

(** ** iter_entries_between (src/archive/wad.rs 249-282)

    One run of [next]'s loop per entry: [between] is [between_markers], the list
    is the directory from [next_index] on. The [data] of a yielded item is
    extracted when it is yielded, hence the outcome. *)
Fixpoint between_loop (begin_ end_ : bytes) (between : bool) (l : list dir_entry)
  : list dir_entry :=
  match l with
  | [] => []
  | e :: l' =>
      if between && bytes_eqb (name e) end_ then between_loop begin_ end_ false l'
      else if negb between && bytes_eqb (name e) begin_ then between_loop begin_ end_ true l'
      else if between then e :: between_loop begin_ end_ between l'
      else between_loop begin_ end_ between l'
  end.

(** src/archive/wad.rs 21-24: [WADEntry]. *)
Record wad_entry := mk_wad_entry { we_name : bytes; we_data : bytes }.

(** Collecting [iter_entries_between(begin, end)] (221-229, 259-281). *)
Definition iter_entries_between (w : bare_wad) (begin_ end_ : bytes)
  : outcome (list wad_entry) :=
  omap (fun e => let* d := extract_slice e (buffer w) in Ok (mk_wad_entry (name e) d))
       (between_loop begin_ end_ false (directory w)).

(** ** The map-aware iterator *)

(** src/map.rs 10-15: [MapFormat]. *)
Inductive map_format := Doom | Hexen | UDMF.

Definition format_eqb (a b : map_format) : bool :=
  match a, b with
  | Doom, Doom | Hexen, Hexen | UDMF, UDMF => true
  | _, _ => false
  end.

(** src/archive/wad.rs 310-322: [MAP_LUMP_ORDER]. *)
Definition MAP_LUMP_ORDER : list (bytes * bool) :=
  [ (bs "THINGS", true);
    (bs "LINEDEFS", true);
    (bs "SIDEDEFS", true);
    (bs "VERTEXES", true);
    (bs "SEGS", false);
    (bs "SSECTORS", false);
    (bs "NODES", false);
    (bs "SECTORS", true);
    (bs "REJECT", false);
    (bs "BLOCKMAP", false);
    (bs "BEHAVIOR", false) ].

(** src/archive/wad.rs 448-468: [WADMapEntryBlock]. *)
Record map_block := mk_block {
  b_format : map_format;
  b_name : map_name;
  marker_index : nat;
  last_index : nat;
  things_index : option nat;
  linedefs_index : option nat;
  sidedefs_index : option nat;
  vertexes_index : option nat;
  segs_index : option nat;
  ssectors_index : option nat;
  nodes_index : option nat;
  sectors_index : option nat;
  reject_index : option nat;
  blockmap_index : option nat;
  behavior_index : option nat;
  textmap_index : option nat
}.

(** src/archive/wad.rs 360-378. *)
Definition new_block (n : map_name) (i : nat) : map_block :=
  mk_block Doom n i i None None None None None None None None None None None None.

(** src/archive/wad.rs 396-417: the inner [match entry.name]; [None] is the
    [_ => break] arm. *)
Definition assign_lump (r : map_block) (nm : bytes) (i : nat) : option map_block :=
  let '(mk_block f n m l th li si ve se ss no sc re bl be te) := r in
  if bytes_eqb nm (bs "THINGS") then Some (mk_block f n m l (Some i) li si ve se ss no sc re bl be te)
  else if bytes_eqb nm (bs "LINEDEFS") then Some (mk_block f n m l th (Some i) si ve se ss no sc re bl be te)
  else if bytes_eqb nm (bs "SIDEDEFS") then Some (mk_block f n m l th li (Some i) ve se ss no sc re bl be te)
  else if bytes_eqb nm (bs "VERTEXES") then Some (mk_block f n m l th li si (Some i) se ss no sc re bl be te)
  else if bytes_eqb nm (bs "SEGS") then Some (mk_block f n m l th li si ve (Some i) ss no sc re bl be te)
  else if bytes_eqb nm (bs "SSECTORS") then Some (mk_block f n m l th li si ve se (Some i) no sc re bl be te)
  else if bytes_eqb nm (bs "NODES") then Some (mk_block f n m l th li si ve se ss (Some i) sc re bl be te)
  else if bytes_eqb nm (bs "SECTORS") then Some (mk_block f n m l th li si ve se ss no (Some i) re bl be te)
  else if bytes_eqb nm (bs "REJECT") then Some (mk_block f n m l th li si ve se ss no sc (Some i) bl be te)
  else if bytes_eqb nm (bs "BLOCKMAP") then Some (mk_block f n m l th li si ve se ss no sc re (Some i) be te)
  else if bytes_eqb nm (bs "BEHAVIOR") then Some (mk_block Hexen n m l th li si ve se ss no sc re bl (Some i) te)
  else if bytes_eqb nm (bs "TEXTMAP") then Some (mk_block f n m l th li si ve se ss no sc re bl be (Some i))
  else None.

(** The peekable iterator's state: the remaining [(index, entry)] pairs. *)
Definition iter_state := list (nat * dir_entry).

(** src/archive/wad.rs 393-439: the loop over [MAP_LUMP_ORDER]. [i]/[e] are the
    peeked index and entry, [it] the iterator (whose head is the peeked entry).
    [inl] is leaving the loop (normally or by [break]) with the block, the
    current [i] and the iterator; [inr it] is [return None]. *)
Fixpoint scan_lumps (order : list (bytes * bool)) (r : map_block)
    (i : nat) (e : dir_entry) (it : iter_state)
  : (map_block * nat * iter_state) + iter_state :=
  match order with
  | [] => inl (r, i, it)
  | (lump, required) :: order' =>
      if bytes_eqb (name e) lump then
        match assign_lump r (name e) i with
        | None => inl (r, i, it)
        | Some r' =>
            let it' := tl it in
            match it' with
            | (i', e') :: _ => scan_lumps order' r' i' e' it'
            | [] => inl (r', i, it')
            end
        end
      else if required then inr it
      else scan_lumps order' r i e it
  end.

(** src/archive/wad.rs 326-331: [WADItem]; the borrowed entries are given by
    value together with their directory index (the index is not part of the
    Rust item; it is kept to state properties). *)
Inductive wad_item :=
| WMap (b : map_block)
| WStart (i : nat) (e : dir_entry)
| WEnd (i : nat) (e : dir_entry)
| WEntry (i : nat) (e : dir_entry).

(** [str::ends_with]. *)
Definition ends_with (s suffix : bytes) : bool :=
  (length suffix <=? length s)%nat
  && bytes_eqb (skipn (length s - length suffix) s) suffix.

Definition set_last_index (r : map_block) (l : nat) : map_block :=
  let '(mk_block f n m _ th li si ve se ss no sc re bl be te) := r in
  mk_block f n m l th li si ve se ss no sc re bl be te.
Definition set_format (r : map_block) (f : map_format) : map_block :=
  let '(mk_block _ n m l th li si ve se ss no sc re bl be te) := r in
  mk_block f n m l th li si ve se ss no sc re bl be te.

(** src/archive/wad.rs 341-443: [WADIterator::next], returning the item and the
    advanced iterator. *)
Definition wad_next (it : iter_state) : option wad_item * iter_state :=
  match it with
  | [] => (None, [])
  | (i, e) :: it1 =>
      match map_name_of (name e) with
      | None =>
          if ends_with (name e) (bs "_START") then (Some (WStart i e), it1)
          else if ends_with (name e) (bs "_END") then (Some (WEnd i e), it1)
          else (Some (WEntry i e), it1)
      | Some mn =>
          let range := new_block mn i in
          match it1 with
          | [] => (None, it1)
          | (i', e') :: _ =>
              let range := if bytes_eqb (name e') (bs "TEXTMAP")
                           then set_format range UDMF else range in
              match scan_lumps MAP_LUMP_ORDER range i' e' it1 with
              | inl (r, i'', it2) => (Some (WMap (set_last_index r i'')), it2)
              | inr it2 => (None, it2)
              end
          end
      end
  end.

(** Consuming the iterator with a [for] loop: call [next] until [None]. Returns
    the items and the iterator state after the final [None]. The fuel is the
    number of remaining entries plus one; each [Some] consumes an entry, so it
    is never exhausted (proved). *)
Fixpoint collect_items (fuel : nat) (it : iter_state) : option (list wad_item * iter_state) :=
  match fuel with
  | O => None
  | S fuel' =>
      match wad_next it with
      | (None, it') => Some ([], it')
      | (Some x, it') =>
          match collect_items fuel' it' with
          | Some (xs, it'') => Some (x :: xs, it'')
          | None => None
          end
      end
  end.

(** src/archive/wad.rs 242-247: [BareWAD::iter], collected. *)
Definition iter_collect (dir : list dir_entry) : option (list wad_item * iter_state) :=
  let st := enumerate dir in
  collect_items (S (length st)) st.
Definition iter (w : bare_wad) : list wad_item :=
  match iter_collect (directory w) with
  | Some (xs, _) => xs
  | None => []                        (* unreachable: see iter_collect_total *)
  end.

(** src/archive/wad.rs 231-240: [iter_maps]. *)
Fixpoint maps_of (l : list wad_item) : list map_block :=
  match l with
  | [] => []
  | WMap b :: l' => b :: maps_of l'
  | _ :: l' => maps_of l'
  end.
Definition iter_maps (w : bare_wad) : list map_block := maps_of (iter w).

(** ** Archives *)

(** src/archive/mod.rs: [Namespace], the two values used here. *)
Inductive namespace := NsMap | NsUnknown.

(** src/archive/wad.rs 46-50: [Entry]. *)
Record entry := mk_arch_entry {
  en_name : bytes;
  en_data : bytes;
  en_ns : namespace
}.

(** src/archive/wad.rs 26-45: [MapBlock]. *)
Record arch_map := mk_arch_map {
  a_format : map_format;
  a_name : map_name;
  a_marker : entry;
  a_things : option entry;
  a_linedefs : option entry;
  a_sidedefs : option entry;
  a_vertexes : option entry;
  a_segs : option entry;
  a_ssectors : option entry;
  a_nodes : option entry;
  a_sectors : option entry;
  a_reject : option entry;
  a_blockmap : option entry;
  a_behavior : option entry;
  a_textmap : option entry
}.

(** src/archive/wad.rs 51-54: [Item]. *)
Inductive item := IMap (m : arch_map) | IEntry (e : entry).

(** src/archive/wad.rs 59-64: [WADArchive]. *)
Record wad_archive := mk_archive { wadtype : wad_type; contents : list item }.

(** src/archive/wad.rs 70-77: [make_entry]. *)
Definition make_entry (w : bare_wad) (i : nat) : outcome entry :=
  let* e := index_nat (directory w) i in
  let* d := extract_slice e (buffer w) in
  Ok (mk_arch_entry (name e) d NsMap).

(** src/archive/wad.rs 83-103: one map. *)
Definition convert_map (w : bare_wad) (b : map_block) : outcome arch_map :=
  let* marker := make_entry w (marker_index b) in
  let* th := oopt (make_entry w) (things_index b) in
  let* li := oopt (make_entry w) (linedefs_index b) in
  let* si := oopt (make_entry w) (sidedefs_index b) in
  let* ve := oopt (make_entry w) (vertexes_index b) in
  let* se := oopt (make_entry w) (segs_index b) in
  let* ss := oopt (make_entry w) (ssectors_index b) in
  let* no := oopt (make_entry w) (nodes_index b) in
  let* sc := oopt (make_entry w) (sectors_index b) in
  let* re := oopt (make_entry w) (reject_index b) in
  let* bl := oopt (make_entry w) (blockmap_index b) in
  let* be := oopt (make_entry w) (behavior_index b) in
  let* te := oopt (make_entry w) (textmap_index b) in
  Ok (mk_arch_map (b_format b) (b_name b) marker th li si ve se ss no sc re bl be te).

(** src/archive/wad.rs 82-115: one item; markers push nothing. *)
Definition convert_item (w : bare_wad) (x : wad_item) : outcome (list item) :=
  match x with
  | WMap b => let* m := convert_map w b in Ok [IMap m]
  | WStart _ _ | WEnd _ _ => Ok []
  | WEntry _ e =>
      let* d := extract_slice e (buffer w) in
      Ok [IEntry (mk_arch_entry (name e) d NsUnknown)]
  end.

(** src/archive/wad.rs 69-122: [WADArchive::from_bare] (= [to_archive],
    199-201). *)
Definition to_archive (w : bare_wad) : outcome wad_archive :=
  let* parts := omap (convert_item w) (iter w) in
  Ok (mk_archive (identification (header w)) (concat parts)).

(** src/archive/wad.rs 124-133: [WADArchive::first_entry]. *)
Fixpoint archive_first_entry_in (l : list item) (nm : bytes) : option entry :=
  match l with
  | [] => None
  | IEntry e :: l' => if bytes_eqb (en_name e) nm then Some e else archive_first_entry_in l' nm
  | IMap _ :: l' => archive_first_entry_in l' nm
  end.
Definition archive_first_entry (a : wad_archive) (nm : bytes) : option entry :=
  archive_first_entry_in (contents a) nm.
