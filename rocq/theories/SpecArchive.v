(** Specification of lump extraction, WAD iteration and map blocks. *)

From Coq Require Import String List ZArith Sorted.
From Coq Require Import Strings.Byte.
From Verif Require Import SpecBytes ParseWad SpecMapName ArchiveWad.
Import ListNotations.
Local Open Scope Z_scope.

(** ** Lump data *)

(** The entry describes bytes inside the buffer. *)
Definition in_bounds (buf : list byte) (e : dir_entry) : Prop :=
  filepos e + size e <= Z.of_nat (length buf).

(** [d] are the bytes the entry describes. *)
Definition entry_data (buf : list byte) (e : dir_entry) (d : list byte) : Prop :=
  in_bounds buf e /\ d = sub buf (Z.to_nat (filepos e)) (Z.to_nat (size e)).

(** Positions and sizes are unsigned; true of every parsed WAD. *)
Definition unsigned_entries (w : bare_wad) : Prop :=
  Forall (fun e => 0 <= filepos e /\ 0 <= size e) (directory w).

(** Entry [k] has name [nm]. *)
Definition named (dir : list dir_entry) (k : nat) (nm : list byte) : Prop :=
  exists e, nth_error dir k = Some e /\ name e = nm.

(** [k] is the first entry named [nm]. *)
Definition first_named (dir : list dir_entry) (nm : list byte) (k : nat) : Prop :=
  named dir k nm /\ forall j, (j < k)%nat -> ~ named dir j nm.

(** ** Sections between markers *)

(** Number of entries named [nm] among the first [k]. *)
Fixpoint count_named (dir : list dir_entry) (nm : list byte) (k : nat) : nat :=
  match k, dir with
  | S k', e :: dir' =>
      (if list_eq_dec Byte.byte_eq_dec (name e) nm then 1 else 0) + count_named dir' nm k'
  | _, _ => 0
  end.

(** Entry [k] lies in a section opened by [b] and closed by [e]. *)
Definition inside (dir : list dir_entry) (b e : list byte) (k : nat) : Prop :=
  (k < length dir)%nat /\ ~ named dir k e
  /\ exists j, (j < k)%nat /\ named dir j b
     /\ forall i, (j < i < k)%nat -> ~ named dir i e.
(** With equal markers the sections alternate. *)
Definition inside_same (dir : list dir_entry) (b : list byte) (k : nat) : Prop :=
  (k < length dir)%nat /\ ~ named dir k b /\ Nat.odd (count_named dir b k) = true.

(** [xs] are the entries at the positions in [inside], in order, with their
    data. *)
Definition yields (w : bare_wad) (inside : nat -> Prop) (xs : list wad_entry) : Prop :=
  exists ks, StronglySorted lt ks /\ (forall k, In k ks <-> inside k)
    /\ Forall2 (fun k x => exists d, nth_error (directory w) k = Some d /\ we_name x = name d
                         /\ entry_data (buffer w) d (we_data x)) ks xs.

(** ** Map blocks *)

Inductive lump :=
| THINGS | LINEDEFS | SIDEDEFS | VERTEXES | SEGS | SSECTORS | NODES | SECTORS
| REJECT | BLOCKMAP | BEHAVIOR | TEXTMAP.

Definition lump_string (f : lump) : string :=
  (match f with
   | THINGS => "THINGS" | LINEDEFS => "LINEDEFS" | SIDEDEFS => "SIDEDEFS"
   | VERTEXES => "VERTEXES" | SEGS => "SEGS" | SSECTORS => "SSECTORS" | NODES => "NODES"
   | SECTORS => "SECTORS" | REJECT => "REJECT" | BLOCKMAP => "BLOCKMAP"
   | BEHAVIOR => "BEHAVIOR" | TEXTMAP => "TEXTMAP"
   end)%string.
Definition lump_name (f : lump) : list byte := String.list_byte_of_string (lump_string f).

Definition lump_index (f : lump) (b : map_block) : option nat :=
  match f with
  | THINGS => things_index b | LINEDEFS => linedefs_index b | SIDEDEFS => sidedefs_index b
  | VERTEXES => vertexes_index b | SEGS => segs_index b | SSECTORS => ssectors_index b
  | NODES => nodes_index b | SECTORS => sectors_index b | REJECT => reject_index b
  | BLOCKMAP => blockmap_index b | BEHAVIOR => behavior_index b | TEXTMAP => textmap_index b
  end.

(** The canonical order of map lumps; the flag marks required lumps. *)
Definition canonical : list (lump * bool) :=
  [(THINGS, true); (LINEDEFS, true); (SIDEDEFS, true); (VERTEXES, true); (SEGS, false);
   (SSECTORS, false); (NODES, false); (SECTORS, true); (REJECT, false); (BLOCKMAP, false);
   (BEHAVIOR, false)].

Definition required (f : lump) : Prop := In (f, true) canonical.

(** [fs] is a prefix of the order [cs] with optional lumps left out. *)
Inductive run : list (lump * bool) -> list lump -> Prop :=
| run_stop : forall cs, run cs []
| run_take : forall f b cs fs, run cs fs -> run ((f, b) :: cs) (f :: fs)
| run_skip : forall f cs fs, run cs fs -> run ((f, false) :: cs) fs.

(** The lumps [fs] stand right after entry [i], in canonical order. *)
Definition run_after (dir : list dir_entry) (i : nat) (fs : list lump) : Prop :=
  run canonical fs
  /\ forall j f, nth_error fs j = Some f -> named dir (S i + j) (lump_name f).

(** ... and no more of them. *)
Definition longest_run (dir : list dir_entry) (i : nat) (fs : list lump) : Prop :=
  run_after dir i fs /\ forall f, ~ run_after dir i (fs ++ [f]).

(** Entry [i] is a map marker. *)
Definition marker (dir : list dir_entry) (i : nat) : Prop :=
  exists e n, nth_error dir i = Some e /\ denotes (name e) n.

(** The map at marker [i] is broken: no lump follows, or its run of lumps is
    followed by another entry although a required lump is still missing. *)
Definition broken (dir : list dir_entry) (i : nat) : Prop :=
  S i = length dir
  \/ exists fs, longest_run dir i fs /\ (S i + length fs < length dir)%nat
       /\ exists f, required f /\ ~ In f fs.

(** The iterator is about to read entry [i]. *)
Definition at_index (dir : list dir_entry) (i : nat) (it : iter_state) : Prop :=
  map fst it = seq i (length dir - i) /\ map snd it = skipn i dir.

(** The directory entries an item stands for. *)
Definition lump_positions (b : map_block) : list nat :=
  flat_map (fun '(f, _) => match lump_index f b with Some k => [k] | None => [] end) canonical.
Definition item_span (x : wad_item) : list nat :=
  match x with
  | WMap b => marker_index b :: lump_positions b
  | WStart i _ | WEnd i _ | WEntry i _ => [i]
  end.

(** Entry [k] is covered by the iteration. *)
Definition reported (w : bare_wad) (k : nat) : Prop := In k (concat (map item_span (iter w))).

(** The number of lumps of a reported map. *)
Definition lump_count (b : map_block) : nat := length (lump_positions b).

Definition has_suffix (s suffix : list byte) : Prop := exists p, s = p ++ suffix.
Definition start_suffix : list byte := [x5f; x53; x54; x41; x52; x54].   (* "_START" *)
Definition end_suffix : list byte := [x5f; x45; x4e; x44].               (* "_END" *)

(** A single-entry item has the right kind. *)
Definition plain_item (dir : list dir_entry) (x : wad_item) : Prop :=
  match x with
  | WMap _ => False
  | WStart i e =>
      nth_error dir i = Some e /\ has_suffix (name e) start_suffix
  | WEnd i e =>
      nth_error dir i = Some e /\ has_suffix (name e) end_suffix
  | WEntry i e =>
      nth_error dir i = Some e /\ ~ has_suffix (name e) start_suffix
      /\ ~ has_suffix (name e) end_suffix
  end.
Definition item_entry (x : wad_item) : option nat :=
  match x with WMap _ => None | WStart i _ | WEnd i _ | WEntry i _ => Some i end.

(** [b] describes the map at its marker. *)
Definition block_ok (dir : list dir_entry) (b : map_block) : Prop :=
  exists e fs,
    nth_error dir (marker_index b) = Some e /\ denotes (name e) (b_name b)
    /\ longest_run dir (marker_index b) fs /\ fs <> []
    /\ (forall f k, lump_index f b = Some k
          <-> exists j, nth_error fs j = Some f /\ k = (S (marker_index b) + j)%nat)
    /\ (In BEHAVIOR fs -> b_format b = Hexen)
    /\ (~ In BEHAVIOR fs -> b_format b = Doom)
    /\ ((S (marker_index b) + length fs < length dir)%nat ->
          last_index b = (S (marker_index b) + length fs)%nat)
    /\ ((length dir <= S (marker_index b) + length fs)%nat ->
          last_index b = (marker_index b + length fs)%nat).

(** ** Archives *)

Definition arch_lump (f : lump) (m : arch_map) : option entry :=
  match f with
  | THINGS => a_things m | LINEDEFS => a_linedefs m | SIDEDEFS => a_sidedefs m
  | VERTEXES => a_vertexes m | SEGS => a_segs m | SSECTORS => a_ssectors m
  | NODES => a_nodes m | SECTORS => a_sectors m | REJECT => a_reject m
  | BLOCKMAP => a_blockmap m | BEHAVIOR => a_behavior m | TEXTMAP => a_textmap m
  end.

(** [en] is a copy of directory entry [k] in namespace [ns]. *)
Definition copy_of (w : bare_wad) (ns : namespace) (k : nat) (en : entry) : Prop :=
  exists e, nth_error (directory w) k = Some e
    /\ en_name en = name e /\ entry_data (buffer w) e (en_data en) /\ en_ns en = ns.

Definition opt_rel {A B} (R : A -> B -> Prop) (a : option A) (b : option B) : Prop :=
  match a, b with
  | Some x, Some y => R x y
  | None, None => True
  | _, _ => False
  end.

Definition archived_map (w : bare_wad) (b : map_block) (m : arch_map) : Prop :=
  a_format m = b_format b /\ a_name m = b_name b
  /\ copy_of w NsMap (marker_index b) (a_marker m)
  /\ forall f, opt_rel (copy_of w NsMap) (lump_index f b) (arch_lump f m).

(** The archive items an iterated item becomes. *)
Inductive archived (w : bare_wad) : wad_item -> list item -> Prop :=
| AR_map : forall b m, archived_map w b m -> archived w (WMap b) [IMap m]
| AR_start : forall i e, archived w (WStart i e) []
| AR_end : forall i e, archived w (WEnd i e) []
| AR_entry : forall i e en, copy_of w NsUnknown i en -> archived w (WEntry i e) [IEntry en].

(** All the lumps an item refers to are inside the buffer. *)
Definition item_in_bounds (w : bare_wad) (x : wad_item) : Prop :=
  match x with
  | WStart _ _ | WEnd _ _ => True
  | WMap b =>
      (forall e, nth_error (directory w) (marker_index b) = Some e -> in_bounds (buffer w) e)
      /\ forall f k e, lump_index f b = Some k -> nth_error (directory w) k = Some e ->
           in_bounds (buffer w) e
  | WEntry i e => in_bounds (buffer w) e
  end.

(** [en] is the first plain entry with name [nm]. *)
Definition first_plain (l : list item) (nm : list byte) (en : entry) : Prop :=
  exists l1 l2, l = l1 ++ IEntry en :: l2 /\ en_name en = nm
    /\ forall en', In (IEntry en') l1 -> en_name en' <> nm.

(** Names that are no marker and no map lump. *)
Definition ordinary_name (nm : list byte) : Prop :=
  ~ has_suffix nm start_suffix /\ ~ has_suffix nm end_suffix
  /\ (forall n, ~ denotes nm n) /\ forall f b, In (f, b) canonical -> nm <> lump_name f.
