(** The info command, programs/src/idchoppers.rs 90-197. *)

From Coq Require Import String List ZArith Bool.
From Coq Require Import Strings.Byte.
From Verif Require Import Base ParseWad ArchiveWad ParseMap ParseTexturex MapModel Universe.
Import ListNotations.

(** The lines printed, as structured data. *)
Inductive text :=
| TType (t : wad_type)                  (* 91: "{:?}" *)
| THeader (t : wad_type) (n ofs : Z)    (* 93: "found {:?}, {:?}, {:?}" *)
| TBlank                                (* 141: "" *)
| TMap (n : map_name) (f : map_format)  (* 142: "{} - Doom format map"; 156: "{} - Hexen format map" *)
| TLump (nm : bytes)                    (* 161: "{} - lump" *)
| TName (nm : bytes)                    (* 168 and 193: "{}" *)
| TRule.                                (* 170: "---" *)

(** A computation that prints: the lines are printed even if it fails afterwards. *)
Definition printing (A : Type) : Type := list text * outcome A.
Definition pbind {A B} (m : printing A) (k : A -> printing B) : printing B :=
  match snd m with
  | Ok a => (fst m ++ fst (k a), snd (k a))
  | Err e => (fst m, Err e)
  | Panic p => (fst m, Panic p)
  end.
Notation "'print*' x := m 'in' k" := (pbind m (fun x => k)) (at level 200, x pattern, m at level 100, k at level 200).
Definition say (t : text) : printing unit := ([t], Ok tt).
Definition quiet {A} (o : outcome A) : printing A := ([], o).
Fixpoint each {A} (f : A -> printing unit) (l : list A) : printing unit :=
  match l with
  | [] => ([], Ok tt)
  | x :: l' => print* _ := f x in each f l'
  end.

(** 132-163: one item of the archive. *)
Definition info_item (x : item) : printing unit :=
  match x with
  | IMap map_block =>
      print* bare_map := quiet (parse_doom_map_from_archive map_block) in
      match bare_map with
      | BMDoom map =>
          print* _ := quiet (from_bare map) in
          print* _ := say TBlank in
          say (TMap (a_name map_block) Doom)
      | BMHexen _ => say (TMap (a_name map_block) Hexen)
      end
  | IEntry entry => say (TLump (en_name entry))
  end.

(** 167-169: the data of an entry is extracted when the iterator yields it. *)
Definition info_flat (w : bare_wad) (e : dir_entry) : printing unit :=
  print* _ := quiet (extract_slice e (buffer w)) in
  say (TName (name e)).

(** 191-194: the difference of the two hash sets. *)
Definition new_names (names : list bytes) : list bytes :=
  filter (fun nm => negb (existsb (bytes_eqb nm) DOOM2_TEXTURES)) (nodup (list_eq_dec byte_eq_dec) names).

(** 90-197: [do_info]. [order] is the order in which the hash set is iterated over. The
    argument of [or] in 177 is evaluated in any case. *)
Definition do_info (order : list bytes -> list bytes) (w : bare_wad) : printing unit :=
  let h := header w in
  print* _ := say (TType (identification h)) in
  print* _ := say (THeader (identification h) (numlumps h) (infotableofs h)) in
  print* archive := quiet (to_archive w) in
  print* _ := each info_item (contents archive) in
  print* _ := each (info_flat w) (between_loop (bs "F_START") (bs "F_END") false (directory w)) in
  print* _ := say TRule in
  print* texture1 := quiet (first_entry w (bs "TEXTURE1")) in
  print* texture2 := quiet (first_entry w (bs "TEXTURE2")) in
  print* texture_entries :=
    match (match texture1 with Some d => Some d | None => texture2 end) with
    | Some texbuf => quiet (parse_texturex_names texbuf)
    | None => quiet (Ok [])
    end in
  each (fun nm => say (TName nm)) (order (new_names (map tx_name texture_entries))).
