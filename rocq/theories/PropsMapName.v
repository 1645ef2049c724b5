(** Properties of map names: C18, C19, C62, C103. *)

From Coq Require Import String List ZArith.
From Coq Require Import Strings.Byte.
From Verif Require Import Base SpecBytes ParseWad SpecMapName MapNameFacts.
Import ListNotations.
Local Open Scope Z_scope.

(** C18. *)
Theorem C18_marker_recognition : forall s n, map_name_of s = Some n <-> denotes s n.
Proof. exact map_name_of_iff. Qed.
Print Assumptions C18_marker_recognition.

Theorem C18_recognised_in_range : forall s n, denotes s n -> valid_map_name n.
Proof. exact denotes_valid. Qed.
Print Assumptions C18_recognised_in_range.

Example C18_example :
  map_name_of (bs "E1M9") = Some (ExMy 1 9) /\ map_name_of (bs "MAP07") = Some (MAPxx 7)
  /\ map_name_of (bs "MAP32") = Some (MAPxx 32)
  /\ map_name_of (bs "MAP33") = None /\ map_name_of (bs "MAP00") = None
  /\ map_name_of (bs "E1M10") = None /\ map_name_of (bs "E1M") = None
  /\ map_name_of (bs "MAP1") = None /\ map_name_of (bs "TITLEMAP") = None.
Proof. vm_compute. auto 10. Qed.

(** C19. *)
Theorem C19_print_parse : forall n, valid_map_name n -> map_name_of (show_map_name n) = Some n.
Proof. exact show_parse. Qed.
Print Assumptions C19_print_parse.

Example C19_example : valid_map_name (MAPxx 9) /\ show_map_name (MAPxx 9) = bs "MAP09"
  /\ valid_map_name (ExMy 4 2) /\ show_map_name (ExMy 4 2) = bs "E4M2".
Proof. vm_compute. repeat split; discriminate. Qed.

(** C62: a recognised name need not print as itself. *)
Theorem C62_prints_as_original_refuted :
  exists s n, map_name_of s = Some n /\ show_map_name n <> s.
Proof. exists (bs "MAP+5"), (MAPxx 5). vm_compute. split; [reflexivity|discriminate]. Qed.
Print Assumptions C62_prints_as_original_refuted.

(** It does exactly when there is no plus sign. *)
Theorem C62_prints_as_original_iff : forall s n, map_name_of s = Some n ->
  (show_map_name n = s <-> nth 3 s x00 <> x2b).
Proof. exact parse_show_iff. Qed.
Print Assumptions C62_prints_as_original_iff.

Example C62_example : map_name_of (bs "MAP15") = Some (MAPxx 15) /\ nth 3 (bs "MAP15") x00 <> x2b.
Proof. vm_compute. split; [reflexivity|discriminate]. Qed.

(** C103. Any [MapName], recognised or not, is printed with its numbers in decimal, and
    different ones differently. *)
Theorem C103_episodes : forall x y, u8_value x -> u8_value y ->
  exists s t, decimal s x /\ decimal t y /\ show_map_name (ExMy x y) = [x45] ++ s ++ [x4d] ++ t.
Proof. exact show_exmy. Qed.
Print Assumptions C103_episodes.

Theorem C103_numbers : forall x, u8_value x ->
  exists s, decimal s x /\ show_map_name (MAPxx x) = [x4d; x41; x50] ++ (if x <? 10 then [x30] else []) ++ s.
Proof. exact show_mapxx. Qed.
Print Assumptions C103_numbers.

Theorem C103_injective : forall n n', u8_name n -> u8_name n' -> show_map_name n = show_map_name n' -> n = n'.
Proof. exact show_injective. Qed.
Print Assumptions C103_injective.

Example C103_example : u8_name (ExMy 255 0) /\ show_map_name (ExMy 255 0) = bs "E255M0" /\ show_map_name (MAPxx 7) = bs "MAP07"
  /\ show_map_name (MAPxx 103) = bs "MAP103" /\ show_map_name (ExMy 1 23) <> show_map_name (ExMy 12 3).
Proof. vm_compute. repeat split; discriminate. Qed.
