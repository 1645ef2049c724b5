(** A map for the examples about the drawing of the route command. *)

From Coq Require Import String List ZArith Bool.
From Verif Require Import Base ParseWad ArchiveWad Samples Float MapModel Contours Compute StdRef Route RouteDraw ShapeSamples RouteSamples.
Import ListNotations.
Local Open Scope Z_scope.

(** A room with a square pillar in it and, above the pillar, a low platform. *)
Definition pillar : gmap :=
  let sq x y w := [pt x y; pt x (y + w); pt (x + w) (y + w); pt (x + w) y] in
  let one v w s := mk_line 0 v w 1 0 0 (Some s) None in
  let two v w s t := mk_line 0 v w 4 0 0 (Some s) (Some t) in
  mk_gmap
    [one 0 1 0; one 1 2 0; one 2 3 0; one 3 0 0; one 5 4 0; one 6 5 0; one 7 6 0; one 4 7 0;
     two 8 9 1 0; two 9 10 1 0; two 10 11 1 0; two 11 8 1 0]
    (map (mk_mside 0 [] [] []) [0; 1])
    [mk_msector 0 0 0 200 0; mk_msector 0 0 8 200 0]
    [mk_thing (pt 64 64) 1]
    (sq 0 0 512 ++ sq 200 100 100 ++ sq 200 300 100).

Definition pillar_routed := Eval vm_compute in routed pillar.
Lemma pillar_route : route std_ref 3000 Checked pillar = Ok pillar_routed.
Proof. vm_cast_no_check (eq_refl (Ok pillar_routed)). Qed.
Definition pillar_inputs := Eval vm_compute in match route_input pillar with Ok p => p | _ => ([], []) end.
Lemma pillar_input : route_input pillar = Ok pillar_inputs.
Proof. vm_cast_no_check (eq_refl (Ok pillar_inputs)). Qed.

Definition no_document : route_document := mk_route_document (f64_zero, f64_zero, f64_zero, f64_zero) (0, 0) [] [].
Definition drawing (m : gmap) : route_document := match route_map_as_svg std_ref 3000 Checked m with Ok d => d | _ => no_document end.
Definition pillar_document := Eval vm_compute in drawing pillar.
Lemma pillar_drawn : route_map_as_svg std_ref 3000 Checked pillar = Ok pillar_document.
Proof. vm_cast_no_check (eq_refl (Ok pillar_document)). Qed.
Definition rooms_document := Eval vm_compute in drawing (rooms 0 16 100).
Lemma rooms_drawn : route_map_as_svg std_ref 3000 Checked (rooms 0 16 100) = Ok rooms_document.
Proof. vm_cast_no_check (eq_refl (Ok rooms_document)). Qed.

(** Two squares cut out of a square, one above the other. *)
Definition cut_out : input :=
  [([rct 0 0 100 100], Normal); ([rct 40 20 20 20], RemoveInterior); ([rct 40 60 20 20], RemoveInterior)].
Definition cut_out_overlay := Eval vm_compute in match compute std_ref 3000 cut_out Union with Ok p => p | _ => [] end.
Lemma cut_out_computed : compute std_ref 3000 cut_out Union = Ok cut_out_overlay.
Proof. vm_cast_no_check (eq_refl (Ok cut_out_overlay)). Qed.

(** Three maps, the first without lines. *)
Definition later_wad : bare_wad := Eval vm_compute in
  wad_of PWAD (marker_lump "MAP14" ++ [(bs "THINGS", []); (bs "LINEDEFS", []); (bs "SIDEDEFS", []); (bs "VERTEXES", []); (bs "SECTORS", [])]
               ++ marker_lump "MAP15" ++ room_lumps ++ marker_lump "MAP16" ++ firstn 2 room_lumps).
