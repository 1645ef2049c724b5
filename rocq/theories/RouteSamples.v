(** Maps for the examples about the route command. *)

From Coq Require Import List ZArith Bool.
From Verif Require Import Base Float MapModel Contours Compute StdRef Route ShapeSamples.
Import ListNotations.
Local Open Scope Z_scope.

(** Three square rooms in a row with floors at [a], [b] and [c]; the player starts in
    the first. *)
Definition rooms (a b c : Z) : gmap :=
  let one v w s := mk_line 0 v w 1 0 0 (Some s) None in
  let two v w s t := mk_line 0 v w 4 0 0 (Some s) (Some t) in
  mk_gmap
    [one 4 0 0; one 0 1 0; two 1 5 0 2; one 5 4 0; one 1 2 1; two 2 6 1 3; one 6 5 1; one 2 3 4; one 3 7 4; one 7 6 4]
    (map (mk_mside 0 [] [] []) [0; 1; 1; 2; 2])
    [mk_msector 0 0 a 200 0; mk_msector 0 0 b 200 0; mk_msector 0 0 c 200 0]
    [mk_thing (pt 64 64) 1]
    [pt 0 0; pt 128 0; pt 256 0; pt 384 0; pt 0 128; pt 128 128; pt 256 128; pt 384 128].

(** An L-shaped room and, in its angle, a square room where the player starts. *)
Definition angle : gmap :=
  let one v w s := mk_line 0 v w 1 0 0 (Some s) None in
  mk_gmap
    [one 0 1 0; one 1 2 0; one 2 3 0; one 3 4 0; one 4 5 0; one 5 0 0; one 6 7 1; one 7 8 1; one 8 9 1; one 9 6 1]
    (map (mk_mside 0 [] [] []) [0; 1])
    [mk_msector 0 0 0 200 0; mk_msector 0 0 0 200 0]
    [mk_thing (pt 300 300) 1]
    [pt 0 0; pt 0 400; pt 100 400; pt 100 100; pt 400 100; pt 400 0;
     pt 250 250; pt 250 350; pt 350 350; pt 350 250].

(** A room one wall of which is a two-sided line with no closed sector behind it, but
    another two-sided line, which blocks the player. *)
Definition unclosed : gmap :=
  let one v w s := mk_line 0 v w 1 0 0 (Some s) None in
  mk_gmap
    [one 0 1 0; one 1 2 0; one 3 0 0; mk_line 0 5 4 5 0 0 (Some 1) (Some 1); mk_line 0 2 3 4 0 0 (Some 0) (Some 1)]
    (map (mk_mside 0 [] [] []) [0; 1])
    [mk_msector 0 0 0 200 0; mk_msector 0 0 0 200 0]
    [mk_thing (pt 64 64) 1]
    [pt 0 0; pt 0 128; pt 128 128; pt 128 0; pt 150 20; pt 150 100].

(** What the route command finds. *)
Definition routed (m : gmap) : polygon * (list nat * list (list nat)) :=
  match route std_ref 3000 Checked m with Ok r => r | _ => ([], ([], [])) end.
Definition angle_routed := Eval vm_compute in routed angle.
Lemma angle_route : route std_ref 3000 Checked angle = Ok angle_routed.
Proof. vm_cast_no_check (eq_refl (Ok angle_routed)). Qed.

Definition overlay (m : gmap) : outcome polygon := let* (polygons, refs) := route_input m in compute std_ref 3000 polygons Union.
Definition unclosed_overlay := Eval vm_compute in match overlay unclosed with Ok p => p | _ => [] end.
Lemma unclosed_computed : (let* (polygons, refs) := route_input unclosed in compute std_ref 3000 polygons Union) = Ok unclosed_overlay.
Proof. vm_cast_no_check (eq_refl (Ok unclosed_overlay)). Qed.

Definition rooms_routed := Eval vm_compute in routed (rooms 0 16 100).
Lemma rooms_route : route std_ref 3000 Checked (rooms 0 16 100) = Ok rooms_routed.
Proof. vm_cast_no_check (eq_refl (Ok rooms_routed)). Qed.
Definition rooms_inputs := Eval vm_compute in match route_input (rooms 0 16 100) with Ok p => p | _ => ([], []) end.
Lemma rooms_input : route_input (rooms 0 16 100) = Ok rooms_inputs.
Proof. vm_cast_no_check (eq_refl (Ok rooms_inputs)). Qed.
Lemma rooms_computed : compute std_ref 3000 (fst rooms_inputs) Union = Ok (fst rooms_routed).
Proof. vm_cast_no_check (eq_refl (Ok (fst rooms_routed))). Qed.
