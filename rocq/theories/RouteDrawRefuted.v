(** Two things the drawing of the route command does not do (C89, C90). *)

From Coq Require Import List ZArith Bool Lia.
From Verif Require Import Base BaseFacts ParseWad ArchiveWad SpecArchive PropsArchiveAux Float MapModel SpecShape Contours Compute StdRef StdFacts SpecCompute Route SpecRoute FillFacts
  RouteDraw SpecRouteDraw RouteCommandFacts ShapeSamples RouteSamples RouteDrawSamples SortFacts.
Import ListNotations.
Local Open Scope Z_scope.

Lemma comes_in : forall refs c r, comes_from refs c r -> In r (map snd (filter fst (combine (c_from c) refs))).
Proof.
  intros refs c r (p & H1 & H2). revert p refs H1 H2. induction (c_from c) as [|b l IH]; intros [|p] [|r' refs] H1 H2; try discriminate.
  - cbn in H1, H2. injection H1 as ->. injection H2 as ->. left. reflexivity.
  - cbn in H1, H2. cbn [combine filter fst]. specialize (IH p refs H1 H2). destruct b; [right|]; exact IH.
Qed.

Lemma pillar_floors : floors_i16 pillar.
Proof. intros sec [<-|[<-|[]]]; cbn; lia. Qed.

Lemma pillar_start : find_player_start pillar = Some (pt 64 64).
Proof. reflexivity. Qed.

Lemma pillar_routes : forall std, std_laws std -> sorts std ->
  route std 3000 Checked pillar = Ok (fst pillar_routed, (fst (snd pillar_routed), snd (snd pillar_routed)))
  /\ route_map_as_svg std 3000 Checked pillar = Ok pillar_document.
Proof.
  intros std L S.
  assert (Q : pieces_orderedb 3000 (fst pillar_inputs) = true) by (vm_compute; reflexivity).
  assert (E : route_input pillar = Ok (fst pillar_inputs, snd pillar_inputs)) by (rewrite <- surjective_pairing; exact pillar_input).
  pose proof (route_ref std 3000 Checked pillar _ _ L S E Q) as R. split; [rewrite R; exact pillar_route|].
  rewrite <- pillar_drawn. unfold route_map_as_svg. rewrite R. reflexivity.
Qed.

(** C89. *)
Lemma red_refuted : exists fuel mode m d result dist chunks start p, floors_i16 m
  /\ (forall std, std_laws std -> sorts std -> route std fuel mode m = Ok (result, (dist, chunks)) /\ route_map_as_svg std fuel mode m = Ok d)
  /\ find_player_start m = Some start /\ In p (rd_paths d) /\ ~ reached result start (rp_contour p) /\ rp_fill p <> Red.
Proof.
  exists 3000%nat, Checked, pillar, pillar_document, (fst pillar_routed), (fst (snd pillar_routed)), (snd (snd pillar_routed)), (pt 64 64),
    (nth 2 (rd_paths pillar_document) (mk_route_path [] Red [] 0)).
  split; [exact pillar_floors|]. split; [exact pillar_routes|].
  split; [exact pillar_start|]. split; [apply nth_In; vm_compute; repeat constructor|]. split; [|vm_compute; discriminate].
  change (rp_contour (nth 2 (rd_paths pillar_document) (mk_route_path [] Red [] 0))) with 4%nat.
  intros R. destruct (route_result _ _ _ _ _ _ _ pillar_floors pillar_route) as (ps & refs & start & A & B & C & D & _).
  assert (start = pt 64 64) as -> by (destruct C as [C|[C _]]; rewrite pillar_start in C; congruence).
  apply D in R. destruct R as [k Hk]. vm_compute in Hk. discriminate.
Qed.

(** C90. *)
Lemma nested_refuted : exists fuel polygons result k c h,
  (forall std, std_laws std -> sorts std -> compute std fuel polygons Union = Ok result)
  /\ nth_error result k = Some c /\ c_external c = false /\ In h (c_holes c).
Proof.
  exists 3000%nat, cut_out, cut_out_overlay, 1%nat. eexists _, 2%nat. split; [intros std L S; rewrite (compute_ref std) by first [assumption|vm_compute; reflexivity]; exact cut_out_computed|].
  split; [vm_compute; reflexivity|]. split; [reflexivity|left; reflexivity].
Qed.

Definition pillar_contour (i : nat) : contour := nth i (fst pillar_routed) contour_new.

Lemma pillar_steps : steps_into pillar (snd pillar_inputs) (pillar_contour 0) (pillar_contour 4).
Proof.
  assert (T : forall c t, ~ has_tag pillar (snd pillar_inputs) c t).
  { intros c t (N0 & _ & s & sec & _ & (_ & Hs) & <-). apply nth_error_In in Hs. destruct Hs as [<-|[<-|[]]]; apply N0; reflexivity. }
  assert (I0 : forall s, in_sector pillar (snd pillar_inputs) (pillar_contour 0) s -> s = 0).
  { intros s [H|(l & H & _)]; apply comes_in in H; vm_compute in H; destruct H as [H|[]]; [injection H as <-; reflexivity|discriminate]. }
  split; [intros t; split; intros H; exfalso; eapply T; exact H|]. split.
  - intros (l & H & B). apply comes_in in H. vm_compute in H. destruct H as [H|[H|[H|[]]]]; try discriminate. injection H as <-. discriminate.
  - exists 0, 8. split; [|split; [|lia]]; split.
    + exists 0. eexists. split; [left; exists 0%nat; split; reflexivity|]. split; [split; [lia|reflexivity]|reflexivity].
    + intros s sec H (_ & Hs). apply I0 in H. subst s. injection Hs as <-. cbn. lia.
    + exists 1. eexists. split; [left; exists 1%nat; split; reflexivity|]. split; [split; [lia|reflexivity]|reflexivity].
    + intros s sec _ (_ & Hs). apply nth_error_In in Hs. destruct Hs as [<-|[<-|[]]]; cbn; lia.
Qed.

Lemma pillar_missing : not_drawn (fst pillar_routed) 3.
Proof.
  intros k c Hk E. assert (L : (k < 12)%nat) by (change 12%nat with (length (fst pillar_routed)); apply nth_error_Some; congruence).
  do 12 (destruct k as [|k]; [vm_compute in Hk; injection Hk as <-; cbn [c_external c_holes] in *;
    first [discriminate E|split; [lia|intros Q; cbn in Q; lia]]|]). lia.
Qed.

Lemma platform_refuted : exists fuel mode m refs d result dist chunks i ci zi h hc zh j cj p, floors_i16 m
  /\ (forall std, std_laws std -> sorts std -> route std fuel mode m = Ok (result, (dist, chunks)) /\ route_map_as_svg std fuel mode m = Ok d)
  /\ option_map snd (match route_input m with Ok x => Some x | _ => None end) = Some refs
  /\ nth_error result i = Some ci /\ nth_error result h = Some hc /\ nth_error result j = Some cj
  /\ Forall2 at_z (c_points ci) zi /\ Forall2 at_z (c_points hc) zh /\ (forall z, In z zh -> surrounds zi z = true)
  /\ c_external ci = true /\ c_external hc = false /\ nth_error (c_neighbors hc) j = Some true
  /\ steps_into m refs ci cj /\ nth_error dist i = Some 1%nat /\ nth_error dist j = Some 0%nat
  /\ not_drawn result h /\ In p (rd_paths d) /\ rp_contour p = j /\ rp_fill p = DarkRed.
Proof.
  exists 3000%nat, Checked, pillar, (snd pillar_inputs), pillar_document, (fst pillar_routed), (fst (snd pillar_routed)), (snd (snd pillar_routed)).
  exists 0%nat, (pillar_contour 0), [(16, 16); (496, 16); (496, 496); (16, 496)], 3%nat, (pillar_contour 3),
    [(184, 284); (184, 316); (184, 384); (184, 416); (216, 416); (284, 416); (316, 416); (316, 384); (316, 316); (316, 284); (284, 284); (216, 284)],
    4%nat, (pillar_contour 4), (nth 2 (rd_paths pillar_document) (mk_route_path [] Red [] 0)).
  split; [exact pillar_floors|]. split; [exact pillar_routes|].
  split; [rewrite pillar_input; reflexivity|]. do 3 (split; [reflexivity|]).
  assert (P0 : c_points (pillar_contour 0) = [pt 16 16; pt 496 16; pt 496 496; pt 16 496]) by (vm_compute; reflexivity).
  assert (P3 : c_points (pillar_contour 3) = [pt 184 284; pt 184 316; pt 184 384; pt 184 416; pt 216 416; pt 284 416; pt 316 416;
    pt 316 384; pt 316 316; pt 316 284; pt 284 284; pt 216 284]) by (vm_compute; reflexivity).
  split; [rewrite P0; repeat (constructor; [apply pt_at; reflexivity|]); constructor|].
  split; [rewrite P3; repeat (constructor; [apply pt_at; reflexivity|]); constructor|].
  split; [intros z H; cbn [In] in H; decompose [or] H; try contradiction; subst z; reflexivity|].
  do 3 (split; [reflexivity|]). split; [exact pillar_steps|]. do 2 (split; [reflexivity|]). split; [exact pillar_missing|].
  split; [apply nth_In; vm_compute; repeat constructor|]. split; reflexivity.
Qed.

(** The map of [later_wad] that is drawn. *)
Lemma later_route : unsigned_entries later_wad /\ route_marker (directory later_wad) 6 /\ early (directory later_wad) 0.
Proof.
  split; [repeat constructor; discriminate|].
  pose (l := iter_maps later_wad). destruct l as [|r0 [|r1 rest]] eqn:E; [vm_compute in E; discriminate|vm_compute in E; discriminate|].
  assert (I1 : marker_index r1 = 6%nat) by (vm_compute in E; injection E; intros; subst; reflexivity).
  assert (I0 : marker_index r0 = 0%nat) by (vm_compute in E; injection E; intros; subst; reflexivity).
  assert (S1 : skipped r1 = false) by (vm_compute in E; injection E; intros; subst; reflexivity).
  assert (S0 : skipped r0 = true) by (vm_compute in E; injection E; intros; subst; reflexivity).
  unfold l in E. split.
  - rewrite <- I1. apply (first_route later_wad [r0] r1 rest E); auto.
  - rewrite <- I0. apply skipped_early; [|exact S0]. apply block_points. rewrite E. left. reflexivity.
Qed.
