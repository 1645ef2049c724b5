(** Two things the route command does not do (C73, C74). *)

From Coq Require Import List ZArith Bool Lia.
From Verif Require Import Base BaseFacts Float MapModel SpecShape Contours Compute StdRef StdFacts SpecCompute Route SpecRoute FillFacts
  ShapeSamples RouteSamples SortFacts.
Import ListNotations.
Local Open Scope Z_scope.

Lemma no_bits : forall (l : list bool) j, forallb negb l = true -> nth_error l j <> Some true.
Proof. intros l j H E. apply nth_error_In in E. rewrite forallb_forall in H. apply H in E. discriminate. Qed.

Lemma apart : forall result, forallb (fun c => forallb negb (c_neighbors c)) result = true ->
  forall i j, connected result i j -> i = j.
Proof.
  intros result H.
  assert (B : forall i j, ~ borders result i j).
  { rewrite forallb_forall in H. intros i j (c & Hc & [Hn|(h & hc & _ & Hh & Hn)]).
    - apply nth_error_In in Hc. exact (no_bits _ _ (H _ Hc) Hn).
    - apply nth_error_In in Hh. exact (no_bits _ _ (H _ Hh) Hn). }
  intros i j C. induction C; auto; exfalso; eapply B; eauto.
Qed.

Lemma angle_routes : forall std, std_laws std -> sorts std -> route std 3000 Checked angle = Ok (fst angle_routed, (fst (snd angle_routed), snd (snd angle_routed))).
Proof.
  intros std L S. destruct (route_input angle) as [[polys refs]|e|p] eqn:E; [|discriminate E..].
  rewrite (route_ref std 3000 Checked angle polys refs L S E); [exact angle_route|].
  assert (Q : match route_input angle with Ok (p, _) => pieces_orderedb 3000 p | _ => false end = true) by (vm_compute; reflexivity).
  rewrite E in Q. exact Q.
Qed.

Lemma unclosed_pieces : match route_input unclosed with Ok (p, _) => pieces_orderedb 3000 p | _ => false end = true.
Proof. vm_compute. reflexivity. Qed.
Lemma unclosed_computes : forall std, std_laws std -> sorts std ->
  (let* (polygons, refs) := route_input unclosed in compute std 3000 polygons Union) = Ok unclosed_overlay.
Proof.
  intros std L S. pose proof unclosed_pieces as Q. pose proof unclosed_computed as C.
  destruct (route_input unclosed) as [[polys refs]|e|p]; [|discriminate Q..]. cbn [obind] in *. rewrite (compute_ref std) by assumption. exact C.
Qed.
Lemma unclosed_routes : forall std, std_laws std -> sorts std -> route std 3000 Checked unclosed = Panic PUnwrap.
Proof.
  intros std L S. pose proof unclosed_pieces as Q. destruct (route_input unclosed) as [[polys refs]|e|p] eqn:E; [|discriminate Q..].
  rewrite (route_ref std 3000 Checked unclosed polys refs L S E Q). vm_compute. reflexivity.
Qed.

Lemma start_room_refuted : exists fuel mode m start result dist chunks i j ci cj zi zj,
  find_player_start m = Some start /\ (forall std, std_laws std -> sorts std -> route std fuel mode m = Ok (result, (dist, chunks)))
  /\ nth_error result i = Some ci /\ nth_error result j = Some cj
  /\ Forall2 at_z (c_points ci) zi /\ Forall2 at_z (c_points cj) zj
  /\ at_z start (300, 300) /\ surrounds zi (300, 300) = false /\ surrounds zj (300, 300) = true
  /\ ~ connected result i j
  /\ nth_error dist i = Some 1%nat /\ nth_error dist j = Some 2%nat.
Proof.
  exists 3000%nat, Checked, angle, (pt 300 300), (fst angle_routed), (fst (snd angle_routed)), (snd (snd angle_routed)), 0%nat, 1%nat.
  destruct (nth_error (fst angle_routed) 0) as [ci|] eqn:Ci; [|vm_compute in Ci; discriminate].
  destruct (nth_error (fst angle_routed) 1) as [cj|] eqn:Cj; [|vm_compute in Cj; discriminate].
  exists ci, cj.
  exists [(16, 16); (384, 16); (384, 84); (116, 84); (84, 84); (84, 116); (84, 384); (16, 384)],
         [(266, 266); (334, 266); (334, 334); (266, 334)].
  assert (Pi : option_map c_points (nth_error (fst angle_routed) 0) =
    Some [pt 16 16; pt 384 16; pt 384 84; pt 116 84; pt 84 84; pt 84 116; pt 84 384; pt 16 384]) by (vm_compute; reflexivity).
  assert (Pj : option_map c_points (nth_error (fst angle_routed) 1) = Some [pt 266 266; pt 334 266; pt 334 334; pt 266 334])
    by (vm_compute; reflexivity).
  rewrite Ci in Pi. rewrite Cj in Pj. injection Pi as Pi. injection Pj as Pj.
  split; [reflexivity|]. split; [exact angle_routes|]. split; [reflexivity|]. split; [reflexivity|].
  split; [rewrite Pi; repeat (constructor; [apply pt_at; reflexivity|]); constructor|].
  split; [rewrite Pj; repeat (constructor; [apply pt_at; reflexivity|]); constructor|].
  split; [apply pt_at; reflexivity|]. split; [reflexivity|]. split; [reflexivity|]. split; [|split; vm_compute; reflexivity].
  intros C. apply apart in C; [discriminate|]. vm_compute. reflexivity.
Qed.

Lemma completes_refuted : exists fuel mode m result, floors_i16 m /\ lines_ok m
  /\ forall std, std_laws std -> sorts std ->
     (let* (polygons, refs) := route_input m in compute std fuel polygons Union) = Ok result
     /\ route std fuel mode m = Panic PUnwrap.
Proof.
  exists 3000%nat, Checked, unclosed, unclosed_overlay.
  split; [intros sec H; cbn in H; decompose [or] H; subst; cbn; lia|].
  split; [|intros std L S; split; [apply unclosed_computes; assumption|apply unclosed_routes; assumption]].
  assert (S : forall h s, h = 0 /\ s = 0 \/ h = 1 /\ s = 1 -> exists sec, side_faces unclosed (Some h) s /\ sector_at unclosed s sec).
  { intros h s [[-> ->]|[-> ->]]; eexists; (split; [|split; [lia|reflexivity]]); eexists _, _; repeat split; lia. }
  intros l o Hl Ho. cbn in Hl. decompose [or] Hl; try contradiction; subst l; cbn in Ho; destruct Ho as [->| ->];
    solve [left; reflexivity|right; eexists; apply S; auto].
Qed.
