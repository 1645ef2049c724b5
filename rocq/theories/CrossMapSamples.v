(** A check for maps whose lines cross in points of a grid, and a sample. *)

From Coq Require Import String List ZArith QArith Bool Lia.
From Coq Require Import ZifyBool ZifyNat.
From Verif Require Import Base Float Geometry ParseMap MapModel SectorPolys Contours Compute Samples SpecMapModel SpecSector SpecShape SpecOrder SpecIntersect SpecTurn SpecTidy
  StdRef ShapeFacts ShapeSamples TidySamples TurnSamples OverlaySamples SpecRooms RoomSamples SpecCross SpecGrid SpecSlope CrossSamples GridSamples SlopeSamples MeshSamples SpecMesh SpecCrossMap.
Import ListNotations.
Local Open Scope Z_scope.

Section Check.
Variables (m : gmap) (vs : list (Z * Z)) (g R D : Z) (ws : list (Z * Z)).
Let place := corner vs.

Definition oneb (l : line) : bool := forallb (fun s => forallb (fun t => (s =? t) || negb (borderb m s l && borderb m t l)) (sectors m)) (sectors m).
Lemma one_ok : forall l, oneb l = true -> ~ between_sectors m l.
Proof.
  intros l H (s & t & N & IS & IT & B & C). unfold oneb in H. rewrite forallb_forall in H. specialize (H s (proj2 (sectors_ok m vs s) IS)). rewrite forallb_forall in H. specialize (H t (proj2 (sectors_ok m vs t) IT)).
  apply (borderb_ok m) in B, C. rewrite B, C in H. lia.
Qed.

Definition cross_linesb : bool :=
  forallb (fun p => forallb (fun q => (p =? q)%nat ||
    match nth_error (g_lines m) p, nth_error (g_lines m) q with
    | Some l, Some k => negb (any_border m l) || negb (any_border m k)
        || forallb (fun e => forallb (fun f => apartb e f || (existsb (cross_onb g e f) ws && oneb l && oneb k)) (line_as_edge place 0 k)) (line_as_edge place 0 l)
    | _, _ => true
    end) (seq 0 (length (g_lines m)))) (seq 0 (length (g_lines m))).
Definition crossing_mapb : bool :=
  (0 <=? g) && (g <=? 7) && (0 <=? R) && (R <=? 1000) && (R * R * D <=? 1248751) && (Z.of_nat (length (g_lines m)) <=? 4500)
  && indicesb m && short_linesb m vs && closedb m && distinctb m vs
  && forallb (fun l => negb (any_border m l) || forallb (mesh_sideb g R D) (line_as_edge place 0 l)) (g_lines m) && cross_linesb.

Hypothesis VS : g_vertices m = map (fun v => pt (fst v) (snd v)) vs.
Hypothesis HW : Forall (within (2 ^ 24)) vs.

Lemma crossing_map_ok : crossing_mapb = true -> crossing_map g R D m place.
Proof.
  intros H. unfold crossing_mapb in H. rewrite !andb_true_iff, !Z.leb_le in H. destruct H as (((((((((((G0 & G1) & W0) & W1) & Bd) & Fw) & H1) & H2) & H3) & H4) & H5) & H6).
  unfold short_linesb, distinctb, cross_linesb in *. rewrite forallb_forall in H2, H4, H5, H6.
  constructor; try lia.
  - intros s IS. split; [now apply indices_ok|]. split; [|now apply (closed_ok m vs)].
    destruct (indices_ok m vs H1 s IS) as (_ & IV). intros l I B. destruct (IV l I B) as (V1 & V2).
    split; [now apply (drawn_vertex m vs)|]. split; [now apply (drawn_vertex m vs)|]. specialize (H2 l I). apply orb_true_iff in H2. destruct H2 as [H2|H2]; [|now apply (shortb_ok vs)].
    apply negb_true_iff in H2. assert (T : any_border m l = true) by (apply (any_ok m vs); eauto). congruence.
  - intros h p [_ Hp]. rewrite VS, nth_error_map in Hp. destruct (nth_error vs (Z.to_nat h)) as [v|] eqn:E; [|discriminate Hp]. cbn [option_map] in Hp. injection Hp as <-.
    assert (C : place h = v) by (unfold place, corner; now apply nth_error_nth). rewrite C. reflexivity.
  - intros p l q k v w Bl Bk V W E. destruct (border_any m vs p l Bl) as (Il & Al). destruct (border_any m vs q k Bk) as (Ik & Ak).
    specialize (H4 l (proj2 (filter_In _ _ _) (conj Il Al))). rewrite forallb_forall in H4. specialize (H4 k (proj2 (filter_In _ _ _) (conj Ik Ak))).
    rewrite forallb_forall in H4. assert (Iv : In v (ends_of l)) by (cbn; destruct V; auto). assert (Iw : In w (ends_of k)) by (cbn; destruct W; auto).
    specialize (H4 v Iv). rewrite forallb_forall in H4. specialize (H4 w Iw). fold place in H4. rewrite E, z_eqb_refl in H4. now apply Z.eqb_eq.
  - intros i l e B I. destruct (border_any m vs i l B) as (Il & Al). specialize (H5 l Il). rewrite Al in H5. cbn [negb orb] in H5. rewrite forallb_forall in H5. apply mesh_side_ok; [exact G0|apply H5, I].
  - intros p l q k e f Bl Bk N Ie If. destruct (border_any m vs p l Bl) as (Il & Al). destruct (border_any m vs q k Bk) as (Ik & Ak).
    destruct Bl as (El & _). destruct Bk as (Ek & _).
    assert (Sp : In p (seq 0 (length (g_lines m)))) by (apply in_seq; split; [lia|]; apply nth_error_Some; congruence).
    assert (Sq : In q (seq 0 (length (g_lines m)))) by (apply in_seq; split; [lia|]; apply nth_error_Some; congruence).
    specialize (H6 p Sp). rewrite forallb_forall in H6. specialize (H6 q Sq). apply Nat.eqb_neq in N. rewrite N, El, Ek, Al, Ak in H6. cbn [negb orb] in H6.
    rewrite forallb_forall in H6. specialize (H6 e Ie). rewrite forallb_forall in H6. specialize (H6 f If). apply orb_true_iff in H6. destruct H6 as [H6|H6].
    + left. now apply apart_ends, apartb_ok.
    + right. rewrite !andb_true_iff in H6. destruct H6 as ((X & O1) & O2). split; [|split; now apply one_ok]. apply existsb_exists in X. destruct X as (v & _ & X). now apply (cross_on_ok g e f v G0).
Qed.
End Check.

(** Two rooms in the shape of diamonds that overlap, as where a map maker reuses space, and a
    third beside the second. *)
Definition stacked_map : doom_map :=
  let sd n := mk_side 0 0 (bs "-") (bs "-") (bs "BRICK1") n in
  mk_bmap
    [mk_vertex 0 (-256); mk_vertex 256 0; mk_vertex 0 256; mk_vertex (-256) 0; mk_vertex 256 (-256); mk_vertex 512 0; mk_vertex 256 256; mk_vertex 0 0; mk_vertex 512 256]
    [sample_sector; sample_sector; sample_sector]
    [sd 0; sd 0; sd 0; sd 0; sd 1; sd 1; sd 1; sd 1; sd 2; sd 2; sd 2]
    [mk_dline 0 1 1 0 0 0 (-1); mk_dline 1 2 1 0 0 1 (-1); mk_dline 3 2 1 0 0 2 (-1); mk_dline 3 0 1 0 0 3 (-1);
     mk_dline 4 5 1 0 0 4 (-1); mk_dline 6 7 1 0 0 5 (-1); mk_dline 7 4 1 0 0 6 (-1); mk_dline 5 6 4 0 0 7 8; mk_dline 5 8 1 0 0 9 (-1); mk_dline 6 8 1 0 0 10 (-1)]
    [].
Definition stacked : gmap := Eval vm_compute in match from_bare stacked_map with Ok m => m | _ => outline_map [] [] end.
Definition stacked_corners : list (Z * Z) := [(0, -256); (256, 0); (0, 256); (-256, 0); (256, -256); (512, 0); (256, 256); (0, 0); (512, 256)].
Definition stacked_crossings : list (Z * Z) := [(128, -128); (128, 128)].

Lemma stacked_drawn : from_bare stacked_map = Ok stacked /\ crossing_map 6 790 2 stacked (corner stacked_corners).
Proof.
  split; [vm_compute; reflexivity|]. apply (crossing_map_ok stacked stacked_corners 6 790 2 stacked_crossings).
  - vm_compute. reflexivity.
  - repeat constructor; vm_compute; discriminate.
  - vm_compute. reflexivity.
Qed.
Lemma stacked_cross : crosses_on 6 (mk_edge 0 (0, -256) (256, 0)) (mk_edge 0 (0, 0) (256, -256)).
Proof. apply (cross_on_ok 6 _ _ (128, -128)); [discriminate|]. vm_compute. reflexivity. Qed.

Definition stacked_outlines : list (list (list point)) := Eval vm_compute in
  map (fun k => match map_sector_to_polygons stacked k with Ok o => o | _ => [] end) [0; 1; 2].
Definition stacked_rooms : polygon := Eval vm_compute in
  match compute std_ref 1260 (map sector_polygon stacked_outlines) Union with Ok r => r | _ => [] end.
Definition stacked_lines : corners :=
  map (map (fun v => (64 * fst v, 64 * snd v)))
  [[(-4, 0); (0, -4); (2, -2); (0, 0); (2, 2); (0, 4)]; [(0, 0); (2, -2); (4, 0); (2, 2)]; [(2, -2); (4, -4); (8, 0); (4, 4); (2, 2); (4, 0)]; [(4, 4); (8, 0); (8, 4)]].
Lemma stacked_result : compute std_ref 1260 (map sector_polygon stacked_outlines) Union = Ok stacked_rooms /\ has_corners stacked_rooms stacked_lines.
Proof. split; [vm_compute; reflexivity|]. apply z_points_at; [vm_compute; reflexivity|reflexivity]. Qed.
