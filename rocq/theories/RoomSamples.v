(** A check for well drawn maps, and a sample. *)

From Coq Require Import List ZArith QArith Bool Lia.
From Coq Require Import ZifyBool ZifyNat.
From Verif Require Import Base Float Geometry MapModel SectorPolys Contours Compute Samples SpecMapModel SpecSector SpecShape SpecOrder SpecIntersect SpecTurn SpecTidy
  StdRef ShapeFacts ShapeSamples TidySamples TurnSamples OverlaySamples SpecRooms.
Import ListNotations.
Local Open Scope Z_scope.

Definition at_ {A} (l : list A) (i : Z) : option A := if 0 <=? i then nth_error l (Z.to_nat i) else None.
Lemma at_ok : forall {A} (l : list A) i a, at_ l i = Some a <-> item_at l i a.
Proof.
  intros A l i a. unfold at_, item_at. destruct (Z.leb_spec 0 i); [tauto|]. split; [discriminate|]. intros [H0 _]. lia.
Qed.

Section Check.
Variables (m : gmap) (vs : list (Z * Z)).
Let place := corner vs.

Definition inb (s : Z) (o : option handle) : bool :=
  match o with Some h => match at_ (g_sides m) h with Some sd => si_sector sd =? s | None => false end | None => false end.
Definition sameb (l : line) : bool :=
  match ln_front l, ln_back l with
  | Some h, Some k => match at_ (g_sides m) h, at_ (g_sides m) k with Some f, Some b => si_sector f =? si_sector b | _, _ => false end
  | _, _ => false
  end.
Definition borderb (s : Z) (l : line) : bool := (inb s (ln_front l) || inb s (ln_back l)) && negb (sameb l).

Lemma inb_ok : forall s o, inb s o = true <-> m_side_in m s o.
Proof.
  intros s o. unfold inb, m_side_in. destruct o as [h|]; [|split; [discriminate|intros (h & sd & H & _); discriminate H]].
  destruct (at_ (g_sides m) h) as [sd|] eqn:E.
  - rewrite Z.eqb_eq. split.
    + intros H. exists h, sd. split; [reflexivity|]. split; [now apply at_ok|exact H].
    + intros (h' & sd' & H & I & S). injection H as <-. apply at_ok in I. congruence.
  - split; [discriminate|]. intros (h' & sd' & H & I & S). injection H as <-. apply at_ok in I. congruence.
Qed.
Lemma sameb_ok : forall l, sameb l = true <-> m_same_sector m l.
Proof.
  intros l. unfold sameb, m_same_sector. split.
  - destruct (ln_front l) as [h|]; [|discriminate]. destruct (ln_back l) as [k|]; [|discriminate].
    destruct (at_ (g_sides m) h) as [f|] eqn:F; [|discriminate]. destruct (at_ (g_sides m) k) as [b|] eqn:B; [|discriminate].
    intros H. apply Z.eqb_eq in H. apply at_ok in F, B. exists h, k, f, b. auto.
  - intros (h & k & f & b & -> & -> & F & B & S). apply at_ok in F, B. rewrite F, B. now apply Z.eqb_eq.
Qed.
Lemma borderb_ok : forall s l, borderb s l = true <-> m_borders m s l.
Proof.
  intros s l. unfold borderb, m_borders. rewrite andb_true_iff, orb_true_iff, !inb_ok, negb_true_iff, <- sameb_ok.
  destruct (sameb l); split; intros [H1 H2]; split; auto; congruence.
Qed.

Definition sectors : list Z := map Z.of_nat (seq 0 (length (g_sectors m))).
Definition any_border (l : line) : bool := existsb (fun s => borderb s l) sectors.
Lemma sectors_ok : forall s, In s sectors <-> is_sector m s.
Proof.
  intros s. unfold sectors, is_sector, has_item. rewrite in_map_iff. split.
  - intros (k & <- & H). apply in_seq in H. lia.
  - intros H. exists (Z.to_nat s). split; [lia|]. apply in_seq. lia.
Qed.
Lemma any_ok : forall l, any_border l = true <-> exists s, is_sector m s /\ m_borders m s l.
Proof.
  intros l. unfold any_border. rewrite existsb_exists. split; intros (s & A & B); exists s; (split; [now apply sectors_ok|now apply borderb_ok]).
Qed.

Definition hasb {A} (l : list A) (h : Z) : bool := (0 <=? h) && (h <? Z.of_nat (length l)).
Definition indicesb : bool :=
  forallb (fun l => match ln_front l with Some h => hasb (g_sides m) h | None => true end && match ln_back l with Some h => hasb (g_sides m) h | None => true end) (g_lines m)
  && forallb (fun l => negb (any_border l) || (hasb (g_vertices m) (ln_start l) && hasb (g_vertices m) (ln_end l))) (g_lines m).
Lemma hasb_ok : forall {A} (l : list A) h, hasb l h = true <-> has_item l h.
Proof. intros A l h. unfold hasb, has_item. lia. Qed.
Lemma indices_ok : indicesb = true -> forall s, is_sector m s -> m_indices_exist m s.
Proof.
  intros H s IS. apply andb_true_iff in H. destruct H as (H1 & H2). rewrite forallb_forall in H1, H2. split.
  - intros l h I D. specialize (H1 l I). apply andb_true_iff in H1. destruct H1 as (F & B). destruct D as [D|D]; rewrite D in *; now apply hasb_ok.
  - intros l I B. specialize (H2 l I). apply orb_true_iff in H2. destruct H2 as [H2|H2].
    + apply negb_true_iff in H2. assert (T : any_border l = true) by (apply any_ok; eauto). congruence.
    + apply andb_true_iff in H2. split; apply hasb_ok; apply H2.
Qed.

Definition shortb (v : Z * Z) : bool := (Z.abs (fst v) <=? 4000) && (Z.abs (snd v) <=? 4000) && negb (z_eqb v (0, 0)).
Lemma shortb_ok : forall v, shortb v = true -> short v.
Proof.
  intros [a b] H. unfold shortb, z_eqb in H. cbn [fst snd] in H. unfold short, within. cbn [fst snd]. split; [lia|].
  intros E. injection E as -> ->. discriminate H.
Qed.
Definition short_linesb : bool := forallb (fun l => negb (any_border l) || shortb (vsub (place (ln_end l)) (place (ln_start l)))) (g_lines m).

Definition meetsb (s : Z) (v : handle) (p : nat) : bool :=
  match nth_error (g_lines m) p with Some l => borderb s l && ((ln_start l =? v) || (ln_end l =? v)) | None => false end.
Definition meeting (s : Z) (v : handle) : list nat := filter (meetsb s v) (seq 0 (length (g_lines m))).
Definition closedb : bool :=
  forallb (fun s => forallb (fun l => Nat.even (length (meeting s (ln_start l))) && Nat.even (length (meeting s (ln_end l)))) (g_lines m)) sectors.
Lemma meets_ok : forall s v p, meetsb s v p = true <-> exists w, m_joins m s p v w.
Proof.
  intros s v p. unfold meetsb, m_joins. destruct (nth_error (g_lines m) p) as [l|].
  - rewrite andb_true_iff, borderb_ok, orb_true_iff, !Z.eqb_eq. split.
    + intros (B & [S|E]); [exists (ln_end l)|exists (ln_start l)]; exists l; auto.
    + intros (w & l' & E & B & D). injection E as <-. split; [exact B|]. tauto.
  - split; [discriminate|]. intros (w & l' & E & _). discriminate E.
Qed.
Lemma closed_ok : closedb = true -> forall s, is_sector m s -> closed_border m s.
Proof.
  intros H s IS v. unfold closedb in H. rewrite forallb_forall in H. specialize (H s (proj2 (sectors_ok s) IS)). rewrite forallb_forall in H.
  exists (meeting s v). split; [apply NoDup_filter, seq_NoDup|]. split.
  - intros p. unfold meeting. rewrite filter_In, in_seq, meets_ok. split; [tauto|]. intros J. split; [|exact J].
    destruct J as (w & l & E & _). split; [lia|]. apply nth_error_Some. congruence.
  - destruct (meeting s v) as [|p ps] eqn:M; [reflexivity|]. rewrite <- M.
    assert (I : In p (meeting s v)) by (rewrite M; left; reflexivity). apply filter_In in I. destruct I as (_ & I). unfold meetsb in I.
    destruct (nth_error (g_lines m) p) as [l|] eqn:E; [|discriminate I]. apply andb_true_iff in I. destruct I as (_ & I).
    specialize (H l (nth_error_In _ _ E)). apply andb_true_iff in H. apply orb_true_iff in I. rewrite !Z.eqb_eq in I. destruct I as [<-|<-]; apply H.
Qed.

Definition ends_of (l : line) : list handle := [ln_start l; ln_end l].
Definition distinctb : bool :=
  forallb (fun l => forallb (fun k => forallb (fun v => forallb (fun w => negb (z_eqb (place v) (place w)) || (v =? w)) (ends_of k)) (ends_of l))
    (filter any_border (g_lines m))) (filter any_border (g_lines m)).
Definition apart_linesb : bool :=
  forallb (fun p => forallb (fun q => (p =? q)%nat ||
    match nth_error (g_lines m) p, nth_error (g_lines m) q with
    | Some l, Some k => negb (any_border l) || negb (any_border k)
        || forallb (fun e => forallb (fun f => apartb e f) (line_as_edge place 0 k)) (line_as_edge place 0 l)
    | _, _ => true
    end) (seq 0 (length (g_lines m)))) (seq 0 (length (g_lines m))).

Variable bound : Z.
Definition nearb (v : Z * Z) : bool := (Z.abs (fst v) <=? bound) && (Z.abs (snd v) <=? bound).
Definition boundedb : bool :=
  forallb (fun l => negb (any_border l) || (nearb (place (ln_start l)) && nearb (place (ln_end l)))) (g_lines m)
  && (Z.of_nat (length (g_lines m)) * (4 * (bound * bound)) <? 2 ^ 53).

Definition well_drawnb : bool := indicesb && short_linesb && closedb && distinctb && apart_linesb && boundedb.

Hypothesis VS : g_vertices m = map (fun v => pt (fst v) (snd v)) vs.
Hypothesis HW : Forall (within (2 ^ 24)) vs.

Lemma z_eqb_refl : forall a, z_eqb a a = true.
Proof. intros [a b]. unfold z_eqb. now rewrite !Z.eqb_refl. Qed.

Lemma drawn_vertex : forall h, has_item (g_vertices m) h -> vertex_at m place h.
Proof.
  intros h H. unfold has_item in H. rewrite VS, map_length in H. destruct (nth_error vs (Z.to_nat h)) as [[x y]|] eqn:E; [|apply nth_error_None in E; lia].
  assert (C : place h = (x, y)) by (unfold place, corner; now apply nth_error_nth). unfold vertex_at. rewrite C.
  rewrite Forall_forall in HW. pose proof (HW _ (nth_error_In _ _ E)) as W. split; [assumption|].
  intros p [_ Hp]. rewrite VS, nth_error_map, E in Hp. cbn in Hp. injection Hp as <-. destruct W. cbn [fst snd] in *.
  assert (2 ^ 24 < 2 ^ 53) by reflexivity. apply pt_at; lia.
Qed.

Lemma border_any : forall p l, border_line m p l -> In l (g_lines m) /\ any_border l = true.
Proof. intros p l (E & B). split; [exact (nth_error_In _ _ E)|]. now apply any_ok. Qed.

Lemma well_drawn_ok : well_drawnb = true -> well_drawn m place.
Proof.
  intros H. unfold well_drawnb in H. rewrite !andb_true_iff in H. destruct H as (((((H1 & H2) & H3) & H4) & H5) & H6).
  unfold short_linesb, distinctb, apart_linesb, boundedb in *. rewrite andb_true_iff in H6. destruct H6 as (H6 & H7). rewrite forallb_forall in H2, H4, H5, H6.
  split; [|split; [|split]].
  - intros s IS. split; [now apply indices_ok|]. split; [|now apply closed_ok].
    destruct (indices_ok H1 s IS) as (_ & IV). intros l I B. destruct (IV l I B) as (V1 & V2).
    split; [now apply drawn_vertex|]. split; [now apply drawn_vertex|]. specialize (H2 l I). apply orb_true_iff in H2. destruct H2 as [H2|H2]; [|now apply shortb_ok].
    apply negb_true_iff in H2. assert (T : any_border l = true) by (apply any_ok; eauto). congruence.
  - intros p l q k v w Bl Bk V W E. destruct (border_any p l Bl) as (Il & Al). destruct (border_any q k Bk) as (Ik & Ak).
    specialize (H4 l (proj2 (filter_In _ _ _) (conj Il Al))). rewrite forallb_forall in H4. specialize (H4 k (proj2 (filter_In _ _ _) (conj Ik Ak))).
    rewrite forallb_forall in H4. assert (Iv : In v (ends_of l)) by (cbn; destruct V; auto). assert (Iw : In w (ends_of k)) by (cbn; destruct W; auto).
    specialize (H4 v Iv). rewrite forallb_forall in H4. specialize (H4 w Iw). rewrite E, z_eqb_refl in H4. now apply Z.eqb_eq.
  - intros p l q k e f Bl Bk N Ie If. destruct (border_any p l Bl) as (Il & Al). destruct (border_any q k Bk) as (Ik & Ak).
    destruct Bl as (El & _). destruct Bk as (Ek & _).
    assert (Sp : In p (seq 0 (length (g_lines m)))) by (apply in_seq; split; [lia|]; apply nth_error_Some; congruence).
    assert (Sq : In q (seq 0 (length (g_lines m)))) by (apply in_seq; split; [lia|]; apply nth_error_Some; congruence).
    specialize (H5 p Sp). rewrite forallb_forall in H5. specialize (H5 q Sq). apply Nat.eqb_neq in N. rewrite N, El, Ek, Al, Ak in H5. cbn [negb orb] in H5.
    rewrite forallb_forall in H5. specialize (H5 e Ie). rewrite forallb_forall in H5. now apply apartb_ok, H5.
  - exists bound. split; [|now apply Z.ltb_lt]. intros p l B. destruct (border_any p l B) as (I & A). specialize (H6 l I). rewrite A in H6. cbn [negb orb] in H6.
    apply andb_true_iff in H6. unfold nearb, within in *. lia.
Qed.
End Check.

(** The room with a pillar, as the program loads it. *)
Definition pillar : gmap := Eval vm_compute in match from_bare pillar_map with Ok m => m | _ => outline_map [] [] end.
Definition pillar_corners : list (Z * Z) := [(0, 0); (256, 0); (256, 256); (0, 256); (64, 64); (128, 64); (64, 128)].

Lemma pillar_drawn : from_bare pillar_map = Ok pillar /\ well_drawn pillar (corner pillar_corners).
Proof.
  split; [vm_compute; reflexivity|]. apply (well_drawn_ok pillar pillar_corners 256).
  - vm_compute. reflexivity.
  - repeat constructor; vm_compute; discriminate.
  - vm_compute. reflexivity.
Qed.

Definition pillar_outlines : list (list (list point)) := Eval vm_compute in
  map (fun k => match map_sector_to_polygons pillar k with Ok o => o | _ => [] end) [0; 1].
Definition pillar_rooms : polygon := Eval vm_compute in
  match compute std_ref 32 (map sector_polygon pillar_outlines) Union with Ok r => r | _ => [] end.
Definition pillar_lines : corners :=
  [[(0, 0); (256, 0); (256, 256); (0, 256)]; [(64, 64); (128, 64); (64, 128)]; [(64, 64); (64, 128); (128, 64)]].
Lemma pillar_result : compute std_ref 32 (map sector_polygon pillar_outlines) Union = Ok pillar_rooms /\ has_corners pillar_rooms pillar_lines.
Proof. split; [vm_compute; reflexivity|]. apply z_points_at; [vm_compute; reflexivity|reflexivity]. Qed.
