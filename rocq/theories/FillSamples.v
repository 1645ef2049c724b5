(** A secret room around another room, whose lines face inwards as the walls do. *)

From Coq Require Import String List ZArith QArith Bool Lia Permutation.
From Verif Require Import Base Float ParseMap MapModel SectorPolys Chart Samples SpecMapModel SpecSector SpecOrder SpecTidy TurnSamples SpecRooms TidySamples RoomSamples SpecOverlay.
From Verif Require Import SpecFill.
Import ListNotations.
Local Open Scope Z_scope.

Definition secret_map : doom_map :=
  let sd n := mk_side 0 0 (bs "-") (bs "-") (bs "BRICK1") n in
  mk_bmap
    [mk_vertex 0 0; mk_vertex 0 256; mk_vertex 256 256; mk_vertex 256 0;
     mk_vertex 64 64; mk_vertex 64 128; mk_vertex 128 128; mk_vertex 128 64]
    [mk_sector 0 128 (bs "FLAT1") (bs "CEIL1_1") 160 9 0; mk_sector 0 96 (bs "FLAT1") (bs "CEIL1_1") 160 0 0]
    [sd 0; sd 0; sd 0; sd 0; sd 1; sd 1; sd 1; sd 1; sd 0; sd 0; sd 0; sd 0]
    [mk_dline 0 1 1 0 0 0 (-1); mk_dline 1 2 1 0 0 1 (-1); mk_dline 2 3 1 0 0 2 (-1); mk_dline 3 0 1 0 0 3 (-1);
     mk_dline 4 5 4 0 0 4 8; mk_dline 5 6 4 0 0 5 9; mk_dline 6 7 4 0 0 6 10; mk_dline 7 4 4 0 0 7 11]
    [].
Definition secret : gmap := Eval vm_compute in match from_bare secret_map with Ok m => m | _ => outline_map [] [] end.
Definition secret_corners : list (Z * Z) := [(0, 0); (0, 256); (256, 256); (256, 0); (64, 64); (64, 128); (128, 128); (128, 64)].

Lemma secret_drawn : from_bare secret_map = Ok secret /\ well_drawn secret (corner secret_corners).
Proof.
  split; [vm_compute; reflexivity|]. apply (well_drawn_ok secret secret_corners 256).
  - vm_compute. reflexivity.
  - repeat constructor; vm_compute; discriminate.
  - vm_compute. reflexivity.
Qed.

Definition secret_chart : document f64 := Eval vm_compute in
  match map_as_svg secret with Ok d => d | _ => mk_document (S754_nan, S754_nan, S754_nan, S754_nan) (1, -1) [] end.
Definition secret_path : list (command f64) := Eval vm_compute in
  match nth_error (d_shapes secret_chart) 8 with Some (SPath p _ _ _) => p | _ => [] end.
Definition secret_lines : corners :=
  [[(0, 0); (0, 256); (256, 256); (256, 0); (0, 0)]; [(64, 64); (64, 128); (128, 128); (128, 64); (64, 64)]].
Lemma secret_through : runs_through secret_path secret_lines.
Proof. unfold runs_through, secret_lines. cbn [subpaths drawn_to secret_path]. repeat constructor. Qed.

(** Which places are in a sector can be computed. *)
Definition insideb (m : gmap) (vs : list (Z * Z)) (s : Z) (x y : Q) : bool :=
  Nat.odd (length (filter (fun p => match nth_error (g_lines m) p with
    | Some l => borderb m s l && existsb (fun e => passes_below e x y) (line_as_edge (corner vs) 0 l)
    | None => false end) (seq 0 (length (g_lines m))))).
Lemma insideb_ok : forall m vs s x y, insideb m vs s x y = true <-> in_sector m (corner vs) s x y.
Proof.
  intros m vs s x y. unfold insideb. set (P := fun p => match nth_error (g_lines m) p with Some l => _ | None => false end).
  assert (M : forall p, In p (filter P (seq 0 (length (g_lines m)))) <-> exists l, nth_error (g_lines m) p = Some l /\ m_borders m s l /\ line_below (corner vs) l x y).
  { intros p. rewrite filter_In. unfold P, line_below. split.
    - intros (_ & H). destruct (nth_error (g_lines m) p) as [l|]; [|discriminate]. apply andb_true_iff in H. destruct H as (B & H).
      apply borderb_ok in B. apply existsb_exists in H. exists l. auto.
    - intros (l & E & B & H). split; [apply in_seq; split; [lia|]; apply nth_error_Some; congruence|]. rewrite E. apply borderb_ok in B. rewrite B.
      apply existsb_exists in H. exact H. }
  split.
  - intros O. exists (filter P (seq 0 (length (g_lines m)))). split; [apply NoDup_filter, seq_NoDup|]. split; [exact M|exact O].
  - intros (qs & NQ & MQ & O). rewrite <- O. f_equal. apply Permutation_length, NoDup_Permutation; [apply NoDup_filter, seq_NoDup|exact NQ|].
    intros p. rewrite M, MQ. reflexivity.
Qed.

(** *** The same rooms with the lines of the inner one facing outwards *)

Definition island_map : doom_map :=
  let sd n := mk_side 0 0 (bs "-") (bs "-") (bs "BRICK1") n in
  mk_bmap (m_vertices secret_map) (m_sectors secret_map)
    [sd 0; sd 0; sd 0; sd 0; sd 1; sd 1; sd 1; sd 1; sd 0; sd 0; sd 0; sd 0]
    [mk_dline 0 1 1 0 0 0 (-1); mk_dline 1 2 1 0 0 1 (-1); mk_dline 2 3 1 0 0 2 (-1); mk_dline 3 0 1 0 0 3 (-1);
     mk_dline 5 4 4 0 0 8 4; mk_dline 6 5 4 0 0 9 5; mk_dline 7 6 4 0 0 10 6; mk_dline 4 7 4 0 0 11 7]
    [].
Definition island : gmap := Eval vm_compute in match from_bare island_map with Ok m => m | _ => outline_map [] [] end.
Lemma island_drawn : from_bare island_map = Ok island /\ well_drawn island (corner secret_corners).
Proof.
  split; [vm_compute; reflexivity|]. apply (well_drawn_ok island secret_corners 256).
  - vm_compute. reflexivity.
  - repeat constructor; vm_compute; discriminate.
  - vm_compute. reflexivity.
Qed.

(** Which hand a sector is on, looked up in the middle of a line. *)
Definition rightb (m : gmap) (vs : list (Z * Z)) (s : Z) (l : line) : bool :=
  existsb (fun e =>
    let x := ((inject_Z (fst (e_left e)) + inject_Z (fst (e_right e))) * (1 # 2))%Q in
    let y := ((inject_Z (snd (e_left e)) + inject_Z (snd (e_right e))) * (1 # 2))%Q in
    (z_eqb (corner vs (ln_start l)) (e_left e) && insideb m vs s x y) || (z_eqb (corner vs (ln_start l)) (e_right e) && negb (insideb m vs s x y)))
    (line_as_edge (corner vs) 0 l).
Lemma rightb_ok : forall m vs s l, rightb m vs s l = true -> right_hand m (corner vs) s l.
Proof.
  intros m vs s l H. apply existsb_exists in H. destruct H as (e & I & H).
  set (x := ((inject_Z (fst (e_left e)) + inject_Z (fst (e_right e))) * (1 # 2))%Q) in H.
  set (y := ((inject_Z (snd (e_left e)) + inject_Z (snd (e_right e))) * (1 # 2))%Q) in H. cbv zeta in H.
  exists e, x, y. split; [exact I|]. split.
  - exists (1 # 2)%Q. split; [reflexivity|]. split; [reflexivity|]. unfold x, y. rewrite !TidyGeo.inject_sub. split; ring.
  - apply orb_true_iff in H. destruct H as [H|H]; apply andb_true_iff in H; destruct H as (H1 & H2); apply z_eqb_eq in H1.
    + left. split; [exact H1|]. now apply insideb_ok.
    + right. split; [exact H1|]. intros J. apply insideb_ok in J. rewrite J in H2. discriminate H2.
Qed.

Definition one_handb (m : gmap) (vs : list (Z * Z)) (s : Z) : bool := forallb (fun l => negb (borderb m s l) || rightb m vs s l) (g_lines m).
Definition head_to_tailb (m : gmap) (s : Z) : bool :=
  let ls := seq 0 (length (g_lines m)) in
  forallb (fun p => forallb (fun q => (p =? q)%nat || match nth_error (g_lines m) p, nth_error (g_lines m) q with
    | Some l, Some k => negb (borderb m s l) || negb (borderb m s k) || (negb (ln_start l =? ln_start k) && negb (ln_end l =? ln_end k))
    | _, _ => true end) ls) ls.
Lemma one_handb_ok : forall m vs s, one_handb m vs s = true -> one_hand m (corner vs) s.
Proof.
  intros m vs s H. left. intros l I B. unfold one_handb in H. rewrite forallb_forall in H. specialize (H l I). apply borderb_ok in B. rewrite B in H. now apply rightb_ok.
Qed.
Lemma head_to_tailb_ok : forall m s, head_to_tailb m s = true -> head_to_tail m s.
Proof.
  intros m s H p q l k E E' B B' D. unfold head_to_tailb in H. rewrite forallb_forall in H.
  assert (IN : forall p l, nth_error (g_lines m) p = Some l -> In p (seq 0 (length (g_lines m)))).
  { intros r j F. apply in_seq. split; [lia|]. apply nth_error_Some. congruence. }
  specialize (H p (IN p l E)). rewrite forallb_forall in H. specialize (H q (IN q k E')). rewrite E, E' in H. apply borderb_ok in B, B'. rewrite B, B' in H. cbn [negb orb] in H.
  apply orb_true_iff in H. destruct H as [H|H]; [now apply Nat.eqb_eq|]. exfalso. apply andb_true_iff in H. destruct H as (H1 & H2). apply negb_true_iff in H1, H2.
  apply Z.eqb_neq in H1, H2. destruct D; contradiction.
Qed.

Lemma island_hands : one_hand island (corner secret_corners) 0 /\ head_to_tail island 0.
Proof. split; [apply one_handb_ok; vm_compute; reflexivity|apply head_to_tailb_ok; vm_compute; reflexivity]. Qed.
Definition island_chart : document f64 := Eval vm_compute in
  match map_as_svg island with Ok d => d | _ => mk_document (S754_nan, S754_nan, S754_nan, S754_nan) (1, -1) [] end.
Definition island_lines : corners :=
  [[(0, 0); (0, 256); (256, 256); (256, 0); (0, 0)]; [(64, 128); (64, 64); (128, 64); (128, 128); (64, 128)]].
Definition island_path : list (command f64) := Eval vm_compute in
  match nth_error (d_shapes island_chart) 8 with Some (SPath p _ _ _) => p | _ => [] end.
Lemma island_through : runs_through island_path island_lines.
Proof. unfold runs_through, island_lines. cbn [subpaths drawn_to island_path]. repeat constructor. Qed.

Lemma fill_spills : exists b m place d before ss path tag light cs zs x y,
  from_bare b = Ok m /\ well_drawn m place /\ map_as_svg m = Ok d /\ d_shapes d = before ++ ss /\ length ss = length (g_sectors m)
  /\ nth_error ss 0 = Some (SPath path tag light cs) /\ In "secret"%string cs /\ runs_through path zs
  /\ painted zs x y /\ ~ in_sector m place 0 x y /\ in_sector m place 1 x y.
Proof.
  exists secret_map, secret, (corner secret_corners), secret_chart, (firstn 8 (d_shapes secret_chart)), (skipn 8 (d_shapes secret_chart)),
    secret_path, None, (Some 160), ["sector"; "secret"]%string, secret_lines, (96 # 1), (100 # 1).
  split; [apply secret_drawn|]. split; [apply secret_drawn|]. split; [vm_compute; reflexivity|]. split; [symmetry; apply firstn_skipn|].
  split; [reflexivity|]. split; [reflexivity|]. split; [right; left; reflexivity|]. split; [apply secret_through|].
  split; [vm_compute; discriminate|]. rewrite <- !insideb_ok. split; [vm_compute; discriminate|vm_compute; reflexivity].
Qed.
