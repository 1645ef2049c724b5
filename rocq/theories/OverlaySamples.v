(** Samples for overlaying tidy polygons. *)

From Coq Require Import List ZArith QArith Bool Lia.
From Verif Require Import Base Float Geometry Sweep Contours Compute StdRef SpecShape SpecOrder SpecIntersect SpecTurn SpecTidy SpecOverlay ShapeSamples TidySamples.
Import ListNotations.
Local Open Scope Z_scope.

(** *** A check *)
Definition shortb (v : Z * Z) : bool :=
  (Z.abs (fst v) <=? 4000) && (Z.abs (snd v) <=? 4000) && negb ((fst v =? 0) && (snd v =? 0)).
Definition withinm (m : Z) (v : Z * Z) : bool := (Z.abs (fst v) <=? m) && (Z.abs (snd v) <=? m).
Definition compactb (m : Z) (zs : list corners) : bool :=
  forallb (fun e => shortb (vsub (e_right e) (e_left e))) (edges zs)
  && forallb (forallb (forallb (withinm m))) zs && (Z.of_nat (length (edges zs)) * (2 * (m * m)) <? 2 ^ 53).

Lemma shortb_ok : forall v, shortb v = true -> short v.
Proof.
  intros [a b] H. unfold shortb in H. rewrite !andb_true_iff, !Z.leb_le, negb_true_iff, andb_false_iff, !Z.eqb_neq in H. cbn [fst snd] in H.
  split; [split; apply H|]. intros Q. injection Q as Q1 Q2. destruct H as (_ & [H|H]); contradiction.
Qed.
Lemma forallb_all : forall A (f : A -> bool) (P : A -> Prop) l, (forall a, f a = true -> P a) -> forallb f l = true -> Forall P l.
Proof. intros A f P l H F. apply Forall_forall. intros a Ha. apply H. rewrite forallb_forall in F. now apply F. Qed.
Lemma compactb_ok : forall m zs, compactb m zs = true -> compact zs.
Proof.
  intros m zs H. unfold compactb in H. rewrite !andb_true_iff in H. destruct H as ((H1 & H2) & H3). split.
  - intros e He. rewrite forallb_forall in H1. now apply shortb_ok, H1.
  - exists m. split; [|now apply Z.ltb_lt]. revert H2. apply forallb_all. intros z. apply forallb_all. intros l. apply forallb_all. intros v Hv.
    unfold withinm in Hv. rewrite andb_true_iff, !Z.leb_le in Hv. exact Hv.
Qed.

(** *** Samples *)
Lemma neighbours_compact : overlayable neighbours neighbours_z.
Proof.
  split; [exact neighbours_corners|]. split; [exact neighbours_tidy|]. split; [apply (compactb_ok 100); reflexivity|].
  apply plain_covered. cbn. intros [H|[H|[H|[]]]]; discriminate.
Qed.

Definition dia_z (x y k : Z) : list (Z * Z) := [(x - k, y); (x, y - k); (x + k, y); (x, y + k)].
Definition dia (x y k : Z) : contour := set_points contour_new (map (fun v => pt (fst v) (snd v)) (dia_z x y k)).

(** A square with three holes, of which the first two touch in a corner and the third is
    above them, an island in the first hole, and a rectangle beside the square. *)
Definition islands : input :=
  [([rct 0 0 24 24; dia 8 8 4; dia 16 8 4; dia 8 8 2; dia 8 18 2], Normal); ([rct 24 0 4 24], Normal)].
Definition islands_z : list corners :=
  [[rect_z 0 0 24 24; dia_z 8 8 4; dia_z 16 8 4; dia_z 8 8 2; dia_z 8 18 2]; [rect_z 24 0 4 24]].

Lemma islands_tidy : tidy islands_z.
Proof. apply tidyb_ok. vm_compute. reflexivity. Qed.
Lemma islands_corners : Forall2 (fun p z => has_corners (fst p) z) islands islands_z.
Proof. repeat constructor; apply pt_at; reflexivity. Qed.
Lemma islands_compact : overlayable islands islands_z.
Proof.
  split; [exact islands_corners|]. split; [exact islands_tidy|]. split; [apply (compactb_ok 100); reflexivity|].
  apply plain_covered. cbn. intros [H|[H|[]]]; discriminate.
Qed.

(** The lines of the contours. *)
Definition islands_lines : corners :=
  [[(0, 0); (24, 0); (24, 24); (0, 24)];
   [(4, 8); (8, 12); (12, 8); (16, 12); (20, 8); (16, 4); (12, 8); (8, 4)];
   [(6, 8); (8, 6); (10, 8); (8, 10)];
   [(6, 18); (8, 20); (10, 18); (8, 16)];
   [(24, 0); (28, 0); (28, 24); (24, 24)]].

Definition z_points (ls : corners) : list (list point) := map (map (fun v => pt (fst v) (snd v))) ls.
Definition near (v : Z * Z) : bool := (Z.abs (fst v) <=? 2 ^ 24) && (Z.abs (snd v) <=? 2 ^ 24).
Lemma z_points_at : forall (r : polygon) ls, map c_points r = z_points ls -> forallb (forallb near) ls = true -> has_corners r ls.
Proof.
  unfold has_corners, z_points. intros r. induction r as [|c r IH]; intros [|l ls] Q F; try discriminate; constructor.
  - injection Q as Q _. rewrite Q. cbn [forallb] in F. apply andb_true_iff in F. destruct F as (F & _). clear - F.
    induction l as [|[a b] l IH]; [constructor|]. cbn [forallb map] in *. apply andb_true_iff in F. destruct F as (F1 & F2). constructor; [|now apply IH].
    apply pt_at; unfold near in F1; rewrite andb_true_iff, !Z.leb_le in F1; cbn [fst snd] in F1; lia.
  - injection Q as _ Q. cbn [forallb] in F. apply andb_true_iff in F. now apply IH.
Qed.

Definition sample_contours (polys : input) (fuel : nat) : polygon :=
  match compute std_ref fuel polys Union with Ok r => r | _ => [] end.

(** Holes, what each contour is made of, and whether it is an outer one. *)
Definition contours_shown (r : polygon) : list (list nat * list bool * bool) := map (fun c => (c_holes c, c_from c, c_external c)) r.

Lemma islands_result : compute std_ref 56 islands Union = Ok (sample_contours islands 56)
  /\ has_corners (sample_contours islands 56) islands_lines.
Proof.
  split; [vm_compute; reflexivity|]. apply z_points_at; [vm_compute; reflexivity|reflexivity].
Qed.

(** *** Polygons whose edges are removed *)
Definition z_eqb (a b : Z * Z) : bool := (fst a =? fst b) && (snd a =? snd b).
Lemma z_eqb_eq : forall a b, z_eqb a b = true -> a = b.
Proof. intros [a b] [c d] H. unfold z_eqb in H. cbn [fst snd] in H. rewrite andb_true_iff, !Z.eqb_eq in H. destruct H as (-> & ->). reflexivity. Qed.
Definition coveredb (modes : list polygon_mode) (zs : list corners) : bool :=
  forallb (fun e => match nth_error modes (e_poly e) with
                    | Some RemoveEdges =>
                        existsb (fun f => z_eqb (e_left f) (e_left e) && z_eqb (e_right f) (e_right e) && (e_poly e <? e_poly f)%nat) (edges zs)
                    | _ => true
                    end) (edges zs).
Lemma coveredb_ok : forall modes zs, coveredb modes zs = true -> covered modes zs.
Proof.
  intros modes zs H e He Q. unfold coveredb in H. rewrite forallb_forall in H. specialize (H e He). rewrite Q in H.
  apply existsb_exists in H. destruct H as (f & F1 & F2). rewrite !andb_true_iff, Nat.ltb_lt in F2. destruct F2 as ((F2 & F3) & F4).
  apply z_eqb_eq in F2, F3. exists (e_poly f). split; [exists f; auto|exact F4].
Qed.

(** A square whose edges are removed, under one with a hole that has the same edges. *)
Definition lined : input := [([rct 0 0 8 8], RemoveEdges); ([rct 0 0 8 8; dia 4 4 2], Normal)].
Definition lined_z : list corners := [[rect_z 0 0 8 8]; [rect_z 0 0 8 8; dia_z 4 4 2]].
Lemma lined_corners : Forall2 (fun p z => has_corners (fst p) z) lined lined_z.
Proof. repeat constructor; apply pt_at; reflexivity. Qed.
Lemma lined_overlayable : overlayable lined lined_z.
Proof.
  split; [exact lined_corners|]. split; [apply tidyb_ok; vm_compute; reflexivity|]. split; [apply (compactb_ok 100); reflexivity|].
  apply coveredb_ok. vm_compute. reflexivity.
Qed.
