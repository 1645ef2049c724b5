(** Samples for how contours follow the sides that are kept, and for polygons written down
    in another way. *)

From Coq Require Import List ZArith QArith Bool Lia Permutation.
From Verif Require Import Base Float Geometry Sweep Contours Compute StdRef SpecShape SpecOrder SpecIntersect SpecTurn SpecTidy SpecOverlay SpecFollow
  ShapeSamples TidySamples OverlaySamples.
Import ListNotations.
Local Open Scope Z_scope.

(** *** A check *)
Definition edge_eqb (e f : edge) : bool := (e_poly e =? e_poly f)%nat && z_eqb (e_left e) (e_left f) && z_eqb (e_right e) (e_right f).
Fixpoint takeb (e : edge) (l : list edge) : option (list edge) :=
  match l with
  | [] => None
  | f :: l' => if edge_eqb e f then Some l' else option_map (cons f) (takeb e l')
  end.
Fixpoint permb (l m : list edge) : bool :=
  match l with
  | [] => match m with [] => true | _ => false end
  | e :: l' => match takeb e m with Some m' => permb l' m' | None => false end
  end.
Lemma edge_eqb_ok : forall e f, edge_eqb e f = true -> e = f.
Proof.
  intros [i a b] [j c d] H. unfold edge_eqb in H. cbn [e_poly e_left e_right] in H. rewrite !andb_true_iff, Nat.eqb_eq in H. destruct H as ((-> & H1) & H2).
  apply z_eqb_eq in H1, H2. now subst.
Qed.
Lemma takeb_ok : forall e l m, takeb e l = Some m -> Permutation l (e :: m).
Proof.
  intros e l. induction l as [|f l IH]; intros m H; [discriminate|]. cbn [takeb] in H. destruct (edge_eqb e f) eqn:E.
  - apply edge_eqb_ok in E. injection H as <-. now subst.
  - destruct (takeb e l) as [k|]; [|discriminate]. injection H as <-. rewrite (IH k eq_refl). apply perm_swap.
Qed.
Lemma permb_ok : forall l m, permb l m = true -> Permutation l m.
Proof.
  induction l as [|e l IH]; intros m H; cbn [permb] in H; [destruct m; [constructor|discriminate]|].
  destruct (takeb e m) as [k|] eqn:E; [|discriminate]. apply takeb_ok in E. rewrite E. constructor. now apply IH.
Qed.

(** *** Samples *)

(** The square with holes and the rectangle beside it, in the other order. The rectangle goes
    round the other way, the first two holes are one contour, and the other contours are
    written in another order. *)
Definition turned_z : list corners :=
  [[[(24, 24); (28, 24); (28, 0); (24, 0)]];
   [[(16, 12); (20, 8); (16, 4); (12, 8); (8, 4); (4, 8); (8, 12); (12, 8)]; dia_z 8 18 2; [(8, 10); (6, 8); (8, 6); (10, 8)]; rect_z 0 0 24 24]].
Definition turned : input := map (fun z => (map (set_points contour_new) (z_points z), Normal)) turned_z.
Definition swapped (i : nat) : nat := (1 - i)%nat.

Lemma turned_corners : Forall2 (fun p z => has_corners (fst p) z) turned turned_z.
Proof. repeat constructor; apply pt_at; reflexivity. Qed.
Lemma turned_overlayable : overlayable turned turned_z.
Proof.
  split; [exact turned_corners|]. split; [apply tidyb_ok; vm_compute; reflexivity|]. split; [apply (compactb_ok 100); reflexivity|].
  apply plain_covered. cbn. intros [H|[H|[]]]; discriminate.
Qed.
Lemma turned_same : same_polygons swapped islands_z turned_z.
Proof.
  split; [reflexivity|]. split; [|split].
  - intros i Hi. change (length islands_z) with 2%nat in *. unfold swapped. lia.
  - intros i j Hi Hj. change (length islands_z) with 2%nat in *. unfold swapped. lia.
  - apply permb_ok. vm_compute. reflexivity.
Qed.
Lemma turned_result : compute std_ref 56 turned Union = Ok (sample_contours turned 56) /\ has_corners (sample_contours turned 56) islands_lines.
Proof. split; [vm_compute; reflexivity|]. apply z_points_at; [vm_compute; reflexivity|reflexivity]. Qed.

(** A rectangle with two holes side by side. *)
Definition holed : input := [([rct 0 0 20 10; rct 2 2 3 3; rct 10 2 3 3], Normal)].
Lemma turned_modes : forall i, (i < length islands)%nat -> nth_error (map snd turned) (swapped i) = nth_error (map snd islands) i.
Proof. intros [|[|i]] H; [reflexivity|reflexivity|]. cbn in H. lia. Qed.
