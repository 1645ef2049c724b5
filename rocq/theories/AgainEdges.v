(** The edges of polygons that are put together from given lines. *)

From Coq Require Import List ZArith QArith Bool Lia Arith Permutation.
From Verif Require Import Base Float Sweep Contours Compute SpecShape SpecOrder SpecIntersect SpecTidy SpecOverlay OrderFacts TidyGeo TidyParity TidySetup TidyWinding TidyShapes
  TidyRegions TidyBorders TidyStart NestGeo NestPlace.
Import ListNotations.
Local Open Scope Z_scope.

Lemma poly_parity : forall zs i P, parity (fun e => of_poly i e && P e) (edges zs) = match nth_error zs i with Some z => parity P (polygon_edges i z) | None => false end.
Proof.
  intros zs i P. unfold edges.
  assert (G : forall zs n, parity (fun e => of_poly i e && P e) (edges_from n zs)
    = if (n <=? i)%nat then match nth_error zs (i - n) with Some l => parity P (polygon_edges i l) | None => false end else false).
  { clear zs. induction zs as [|l z IH]; intros n; [destruct (i - n)%nat, (n <=? i)%nat; reflexivity|]. cbn [edges_from]. rewrite parity_app, IH.
    destruct (Nat.lt_trichotomy n i) as [L|[->|L]].
    - rewrite (parity_false _ (polygon_edges n l)).
      + replace (S n <=? i)%nat with true by (symmetry; apply Nat.leb_le; lia). replace (n <=? i)%nat with true by (symmetry; apply Nat.leb_le; lia).
        replace (i - n)%nat with (S (i - S n)) by lia. rewrite xorb_false_l. reflexivity.
      + intros e He. apply polygon_edges_poly in He. destruct He as (Q & _). unfold of_poly. rewrite Q. replace (n =? i)%nat with false by (symmetry; apply Nat.eqb_neq; lia). reflexivity.
    - rewrite Nat.leb_refl, Nat.sub_diag. replace (S i <=? i)%nat with false by (symmetry; apply Nat.leb_gt; lia). cbn [nth_error]. rewrite xorb_false_r. apply parity_ext.
      intros e He. apply polygon_edges_poly in He. destruct He as (Q & _). unfold of_poly. rewrite Q, Nat.eqb_refl. reflexivity.
    - rewrite (parity_false _ (polygon_edges n l)).
      + replace (S n <=? i)%nat with false by (symmetry; apply Nat.leb_gt; lia). replace (n <=? i)%nat with false by (symmetry; apply Nat.leb_gt; lia). reflexivity.
      + intros e He. apply polygon_edges_poly in He. destruct He as (Q & _). unfold of_poly. rewrite Q. replace (n =? i)%nat with false by (symmetry; apply Nat.eqb_neq; lia). reflexivity. }
  rewrite G, Nat.sub_0_r. reflexivity.
Qed.

Lemma odd_lines : forall i x y z, Z.odd (windings x y z) = parity (fun e => passes_below e x y) (polygon_edges i z).
Proof.
  intros i x y z. induction z as [|l z IH]; [reflexivity|]. rewrite windings_cons, Z.odd_add, IH, (odd_winding i).
  unfold polygon_edges. cbn [flat_map]. rewrite app_nil_r, flat_map_app, parity_app. reflexivity.
Qed.

Lemma below_odd : forall zs k z x y, nth_error zs k = Some z -> inner_below zs k x y <-> Z.odd (windings x y z) = true.
Proof.
  intros zs k z x y H. unfold inner_below, crossings. rewrite parity_odd. change (fun e => (e_poly e =? k)%nat && passes_below e x y) with (fun e => of_poly k e && passes_below e x y).
  rewrite poly_parity, H, <- odd_lines. reflexivity.
Qed.

(** The sides of all lines, each with the number of its polygon. *)
Fixpoint placed (j : nat) (zs : list corners) : list (nat * ((Z * Z) * (Z * Z))) :=
  match zs with
  | [] => []
  | z :: t => map (pair j) (flat_map sides z) ++ placed (S j) t
  end.

Lemma edges_placed : forall zs j, edges_from j zs = flat_map (fun p => left_to_right (fst p) (snd p)) (placed j zs).
Proof.
  induction zs as [|z zs IH]; intros j; [reflexivity|]. cbn [edges_from placed]. rewrite flat_map_app, IH. f_equal. unfold polygon_edges.
  induction (flat_map sides z) as [|s l IHl]; [reflexivity|]. cbn [map flat_map fst snd]. now rewrite IHl.
Qed.
Lemma placed_sides : forall zs j, map snd (placed j zs) = flat_map sides (concat zs).
Proof.
  induction zs as [|z zs IH]; intros j; [reflexivity|]. cbn [placed concat]. rewrite map_app, IH, flat_map_app, map_map. f_equal. cbn [snd]. apply map_id.
Qed.
Lemma placed_in : forall zs j k s, In (k, s) (placed j zs) <-> exists z, (j <= k)%nat /\ nth_error zs (k - j) = Some z /\ In s (flat_map sides z).
Proof.
  induction zs as [|z zs IH]; intros j k s.
  - split; [intros []|]. intros (z & _ & H & _). destruct (k - j)%nat; discriminate.
  - cbn [placed]. rewrite in_app_iff, IH, in_map_iff. split.
    + intros [(t & Q & H)|(z' & L & H & H')].
      * injection Q as <- <-. exists z. rewrite Nat.sub_diag. auto.
      * exists z'. split; [lia|]. replace (k - j)%nat with (S (k - S j)) by lia. auto.
    + intros (z' & L & H & H'). destruct (Nat.eq_dec k j) as [->|N].
      * left. rewrite Nat.sub_diag in H. injection H as <-. exists s. auto.
      * right. exists z'. split; [lia|]. replace (k - j)%nat with (S (k - S j)) in H by lia. auto.
Qed.
Lemma placed_at : forall zs k s, In (k, s) (placed 0 zs) <-> exists z, nth_error zs k = Some z /\ In s (flat_map sides z).
Proof. intros zs k s. rewrite placed_in, Nat.sub_0_r. split; [intros (z & _ & H); eauto|intros (z & H); exists z; split; [lia|exact H]]. Qed.

(** If no side is without length, each gives one edge. *)
Definition edge_of (p : nat * ((Z * Z) * (Z * Z))) : edge :=
  match lex_z (fst (snd p)) (snd (snd p)) with
  | Gt => mk_edge (fst p) (snd (snd p)) (fst (snd p))
  | _ => mk_edge (fst p) (fst (snd p)) (snd (snd p))
  end.
Lemma edges_map : forall zs, (forall s, In s (flat_map sides (concat zs)) -> fst s <> snd s) -> edges zs = map edge_of (placed 0 zs).
Proof.
  intros zs H. unfold edges. rewrite edges_placed. rewrite <- (placed_sides zs 0) in H.
  induction (placed 0 zs) as [|p L IH]; [reflexivity|]. cbn [flat_map map]. rewrite IH by (intros s Hs; apply H; now right). 
  assert (N : fst (snd p) <> snd (snd p)) by (apply H; now left). unfold left_to_right, edge_of. destruct (lex_z _ _) eqn:E; [apply lex_eq in E; contradiction|reflexivity..].
Qed.

Lemma pairs_nodup : forall A B (g : A -> B) (R : B -> B -> Prop) L, NoDup L -> (forall a b, In a L -> In b L -> a <> b -> R (g a) (g b)) -> ForallOrdPairs R (map g L).
Proof.
  intros A B g R L N. induction N as [|a L Ha N IH]; intros H; [constructor|]. cbn [map]. constructor.
  - apply Forall_forall. intros b Hb. apply in_map_iff in Hb. destruct Hb as (x & <- & Hx). apply H; [now left|now right|]. intros ->. contradiction.
  - apply IH. intros x y Hx Hy. apply H; now right.
Qed.

Lemma edge_of_ends : forall p, (e_left (edge_of p) = fst (snd p) /\ e_right (edge_of p) = snd (snd p)) \/ (e_left (edge_of p) = snd (snd p) /\ e_right (edge_of p) = fst (snd p)).
Proof. intros p. unfold edge_of. destruct (lex_z _ _); cbn; tauto. Qed.
Lemma edge_of_poly : forall p, e_poly (edge_of p) = fst p.
Proof. intros p. unfold edge_of. destruct (lex_z _ _); reflexivity. Qed.
