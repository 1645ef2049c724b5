(** What [compute] does not do. *)

From Coq Require Import List ZArith Bool Arith Lia SpecFloat.
From Verif Require Import Base BaseFacts Float Geometry Sweep Contours Compute StdRef StdFacts SpecShape SpecCompute ShapeSamples ShapeFacts FuelFacts ComputeFacts SortFacts.
Import ListNotations.
Local Open Scope Z_scope.

Lemma descends_apart : forall polys i p q, descends polys i p q -> point_eqb p q = false.
Proof. intros polys i p q H. induction H; auto. rewrite point_eqb_sym. auto. Qed.

Lemma eq_finite : forall s m e x, f64_eq (S754_finite s m e) x = true -> x = S754_finite s m e.
Proof.
  intros s m e x H. unfold f64_eq, SFeqb in H. destruct x as [b|b| |s' m' e'].
  - cbn in H. destruct s, b; discriminate.
  - cbn in H. destruct s, b; discriminate.
  - discriminate.
  - cbn in H. destruct s, s'; try discriminate.
    + destruct (Z.compare_spec e e'); try discriminate. destruct (Pos.compare_cont Eq m m') eqn:E; try discriminate.
      apply Pos.compare_eq in E. congruence.
    + destruct (Z.compare_spec e e'); try discriminate. destruct (Pos.compare_cont Eq m m') eqn:E; try discriminate.
      apply Pos.compare_eq in E. congruence.
Qed.

Lemma spot_pt23 : forall a, same_spot (pt 2 3) a -> a = pt 2 3.
Proof.
  intros [x y] [<-|H]; auto. unfold point_eqb in H. apply andb_prop in H. destruct H as [Hx Hy]. cbn [px py] in *.
  unfold pt. f_equal; (apply eq_finite in Hx; apply eq_finite in Hy; assumption).
Qed.

Lemma bad_edge : exists fuel polys r c a b, (forall std op, std_laws std -> sorts std -> compute std fuel polys op = Ok r) /\ In c r
  /\ contour_edge (c_points c) 0 a b /\ ~ near_piece polys a b.
Proof.
  exists 1000%nat, [([rct 2 2 2 1], RemoveEdges); ([rct 1 3 5 6], RemoveInterior)].
  destruct (compute std_ref 1000 [([rct 2 2 2 1], RemoveEdges); ([rct 1 3 5 6], RemoveInterior)] Union) as [r|e|p] eqn:E.
  2, 3: vm_compute in E; discriminate.
  assert (S : exists c, r = [c] /\ c_points c = [pt 2 3]).
  { vm_compute in E. inversion E. eexists. split; [reflexivity|]. vm_compute. reflexivity. }
  destruct S as (c & -> & Hc). exists [c], c, (pt 2 3), (pt 2 3).
  split; [intros std op L S; rewrite (compute_ref std) by first [assumption|vm_compute; reflexivity]; rewrite (operation_ignored std_ref _ _ op Union); exact E|]. split; [left; auto|]. split; [rewrite Hc; split; reflexivity|].
  intros (a & b & (i & m & D & _) & Sa & Sb). apply spot_pt23 in Sa, Sb. subst. apply descends_apart in D. vm_compute in D. discriminate.
Qed.

Lemma wrong_source : exists fuel polys r c i poly p,
  (forall q m, In (q, m) polys -> m = Normal) /\ (forall std op, std_laws std -> sorts std -> compute std fuel polys op = Ok r) /\ In c r
  /\ nth_error polys i = Some (poly, Normal) /\ nth_error (c_from c) i = Some true /\ In p (c_points c)
  /\ forall c' q, In c' poly -> In q (c_points c') -> f64_lt (px q) (px p) = true.
Proof.
  exists 1000%nat, [([tri 2 0 0 0 0 2], Normal); ([tri 3 1 2 3 1 1], Normal)].
  destruct (compute std_ref 1000 [([tri 2 0 0 0 0 2], Normal); ([tri 3 1 2 3 1 1], Normal)] Union) as [r|e|p] eqn:E.
  2, 3: vm_compute in E; discriminate.
  assert (S : exists c, nth_error r 1 = Some c /\ c_points c = [pt 1 1; pt 3 1; pt 2 3] /\ c_from c = [true; true]).
  { vm_compute in E. inversion E. eexists. split; [reflexivity|]. split; vm_compute; reflexivity. }
  destruct S as (c & Hc & Hp & Hf). exists r, c, 0%nat, [tri 2 0 0 0 0 2], (pt 3 1).
  split; [intros q m [H|[H|[]]]; congruence|].
  split; [intros std op L S; rewrite (compute_ref std) by first [assumption|vm_compute; reflexivity]; rewrite (operation_ignored std_ref _ _ op Union); exact E|]. split; [eapply nth_error_In; eauto|].
  split; [reflexivity|]. split; [rewrite Hf; reflexivity|]. split; [rewrite Hp; cbn; auto|].
  intros c' q [<-|[]] Hq. cbn in Hq. destruct Hq as [<-|[<-|[<-|[]]]]; vm_compute; reflexivity.
Qed.

Lemma triangles_panic : exists a b n, int_triangle a /\ int_triangle b
  /\ forall std fuel op, std_laws std -> sorts std -> (n <= fuel)%nat -> compute std fuel [([a], Normal); ([b], Normal)] op = Panic PAssert.
Proof.
  exists (tri 2 0 0 0 1 2), (tri 3 1 1 3 1 0), 1000%nat.
  split; [exists 2, 0, 0, 0, 1, 2, (pt 2 0), (pt 0 0), (pt 1 2); split; [reflexivity|]; split; [apply pt_at; lia|]; split; [apply pt_at; lia|]; split; [apply pt_at; lia|lia]|].
  split; [exists 3, 1, 1, 3, 1, 0, (pt 3 1), (pt 1 3), (pt 1 0); split; [reflexivity|]; split; [apply pt_at; lia|]; split; [apply pt_at; lia|]; split; [apply pt_at; lia|lia]|].
  intros std fuel op HL HS L. apply (compute_more std 1000 fuel); [|discriminate|exact L].
  rewrite (compute_ref std) by first [assumption|vm_compute; reflexivity].
  rewrite (operation_ignored std_ref _ _ op Union).
  vm_compute. reflexivity.
Qed.

Lemma new_coordinate : exists fuel a b r c p, int_rectangle a /\ int_rectangle b
  /\ (forall std op, std_laws std -> sorts std -> compute std fuel [([a], Normal); ([b], Normal)] op = Ok r) /\ In c r /\ In p (c_points c)
  /\ forall q, In q (c_points a) \/ In q (c_points b) -> f64_eq (py q) (py p) = false.
Proof.
  exists 1000%nat, (rct 0 0 10 49), (rct (-5) 1 30 10).
  destruct (compute std_ref 1000 [([rct 0 0 10 49], Normal); ([rct (-5) 1 30 10], Normal)] Union) as [r|e|p] eqn:E.
  2, 3: vm_compute in E; discriminate.
  set (bad p := forallb (fun q => negb (f64_eq (py q) (py p))) (c_points (rct 0 0 10 49) ++ c_points (rct (-5) 1 30 10))).
  assert (S : exists c p, In c r /\ In p (c_points c) /\ bad p = true).
  { assert (B : existsb (fun c => existsb bad (c_points c)) r = true) by (vm_compute in E; inversion E; vm_compute; reflexivity).
    apply existsb_exists in B. destruct B as (c & Hc & B). apply existsb_exists in B. destruct B as (p & Hp & B). eauto. }
  destruct S as (c & p & Hc & Hp & B). exists r, c, p.
  split; [exists 0, 10, 0, 49, (pt 0 0), (pt 10 0), (pt 10 49), (pt 0 49); split; [reflexivity|]; split; [lia|]; split; [lia|]; repeat apply conj; apply pt_at; lia|].
  split; [exists (-5), 25, 1, 11, (pt (-5) 1), (pt 25 1), (pt 25 11), (pt (-5) 11); split; [reflexivity|]; split; [lia|]; split; [lia|]; repeat apply conj; apply pt_at; lia|].
  split; [intros std op L S; rewrite (compute_ref std) by first [assumption|vm_compute; reflexivity]; rewrite (operation_ignored std_ref _ _ op Union); exact E|].
  split; [exact Hc|]. split; [exact Hp|]. intros q Hq. apply in_or_app in Hq. unfold bad in B. rewrite forallb_forall in B.
  apply negb_true_iff, B, Hq.
Qed.

Lemma apart_intersect : exists a b n r, int_rectangle a /\ int_rectangle b
  /\ (forall p q, In p (c_points a) -> In q (c_points b) -> f64_lt (px p) (px q) = true)
  /\ (forall std fuel, std_laws std -> sorts std -> (n <= fuel)%nat -> compute std fuel [([a], Normal); ([b], Normal)] Intersection = Ok r)
  /\ r <> [].
Proof.
  exists (rct 0 0 10 10), (rct 20 20 10 10), 1000%nat.
  destruct (compute std_ref 1000 [([rct 0 0 10 10], Normal); ([rct 20 20 10 10], Normal)] Intersection) as [r|e|p] eqn:E.
  2, 3: vm_compute in E; discriminate.
  exists r.
  split; [exists 0, 10, 0, 10, (pt 0 0), (pt 10 0), (pt 10 10), (pt 0 10); split; [reflexivity|]; split; [lia|]; split; [lia|]; repeat apply conj; apply pt_at; lia|].
  split; [exists 20, 30, 20, 30, (pt 20 20), (pt 30 20), (pt 30 30), (pt 20 30); split; [reflexivity|]; split; [lia|]; split; [lia|]; repeat apply conj; apply pt_at; lia|].
  split.
  - assert (B : forallb (fun p => forallb (fun q => f64_lt (px p) (px q)) (c_points (rct 20 20 10 10))) (c_points (rct 0 0 10 10)) = true)
      by (vm_compute; reflexivity).
    intros p q Hp Hq. rewrite forallb_forall in B. specialize (B p Hp). rewrite forallb_forall in B. exact (B q Hq).
  - split.
    + intros std fuel HL HS L. apply (compute_more std 1000 fuel); [|discriminate|exact L].
      rewrite (compute_ref std) by first [assumption|vm_compute; reflexivity]. exact E.
    + vm_compute in E. inversion E. discriminate.
Qed.
