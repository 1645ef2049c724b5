(** Before the sweep: the sides of polygons with marked points and the edges between the points. *)

From Coq Require Import List ZArith QArith Bool Arith Lia Permutation.
From Verif Require Import Base Float SpecFloat64 SpecShape SpecOrder SpecIntersect SpecHandle SpecTidy SpecContainers SpecCompute Geometry Sweep
  Contours Compute FloatFacts MapFacts ShapeFacts SweepFacts OrderFacts ContainerFacts HandleFacts TidyGeo TidyParity TidySetup TidyLine TidyPackets TidySweep TidyStart TidyFacts
  TidyShapes CrossGeo CrossPieces CrossMeet CrossCore CrossSplit CrossResolve CrossPair CrossLeft CrossStep CrossRight CrossNext CrossLoop CrossTrace SpecCross.
Import ListNotations.

(** *** Edges of marked polygons *)

Definition steps {A} (l : list A) : list (A * A) := combine l (tl l).
Definition route_edges (r : nat * list (Z * Z)) : list edge := flat_map (left_to_right (fst r)) (steps (snd r)).
Definition whole_edge (r : nat * list (Z * Z)) : list edge := left_to_right (fst r) (hd (0, 0)%Z (snd r), last (snd r) (0, 0)%Z).

Lemma sides_steps : forall (a : Z * Z) t, sides (a :: t) = steps ((a :: t) ++ [a]).
Proof.
  intros a t. unfold sides, steps. cbn [app tl]. generalize a at 1 3. intros b. revert b.
  assert (G : forall (l : list (Z * Z)) b x, combine (b :: l) (l ++ [x]) = combine (b :: l ++ [x]) (l ++ [x])).
  { induction l as [|c l IH]; intros b x; [reflexivity|]. cbn [app]. change (combine (b :: c :: l) (c :: l ++ [x])) with ((b, c) :: combine (c :: l) (l ++ [x])).
    change (combine (b :: c :: l ++ [x]) (c :: l ++ [x])) with ((b, c) :: combine (c :: l ++ [x]) (l ++ [x])). now rewrite IH. }
  intros b. apply G.
Qed.

Lemma steps_cons : forall {A} (a b : A) l, steps (a :: b :: l) = (a, b) :: steps (b :: l).
Proof. reflexivity. Qed.

Lemma steps_app : forall {A} (l : list A) x m, steps (l ++ x :: m) = steps (l ++ [x]) ++ steps (x :: m).
Proof.
  intros A. induction l as [|a l IH]; intros x m; [reflexivity|]. destruct l as [|b l]; [reflexivity|].
  cbn [app] in *. rewrite !steps_cons. cbn [app]. now rewrite IH.
Qed.

Lemma routes_marked : forall c a, flat_map steps (routes_to a c) = steps (flat_map (fun m : mark => fst m :: snd m) c ++ [a]).
Proof.
  induction c as [|[v l] c IH]; intros a; [reflexivity|]. cbn [routes_to flat_map fst snd app]. rewrite IH. destruct c as [|[v' l'] c].
  - cbn [flat_map app]. rewrite app_nil_r. unfold steps at 2. cbn. now rewrite app_nil_r.
  - cbn [flat_map fst snd app]. set (t := l' ++ flat_map (fun m : mark => fst m :: snd m) c).
    replace (v :: (l ++ v' :: t) ++ [a]) with ((v :: l) ++ v' :: t ++ [a]) by (cbn [app]; now rewrite <- app_assoc).
    rewrite (steps_app (v :: l)). reflexivity.
Qed.

Lemma routes_plain : forall c a, map (fun l => (hd (0, 0)%Z l, last l (0, 0)%Z)) (routes_to a c) = steps (map fst c ++ [a]).
Proof.
  induction c as [|[v l] c IH]; intros a; [reflexivity|]. cbn [routes_to map fst]. rewrite IH. rewrite app_comm_cons, last_last. cbn [hd].
  destruct c as [|[v' l'] c]; reflexivity.
Qed.

Lemma flat_flat : forall {A B C} (f : B -> list C) (g : A -> list B) l, flat_map f (flat_map g l) = flat_map (fun x => flat_map f (g x)) l.
Proof. intros A B C f g l. induction l as [|x l IH]; cbn; [reflexivity|]. now rewrite flat_map_app, IH. Qed.
Lemma flat_on_map : forall {A B C} (f : B -> list C) (g : A -> B) l, flat_map f (map g l) = flat_map (fun x => f (g x)) l.
Proof. intros A B C f g l. induction l as [|x l IH]; cbn; [reflexivity|]. now rewrite IH. Qed.

Lemma marked_sides : forall c, sides (flat_map (fun m : mark => fst m :: snd m) c) = flat_map steps (contour_routes c).
Proof.
  intros [|[v l] c]; [reflexivity|]. unfold contour_routes. rewrite routes_marked. cbn [flat_map fst snd]. rewrite <- app_comm_cons. now rewrite sides_steps.
Qed.
Lemma plain_sides : forall c, sides (map fst c) = map (fun l => (hd (0, 0)%Z l, last l (0, 0)%Z)) (contour_routes c).
Proof.
  intros [|[v l] c]; [reflexivity|]. unfold contour_routes. rewrite routes_plain. cbn [map fst]. now rewrite sides_steps.
Qed.

Lemma marked_edges : forall ms i, edges_from i (marked ms) = flat_map route_edges (routes_from i ms).
Proof.
  induction ms as [|z ms IH]; intros i; [reflexivity|]. cbn [marked map edges_from routes_from]. fold (marked ms). rewrite IH, flat_map_app. f_equal.
  unfold polygon_edges. rewrite flat_on_map, flat_flat, flat_on_map, flat_flat. apply flat_map_ext. intros c. rewrite marked_sides, flat_flat. reflexivity.
Qed.
Lemma plain_edges : forall ms i, edges_from i (plain ms) = flat_map whole_edge (routes_from i ms).
Proof.
  induction ms as [|z ms IH]; intros i; [reflexivity|]. cbn [plain map edges_from routes_from]. fold (plain ms). rewrite IH, flat_map_app. f_equal.
  unfold polygon_edges. rewrite flat_on_map, flat_flat, flat_on_map, flat_flat. apply flat_map_ext. intros c. rewrite plain_sides, flat_on_map. reflexivity.
Qed.

(** *** Canonical points *)

Definition exact (p : point) : Prop := exists v, within (2 ^ 24) v /\ p = int_point v.
Definition exact_seg (s : bseg) : Prop := exact (s_left s) /\ exact (s_right s).

Lemma exact_segs : forall n polys i w w', (forall p, In p polys -> forall c, In c (fst p) -> Forall exact (c_points c)) -> Forall exact_seg (w_segs w) ->
  add_polygons n i polys w = Ok w' -> Forall exact_seg (w_segs w').
Proof.
  intros n polys. induction polys as [|[p mode] polys IH]; intros i w w' H W A; cbn [add_polygons] in A.
  - injection A as <-. exact W.
  - destruct (ofold _ p w) as [w1|e|e] eqn:E; cbn [obind] in A; [|discriminate A|discriminate A]. apply (IH (S i) w1 w'); [intros q Hq; apply H; now right| |exact A].
    revert E. apply (ofold_inv _ (fun w => Forall exact_seg (w_segs w))); [exact W|]. intros c s s' Hc Hs E. specialize (H (p, mode) (or_introl eq_refl) c Hc). rewrite Forall_forall in H.
    revert E. apply (ofold_inv _ (fun w => Forall exact_seg (w_segs w))); [exact Hs|]. intros [a b] t t' Hab Ht E. unfold add_edge in E.
    destruct (point_eqb a b); [injection E as <-; exact Ht|].
    destruct (sseg_new a b (length (w_segs t)) i tt) as [x|y|y] eqn:Ex; cbn [obind] in E; [|discriminate E|discriminate E].
    destruct (heap_push endpoint_cmp (w_queue t) (x, LeftEnd)) as [q1|y|y]; cbn [obind] in E; [|discriminate E|discriminate E].
    destruct (heap_push endpoint_cmp q1 (x, RightEnd)) as [q2|y|y]; cbn [obind] in E; [|discriminate E|discriminate E]. injection E as <-. cbn [w_segs].
    apply Forall_app. split; [exact Ht|]. constructor; [|constructor]. apply sseg_new_ends in Ex. destruct Ex as (_ & _ & Ex).
    apply In_nth_error in Hab. destruct Hab as [j Hj]. apply (proj2 (segments_cycle c)) in Hj. destruct Hj as [J1 J2]. apply nth_error_In, H in J1. apply nth_error_In, H in J2.
    unfold exact_seg. destruct Ex as [[-> ->]|[-> ->]]; split; assumption.
Qed.

Lemma exact_at : forall p v, exact p -> at_z p v -> p = int_point v.
Proof. intros p v (u & Wu & ->) H. f_equal. exact (at_z_same _ _ _ (int_point_at u Wu) H). Qed.

Lemma points_corners : forall p z, has_points p z -> Forall (Forall (within (2 ^ 24))) z -> has_corners p z /\ forall c, In c p -> Forall exact (c_points c).
Proof.
  intros p z H. induction H as [|c l p z H F IH]; intros W; [split; [constructor|intros ? []]|]. inversion W as [|? ? W1 W2]; subst. destruct (IH W2) as [I1 I2].
  assert (G : Forall2 at_z (c_points c) l /\ Forall exact (c_points c)).
  { rewrite H. clear - W1. induction W1 as [|v l Hv W1 IH]; cbn [map]; [split; constructor|]. destruct IH. split; constructor; auto; [now apply int_point_at|exists v; auto]. }
  split; [constructor; [apply G|exact I1]|]. intros d [<-|Hd]; [apply G|now apply I2].
Qed.
