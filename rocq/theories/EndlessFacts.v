(** Proofs about an overlay that never ends (C123). *)

From Coq Require Import List ZArith Bool Arith Lia Sorting.Permutation.
From Verif Require Import Base Float Geometry Sweep Contours Compute SpecContainers SpecCompute SpecShape SpecTidy ContainerFacts ShapeSamples TidyFacts.
Import ListNotations.

(** Four triangles with corners among the integers from -2 to 3. *)
Definition z_point (x y : Z) : point := mk_point (f64_of_Z x) (f64_of_Z y).
Definition corners_of (l : list (Z * Z)) : polygon := [set_points contour_new (map (fun p => z_point (fst p) (snd p)) l)].
Definition tangle_z : list (list (Z * Z)) :=
  [[(0, 0); (2, 0); (0, 1)]; [(1, 1); (1, -1); (0, 0)]; [(1, -1); (1, 3); (-2, 1)]; [(-2, 3); (2, -1); (-1, -1)]]%Z.
Definition tangle : input := map (fun t => (corners_of t, Normal)) tangle_z.

(** The state after [k] events. *)
Fixpoint after (k : nat) (w : sweep) : outcome sweep :=
  match k with
  | O => Ok w
  | S k' =>
      let* next := heap_pop endpoint_cmp (w_queue w) in
      match next with
      | None => Panic PUnwrap
      | Some (s, e, q) =>
          let w := mk_sweep (w_segs w) (w_packets w) q (w_active w) (w_swept w) in
          let* w := match e with RightEnd => sweep_right 4 w s | LeftEnd => sweep_left 4 w s end in
          after k' w
      end
  end.
Definition begun : sweep := Eval vm_compute in match add_polygons 4 0 tangle (mk_sweep [] [] [] [] []) with Ok w => w | _ => mk_sweep [] [] [] [] [] end.
Definition stuck : sweep := Eval vm_compute in match after 52 begun with Ok w => w | _ => mk_sweep [] [] [] [] [] end.

(** The pieces that keep coming back: from (1, -1) to (1, 1/2), and from there to a point next to
    (1, 0). *)
Definition cV : point := Eval vm_compute in z_point 1 (-1).
Definition cQ : point := Eval vm_compute in match w_queue stuck with (s, _) :: _ => s_right s | _ => cV end.
Definition cP : point := Eval vm_compute in match w_active stuck with _ :: s :: _ => s_left s | _ => cV end.
Definition aX (i : nat) : bseg := mk_sseg cV cQ false i 1 tt.
Definition aY (o : bool) (i : nat) : bseg := mk_sseg cP cV o i 1 tt.
Definition aZ (i : nat) : bseg := mk_sseg cP cQ false i 1 tt.

(** *** The queue *)
Definition canon (e : bend) : bend := (mk_sseg (s_left (fst e)) (s_right (fst e)) false 0 (s_order (fst e)) tt, snd e).
Definition soon : list bend := map canon [(aZ 0, LeftEnd); (aY false 0, RightEnd); (aX 0, LeftEnd)].
Definition late : list bend := Eval vm_compute in map canon ((aX 0, RightEnd) :: (aZ 0, RightEnd) :: tl (w_queue stuck)).
Definition known (e : bend) : Prop := In (canon e) (soon ++ late).
Definition far (e : bend) : Prop := In (canon e) late.
Definition cc (a b : bend) : comparison := match endpoint_cmp a b with Ok r => r | _ => Eq end.

Lemma cmp_canon : forall a b, endpoint_cmp a b = endpoint_cmp (canon a) (canon b).
Proof. intros [a []] [b []]; reflexivity. Qed.
Lemma cc_canon : forall a b, cc a b = cc (canon a) (canon b).
Proof. intros a b. unfold cc. now rewrite <- cmp_canon. Qed.

Definition is_ok (o : outcome comparison) : bool := match o with Ok _ => true | _ => false end.
Definition c_eqb (a b : comparison) : bool := match a, b with Lt, Lt | Eq, Eq | Gt, Gt => true | _, _ => false end.
Lemma c_eqb_eq : forall a b, c_eqb a b = true -> a = b.
Proof. intros [] []; easy. Qed.
Lemma all2 : forall (f : bend -> bend -> bool) (l m : list bend), forallb (fun a => forallb (f a) m) l = true -> forall a b, In a l -> In b m -> f a b = true.
Proof. intros f l m H a b Ha Hb. rewrite forallb_forall in H. specialize (H a Ha). rewrite forallb_forall in H. auto. Qed.

Lemma known_ok : forall a b, known a -> known b -> endpoint_cmp a b = Ok (cc a b).
Proof.
  assert (H : forallb (fun a => forallb (fun b => is_ok (endpoint_cmp a b)) (soon ++ late)) (soon ++ late) = true) by (vm_compute; reflexivity).
  intros a b Ha Hb. pose proof (all2 _ _ _ H _ _ Ha Hb) as X. cbv beta in X. rewrite <- cmp_canon in X. unfold cc. destruct (endpoint_cmp a b); easy.
Qed.
Lemma known_anti : forall a b, known a -> known b -> cc b a = CompOpp (cc a b).
Proof.
  assert (H : forallb (fun a => forallb (fun b => c_eqb (cc b a) (CompOpp (cc a b))) (soon ++ late)) (soon ++ late) = true) by (vm_compute; reflexivity).
  intros a b Ha Hb. pose proof (all2 _ _ _ H _ _ Ha Hb) as X. cbv beta in X. rewrite <- !cc_canon in X. now apply c_eqb_eq.
Qed.
Lemma known_trans : forall a b d, known a -> known b -> known d -> cc a b <> Gt -> cc b d <> Gt -> cc a d <> Gt.
Proof.
  assert (H : forallb (fun a => forallb (fun b => forallb (fun d => c_eqb (cc a b) Gt || c_eqb (cc b d) Gt || negb (c_eqb (cc a d) Gt)) (soon ++ late)) (soon ++ late)) (soon ++ late) = true) by (vm_compute; reflexivity).
  intros a b d Ha Hb Hd. pose proof (all2 _ _ _ H _ _ Ha Hb) as X. cbv beta in X. rewrite forallb_forall in X. specialize (X _ Hd). rewrite <- !cc_canon in X.
  destruct (cc a b), (cc b d), (cc a d); cbn in X; congruence.
Qed.
Lemma far_known : forall e, far e -> known e.
Proof. intros e H. apply in_or_app. now right. Qed.

Lemma soon_late : forall a b, In (canon a) soon -> far b -> cc a b = Lt.
Proof.
  assert (H : forallb (fun a => forallb (fun b => c_eqb (cc a b) Lt) late) soon = true) by (vm_compute; reflexivity).
  intros a b Ha Hb. pose proof (all2 _ _ _ H _ _ Ha Hb) as X. cbv beta in X. rewrite <- cc_canon in X. now apply c_eqb_eq.
Qed.

Notation heap_q := (heap cc).
Lemma push_q : forall q x, Forall known q -> known x -> heap_q q -> exists q', heap_push endpoint_cmp q x = Ok q' /\ heap_q q' /\ Permutation q' (x :: q).
Proof. exact (push_spec known endpoint_cmp cc known_ok known_anti known_trans). Qed.

Lemma pop_q : forall q x rest, Forall known (x :: rest) -> heap_q q -> Permutation q (x :: rest) ->
  exists top q' , heap_pop endpoint_cmp q = Ok (Some (top, q')) /\ heap_q q' /\ Permutation (x :: rest) (top :: q') /\ forall b, In b (x :: rest) -> cc top b <> Gt.
Proof.
  intros q x rest K H Pm. assert (K' : Forall known q) by (rewrite Pm; exact K).
  pose proof (pop_spec known endpoint_cmp cc known_ok known_anti known_trans q K' H) as Po.
  destruct q as [|y q]; [now apply Permutation_nil_cons in Pm|]. destruct Po as (top & q' & E & H' & Pm' & Min).
  exists top, q'. split; [exact E|]. split; [exact H'|]. split; [now rewrite <- Pm|]. intros b Hb. apply Min. now rewrite Pm.
Qed.
Lemma pop_first : forall q x rest, Forall known (x :: rest) -> heap_q q -> Permutation q (x :: rest) -> (forall b, In b rest -> cc x b = Lt) ->
  exists q', heap_pop endpoint_cmp q = Ok (Some (x, q')) /\ heap_q q' /\ Permutation q' rest.
Proof.
  intros q x rest K H Pm F. destruct (pop_q q x rest K H Pm) as (top & q' & E & H' & Pm' & Min).
  assert (T : top = x).
  { assert (I : In top (x :: rest)) by (rewrite Pm'; now left). destruct I as [<-|I]; [reflexivity|exfalso].
    rewrite Forall_forall in K. specialize (F top I). apply (Min x (or_introl eq_refl)). rewrite (known_anti x top), F; [reflexivity| |]; apply K; [now left|now right]. }
  subst top. exists q'. split; [exact E|]. split; [exact H'|]. apply Permutation_cons_inv in Pm'. now symmetry.
Qed.

(** *** The packets *)
Definition good (ps : list nat) (ks : list packet) : Prop :=
  map k_polygon ks = ps /\ Forall (fun k => length (k_left k) = 4%nat /\ length (k_right k) = 4%nat /\ (k_polygon k < 4)%nat) ks.

Lemma good_get : forall ps ks s, good ps ks -> (s_index s < length ps)%nat -> exists k, get_packet ks s = Ok k /\ nth_error ks (s_index s) = Some k /\ nth_error ps (s_index s) = Some (k_polygon k)
  /\ length (k_left k) = 4%nat /\ length (k_right k) = 4%nat /\ (k_polygon k < 4)%nat.
Proof.
  intros ps ks s (G1 & G2) L. rewrite <- G1, map_length in L. destruct (nth_error_lt ks _ L) as (k & E). exists k. split; [now apply index_nat_some|]. split; [exact E|].
  split; [rewrite <- G1; now apply map_nth_error|]. rewrite Forall_forall in G2. apply G2. now apply nth_error_In in E.
Qed.
Lemma good_put : forall ps ks s k k', good ps ks -> nth_error ks (s_index s) = Some k -> k_polygon k' = k_polygon k -> length (k_left k') = 4%nat -> length (k_right k') = 4%nat -> good ps (put_packet ks s k').
Proof.
  intros ps ks s k k' (G1 & G2) N E L R. unfold put_packet, set_nth. pose proof N as N'. apply nth_error_split in N'. destruct N' as (a & b & -> & La).
  rewrite <- La in *. clear La N. rewrite firstn_app, firstn_all, Nat.sub_diag, app_nil_r. replace (skipn (S (length a)) (a ++ k :: b)) with b.
  2:{ clear. induction a as [|x a IH]; [reflexivity|exact IH]. }
  split.
  - rewrite <- G1, !map_app. cbn [map]. now rewrite E.
  - apply Forall_app in G2. destruct G2 as (A & B). inversion B as [|x y (B1 & B2 & B3) B4]; subst. apply Forall_app. split; [exact A|]. constructor; [|exact B4]. rewrite E. auto.
Qed.
Lemma union_len : forall a b, length a = length b -> exists r, bits_union a b = Ok r /\ length r = length a.
Proof. intros a b E. unfold bits_union. rewrite (proj2 (Nat.eqb_eq _ _) E). eexists. split; [reflexivity|]. rewrite map_length, combine_length. lia. Qed.
Lemma clear_len : forall a, length (bits_clear a) = length a.
Proof. intros. apply repeat_length. Qed.
Lemma set_len : forall a i b, (i < length a)%nat -> exists r, bits_set a i b = Ok r /\ length r = length a.
Proof. intros a i b L. unfold bits_set. rewrite (proj2 (Nat.ltb_lt _ _) L). eexists. split; [reflexivity|]. now apply set_nth_length. Qed.

Lemma upd_ok : forall ps ks s mb, good ps ks -> (s_index s < length ps)%nat ->
  match mb with Some b => (s_index b < length ps)%nat /\ s_index b <> s_index s | None => True end ->
  exists ks', update_polygon_facing ks s mb = Ok ks' /\ good ps ks'.
Proof.
  intros ps ks s mb G L B. destruct (good_get ps ks s G L) as (k & K1 & K2 & _ & K3 & K4 & K5). unfold update_polygon_facing. rewrite K1. cbn [obind].
  destruct mb as [b|].
  - destruct B as (B1 & B2). rewrite (proj2 (Nat.eqb_neq _ _) B2). destruct (good_get ps ks b G B1) as (bk & J1 & _ & _ & J3 & J4 & J5). rewrite J1. cbn [obind].
    assert (U : exists up outside, (if (k_polygon k =? k_polygon bk)%nat then Ok (negb (k_up_out bk), k_outside bk)
      else let* up := index_nat (k_left bk) (k_polygon k) in Ok (up, if vertical b then negb (k_up_out bk) else k_up_out bk)) = Ok (up, outside)).
    { destruct (_ =? _)%nat; [eauto|]. destruct (nth_error_lt (k_left bk) (k_polygon k)) as (u & Eu); [lia|]. rewrite (index_nat_some _ _ _ Eu). cbn [obind]. eauto. }
    destruct U as (up & outside & ->). cbn [obind].
    destruct (union_len (bits_clear (k_left k)) (k_left bk)) as (l & -> & Ll); [rewrite clear_len; lia|]. cbn [obind].
    destruct (union_len (bits_clear (k_right k)) (if is_non_contributing (k_edge bk) then k_right bk else k_left bk)) as (r & -> & Lr); [rewrite clear_len; destruct (is_non_contributing _); lia|]. cbn [obind].
    rewrite clear_len in Ll, Lr. destruct (set_len l (k_polygon k) (negb up)) as (l' & -> & Ll'); [lia|]. cbn [obind].
    eexists. split; [reflexivity|]. eapply good_put; [exact G|exact K2|reflexivity| |]; cbn; lia.
  - destruct (set_len (bits_clear (k_left k)) (k_polygon k) true) as (l & -> & Ll); [rewrite clear_len; lia|]. cbn [obind]. rewrite clear_len in Ll.
    eexists. split; [reflexivity|]. eapply good_put; [exact G|exact K2|reflexivity| |]; cbn; rewrite ?clear_len; lia.
Qed.

Lemma split_ok : forall ps segs ks q act sw s pt l r a1 a2, good ps ks -> length segs = length ps -> nth_error ps (s_index s) = Some 1%nat ->
  sseg_new (s_left s) pt (length ps) 1 tt = Ok l -> sseg_new pt (s_right s) (S (length ps)) 1 tt = Ok r ->
  sl_remove segment_cmp act s = Ok (true, a1) -> sl_insert segment_cmp a1 l = Ok a2 ->
  Forall known q -> heap_q q -> known (l, RightEnd) -> known (r, LeftEnd) -> known (r, RightEnd) ->
  exists segs' ks' q', split_segment 4 (mk_sweep segs ks q act sw) s pt = Ok (l, mk_sweep segs' ks' q' a2 sw)
    /\ good (ps ++ [1; 1]%nat) ks' /\ length segs' = length (ps ++ [1; 1]%nat) /\ heap_q q' /\ Permutation q' ((r, RightEnd) :: (r, LeftEnd) :: (l, RightEnd) :: q).
Proof.
  intros ps segs ks q act sw s pt l r a1 a2 G LS N EL ER RM INS KQ HQ K1 K2 K3.
  assert (L : (s_index s < length ps)%nat) by (apply nth_error_Some; congruence).
  destruct (good_get ps ks s G L) as (k & G1 & _ & G3 & G4 & G5 & G6). assert (KP : k_polygon k = 1%nat) by congruence.
  unfold split_segment. cbn [w_packets w_segs w_active w_queue w_swept]. rewrite G1. cbn [obind]. rewrite LS, KP, EL. cbn [obind]. rewrite ER. cbn [obind].
  destruct (union_len (bits_clear (k_left (packet_new 1 (k_mode k) 4))) (k_left k)) as (bl & -> & Lbl); [rewrite clear_len; cbn; lia|]. cbn [obind].
  destruct (union_len (bits_clear (k_right (packet_new 1 (k_mode k) 4))) (k_right k)) as (br & -> & Lbr); [rewrite clear_len; cbn; lia|]. cbn [obind].
  rewrite RM. cbn [obind negb]. rewrite INS. cbn [obind].
  destruct (push_q q (l, RightEnd) KQ K1 HQ) as (q1 & -> & H1 & P1). cbn [obind].
  assert (KQ1 : Forall known q1) by (rewrite P1; now constructor).
  destruct (push_q q1 (r, LeftEnd) KQ1 K2 H1) as (q2 & -> & H2 & P2). cbn [obind].
  assert (KQ2 : Forall known q2) by (rewrite P2; now constructor).
  destruct (push_q q2 (r, RightEnd) KQ2 K3 H2) as (q3 & -> & H3 & P3). cbn [obind].
  eexists _, _, _. split; [reflexivity|]. split; [|split; [rewrite !app_length; cbn; lia|split; [exact H3|rewrite P3, P2, P1; reflexivity]]].
  destruct G as (Ga & Gb). rewrite clear_len in Lbl, Lbr. cbn in Lbl, Lbr.
  set (fx := fun k0 : packet => _).
  assert (FX : forall k0, k_polygon (fx k0) = k_polygon k0 /\ k_left (fx k0) = k_left k0 /\ k_right (fx k0) = k_right k0).
  { intros k0. unfold fx. destruct (k_below k0) as [i|]; [destruct (i =? s_index s)%nat|]; repeat split. }
  split.
  - rewrite map_map, (map_ext _ k_polygon) by (intros; apply FX). rewrite map_app, Ga. cbn. now rewrite KP.
  - rewrite Forall_map. apply Forall_app. split.
    + apply Forall_forall. intros k0 H0. rewrite Forall_forall in Gb. destruct (FX k0) as (-> & -> & ->). now apply Gb.
    + constructor; [|constructor; [|constructor]].
      * destruct (FX k) as (-> & -> & ->). auto.
      * destruct (FX (with_facing (packet_new 1 (k_mode k) 4) (k_up_out (packet_new 1 (k_mode k) 4)) (k_outside (packet_new 1 (k_mode k) 4)) bl br (k_below (packet_new 1 (k_mode k) 4)))) as (-> & -> & ->). cbn. lia.
Qed.
(** *** Round and round *)

(** The same piece [k] numbers later. *)
Definition ren (k : nat) (s : bseg) : bseg :=
  mk_sseg (s_left s) (s_right s) (s_out s) (if (s_index s <? 49)%nat then s_index s else (s_index s + k)%nat) (s_order s) tt.
Lemma ren_cmp : forall k a b, segment_cmp (ren k a) (ren k b) = segment_cmp a b.
Proof.
  intros k a b. assert (C : Nat.compare (s_index (ren k a)) (s_index (ren k b)) = Nat.compare (s_index a) (s_index b)).
  { cbn [ren s_index]. destruct (Nat.ltb_spec (s_index a) 49), (Nat.ltb_spec (s_index b) 49); try reflexivity;
    destruct (Nat.compare_spec (s_index a) (s_index b)); rewrite ?Nat.compare_eq_iff, ?Nat.compare_lt_iff, ?Nat.compare_gt_iff; lia. }
  assert (E : Nat.eqb (s_index (ren k a)) (s_index (ren k b)) = Nat.eqb (s_index a) (s_index b)).
  { rewrite !Nat.eqb_compare. now rewrite C. }
  unfold segment_cmp. rewrite E, C. reflexivity.
Qed.

Section Map.
  Context {A : Type} (cmp : A -> A -> outcome comparison) (r : A -> A) (Hr : forall a b, cmp (r a) (r b) = cmp a b).
  Lemma index_map : forall l i, index_nat (map r l) i = let* x := index_nat l i in Ok (r x).
  Proof using. clear Hr. intros l i. unfold index_nat. rewrite nth_error_map. now destruct (nth_error l i). Qed.
  Lemma bs_map : forall fuel l x base size, bs_loop cmp fuel (map r l) (r x) base size = bs_loop cmp fuel l x base size.
  Proof using Hr.
    induction fuel as [|fuel IH]; intros l x base size; cbn [bs_loop]; [reflexivity|]. destruct (size <=? 1)%nat; [reflexivity|].
    rewrite index_map. destruct (index_nat l (base + size / 2)) as [e| |]; cbn [obind]; [|reflexivity|reflexivity]. rewrite Hr. destruct (cmp e x); cbn [obind]; auto.
  Qed.
  Lemma search_map : forall l x, binary_search cmp (map r l) (r x) = binary_search cmp l x.
  Proof using Hr.
    intros l x. unfold binary_search. destruct l as [|y l]; [reflexivity|]. change (map r (y :: l)) with (r y :: map r l) at 1. cbv iota.
    rewrite map_length, bs_map. destruct (bs_loop cmp _ (y :: l) x 0 _) as [b| |]; cbn [obind]; [|reflexivity|reflexivity].
    rewrite index_map. destruct (index_nat (y :: l) b) as [e| |]; cbn [obind]; [|reflexivity|reflexivity]. now rewrite Hr.
  Qed.
  Lemma remove_map : forall l x b l', sl_remove cmp l x = Ok (b, l') -> sl_remove cmp (map r l) (r x) = Ok (b, map r l').
  Proof using Hr.
    intros l x b l' H. unfold sl_remove in *. rewrite search_map. destruct (binary_search cmp l x) as [[f i]| |]; cbn [obind] in *; try discriminate.
    destruct f; injection H as <- <-; [|reflexivity]. unfold remove_at. now rewrite map_app, firstn_map, skipn_map.
  Qed.
  Lemma insert_map : forall l x l', sl_insert cmp l x = Ok l' -> sl_insert cmp (map r l) (r x) = Ok (map r l').
  Proof using Hr.
    intros l x l' H. unfold sl_insert in *. rewrite search_map. destruct (binary_search cmp l x) as [[f i]| |]; cbn [obind] in *; try discriminate.
    destruct f; injection H as <-; [reflexivity|]. unfold insert_at. now rewrite map_app, firstn_map, map_cons, skipn_map.
  Qed.
  Lemma before_map : forall l i o, before l i = Ok o -> before (map r l) i = Ok (option_map r o).
  Proof using.
    clear Hr. intros l i o H. unfold before in *. destruct i as [|i]; [now injection H as <-|]. rewrite index_map.
    destruct (index_nat l i); cbn [obind] in *; try discriminate. now injection H as <-.
  Qed.
  Lemma insert_neighbors_map : forall l x p n l', sl_insert_neighbors cmp l x = Ok (p, n, l') ->
    sl_insert_neighbors cmp (map r l) (r x) = Ok (option_map r p, option_map r n, map r l').
  Proof using Hr.
    intros l x p n l' H. unfold sl_insert_neighbors in *. rewrite search_map. destruct (binary_search cmp l x) as [[f i]| |]; cbn [obind] in *; try discriminate.
    assert (M : (if f then map r l else insert_at i (r x) (map r l)) = map r (if f then l else insert_at i x l)).
    { destruct f; [reflexivity|]. unfold insert_at. now rewrite map_app, firstn_map, map_cons, skipn_map. }
    rewrite M. destruct (before _ i) as [o| |] eqn:B; cbn [obind] in H; try discriminate. rewrite (before_map _ _ _ B). cbn [obind]. injection H as <- <- <-.
    now rewrite nth_error_map.
  Qed.
  Lemma remove_neighbors_map : forall l x f p n l', sl_remove_neighbors cmp l x = Ok (f, p, n, l') ->
    sl_remove_neighbors cmp (map r l) (r x) = Ok (f, option_map r p, option_map r n, map r l').
  Proof using Hr.
    intros l x f0 p n l' H. unfold sl_remove_neighbors in *. rewrite search_map. destruct (binary_search cmp l x) as [[f i]| |]; cbn [obind] in *; try discriminate.
    assert (M : (if f then remove_at i (map r l) else map r l) = map r (if f then remove_at i l else l)).
    { destruct f; [|reflexivity]. unfold remove_at. now rewrite map_app, firstn_map, skipn_map. }
    rewrite M. destruct (before _ i) as [o| |] eqn:B; cbn [obind] in H; try discriminate. rewrite (before_map _ _ _ B). cbn [obind]. injection H as <- <- <- <-.
    now rewrite nth_error_map.
  Qed.
End Map.

(** The sweep line. *)
Definition line0 : list bseg := Eval vm_compute in w_active stuck.
Definition t25 : bseg := Eval vm_compute in nth 0 line0 (aX 0).
Definition t29 : bseg := Eval vm_compute in nth 1 line0 (aX 0).
Definition t27 : bseg := Eval vm_compute in nth 2 line0 (aX 0).
Definition t46 : bseg := Eval vm_compute in nth 3 line0 (aX 0).
Definition line1 : list bseg := t25 :: aY true 50 :: tl line0.
Definition line2 : list bseg := t25 :: aY true 50 :: aY false 52 :: tl line0.

Lemma left_x : sl_insert_neighbors segment_cmp line0 (aX 49) = Ok (Some t25, Some t29, t25 :: aX 49 :: tl line0).
Proof. vm_compute. reflexivity. Qed.
Lemma split_x : sl_remove segment_cmp (t25 :: aX 49 :: tl line0) (aX 49) = Ok (true, line0) /\ sl_insert segment_cmp line0 (aY true 50) = Ok line1.
Proof. split; vm_compute; reflexivity. Qed.
Lemma left_z : sl_insert_neighbors segment_cmp line1 (aZ 51) = Ok (Some t27, Some t46, t25 :: aY true 50 :: t29 :: t27 :: aZ 51 :: skipn 3 line0).
Proof. vm_compute. reflexivity. Qed.
Lemma split_z : sl_remove segment_cmp (t25 :: aY true 50 :: t29 :: t27 :: aZ 51 :: skipn 3 line0) (aZ 51) = Ok (true, line1) /\ sl_insert segment_cmp line1 (aY false 52) = Ok line2.
Proof. split; vm_compute; reflexivity. Qed.
Lemma right_y1 : sl_remove_neighbors segment_cmp line2 (aY true 50) = Ok (true, Some t25, Some (aY false 52), t25 :: aY false 52 :: tl line0).
Proof. vm_compute. reflexivity. Qed.
Lemma right_y2 : sl_remove_neighbors segment_cmp line2 (aY false 52) = Ok (true, Some (aY true 50), Some t29, t25 :: aY true 50 :: tl line0).
Proof. vm_compute. reflexivity. Qed.
Lemma right_last : forall o i, o = true /\ i = 50%nat \/ o = false /\ i = 52%nat -> sl_remove_neighbors segment_cmp (t25 :: aY o i :: tl line0) (aY o i) = Ok (true, Some t25, Some t29, line0).
Proof. intros o i [(-> & ->)|(-> & ->)]; vm_compute; reflexivity. Qed.

(** The state with [act] on the sweep line and [evs] next in the queue, [k] numbers later. *)
Definition later (k : nat) (e : bend) : bend := (ren k (fst e), snd e).
Definition state (k : nat) (act : list bseg) (evs : list bend) (more : nat) (w : sweep) : Prop :=
  exists ps rest, w_active w = map (ren k) act /\ good ps (w_packets w) /\ length (w_segs w) = length ps /\ length ps = (50 + more + k)%nat
    /\ nth_error ps 46 = Some 2%nat /\ (forall i, (49 <= i < 50 + more)%nat -> nth_error ps (i + k) = Some 1%nat)
    /\ heap_q (w_queue w) /\ Permutation (w_queue w) (map (later k) evs ++ rest) /\ Forall far rest.

Lemma later_canon : forall k e, canon (later k e) = canon e.
Proof. reflexivity. Qed.
Lemma nth_more : forall ps k more i, length ps = (50 + more + k)%nat -> (forall i, (49 <= i < 50 + more)%nat -> nth_error ps (i + k) = Some 1%nat) ->
  (49 <= i < 50 + (2 + more))%nat -> nth_error (ps ++ [1; 1]%nat) (i + k) = Some 1%nat.
Proof.
  intros ps k more i L N Hi. destruct (Nat.lt_ge_cases i (50 + more)) as [C|C].
  - rewrite nth_error_app1 by lia. apply N. lia.
  - rewrite nth_error_app2 by lia. assert (D : (i + k - length ps = 0 \/ i + k - length ps = 1)%nat) by lia. now destruct D as [-> | ->].
Qed.

(** A turn of the loop, from any state. *)
Definition turn (w w' : sweep) : Prop := exists s e q, heap_pop endpoint_cmp (w_queue w) = Ok (Some (s, e, q))
  /\ (let w := mk_sweep (w_segs w) (w_packets w) q (w_active w) (w_swept w) in match e with RightEnd => sweep_right 4 w s | LeftEnd => sweep_left 4 w s end) = Ok w'.

Lemma far_soon : forall k evs rest, Forall (fun e => In (canon e) soon) evs -> Forall far rest -> Forall known (map (later k) evs ++ rest).
Proof.
  intros k evs rest S F. apply Forall_app. split.
  - rewrite Forall_map. eapply Forall_impl; [|exact S]. intros e H. apply in_or_app. left. now rewrite later_canon.
  - eapply Forall_impl; [|exact F]. exact far_known.
Qed.
Lemma pop_k : forall k q e evs rest, Forall (fun e => In (canon e) soon) (e :: evs) -> Forall far rest -> heap_q q -> Permutation q (map (later k) (e :: evs) ++ rest) ->
  Forall (fun b => cc e b = Lt) evs ->
  exists q', heap_pop endpoint_cmp q = Ok (Some (later k e, q')) /\ heap_q q' /\ Permutation q' (map (later k) evs ++ rest).
Proof.
  intros k q e evs rest S F H Pm L. cbn [map app] in Pm. apply pop_first; [exact (far_soon k (e :: evs) rest S F)|exact H|exact Pm|].
  intros b Hb. apply in_app_iff in Hb. destruct Hb as [Hb|Hb].
  - apply in_map_iff in Hb. destruct Hb as (b0 & <- & Hb). rewrite cc_canon, !later_canon, <- cc_canon. rewrite Forall_forall in L. now apply L.
  - rewrite Forall_forall in F. apply soon_late; [rewrite later_canon; now inversion S|now apply F].
Qed.

Ltac members := repeat (apply Forall_cons; [vm_compute; tauto|]); apply Forall_nil.

Lemma step0 : forall k w, state k line0 [(aX 49, LeftEnd)] 0 w -> exists w', turn w w' /\ state k line1 [(aZ 51, LeftEnd); (aY true 50, RightEnd)] 2 w'.
Proof.
  intros k w (ps & rest & A & G & LS & LP & N2 & N1 & HQ & Pm & F).
  destruct (pop_k k _ (aX 49, LeftEnd) [] rest ltac:(members) F HQ Pm ltac:(constructor)) as (q & EP & HQ' & Pm').
  destruct w as [segs ks q0 act sw]. cbn [w_active w_segs w_packets w_queue w_swept] in *. subst act.
  assert (KQ : Forall known q) by (rewrite Pm'; exact (far_soon k [] rest ltac:(constructor) F)).
  destruct (upd_ok ps ks (ren k (aX 49)) (Some (ren k t25)) G) as (ks1 & U1 & G1).
  { rewrite LP. cbn. lia. } { cbn. lia. }
  assert (E1 : sseg_new cV cP (length ps) 1 tt = Ok (ren k (aY true 50))).
  { rewrite LP. replace (50 + 0 + k)%nat with (50 + k)%nat by lia. reflexivity. }
  assert (E2 : sseg_new cP cQ (S (length ps)) 1 tt = Ok (ren k (aZ 51))).
  { rewrite LP. replace (S (50 + 0 + k))%nat with (51 + k)%nat by lia. reflexivity. }
  destruct split_x as (X1 & X2).
  destruct (split_ok ps segs ks1 q (map (ren k) (t25 :: aX 49 :: tl line0)) sw (ren k (aX 49)) cP _ _ _ _ G1 LS (N1 49%nat ltac:(lia)) E1 E2
    (remove_map segment_cmp (ren k) (ren_cmp k) _ _ _ _ X1) (insert_map segment_cmp (ren k) (ren_cmp k) _ _ _ X2) KQ HQ') as (segs' & ks' & q' & SP & G' & LS' & HQ2 & Pm2).
  { vm_compute; tauto. } { vm_compute; tauto. } { vm_compute; tauto. }
  eexists. split.
  - exists (ren k (aX 49)), LeftEnd, q. split; [exact EP|]. cbn [w_active w_segs w_packets w_queue w_swept].
    unfold sweep_left. cbn [w_active w_segs w_packets w_queue w_swept]. assert (I : sl_insert_neighbors segment_cmp (map (ren k) line0) (ren k (aX 49)) = Ok (Some (ren k t25), Some (ren k t29), map (ren k) (t25 :: aX 49 :: tl line0))) by exact (insert_neighbors_map segment_cmp (ren k) (ren_cmp k) _ _ _ _ _ left_x).
    rewrite I. cbn [obind option_map].
    rewrite U1. cbn [obind].
    replace (handle_intersections ks1 (Some (ren k (aX 49))) (Some (ren k t29))) with (@Ok (nat * option point * option point * list packet) (1%nat, Some cP, None, ks1)) by (vm_compute; reflexivity).
    cbn [obind with_packets w_active w_segs w_packets w_queue w_swept maybe_split maybe_split_opt].
    match type of SP with _ = ?r => match goal with |- context [split_segment ?n ?x ?y ?z] => replace (split_segment n x y z) with r by (symmetry; exact SP) end end.
    cbn [obind Nat.eqb w_packets].
    replace (handle_intersections ks' (Some (ren k t25)) (Some (ren k (aY true 50)))) with (@Ok (nat * option point * option point * list packet) (1%nat, None, None, ks')) by (vm_compute; reflexivity).
    cbn [obind with_packets w_active w_segs w_packets w_queue w_swept maybe_split maybe_split_opt Nat.eqb]. reflexivity.
  - exists (ps ++ [1; 1]%nat), ((ren k (aZ 51), RightEnd) :: rest). cbn [w_active w_segs w_packets w_queue w_swept].
    split; [reflexivity|]. split; [exact G'|]. split; [exact LS'|]. split; [rewrite app_length; cbn; lia|]. split; [rewrite nth_error_app1 by lia; exact N2|].
    split; [intros i Hi; now apply (nth_more ps k 0 i)|]. split; [exact HQ2|]. split.
    + etransitivity; [exact Pm2|]. etransitivity; [do 3 apply perm_skip; exact Pm'|]. cbn [map app later fst snd]. symmetry. etransitivity; [|apply perm_swap]. apply perm_skip. symmetry. apply perm_swap.
    + constructor; [vm_compute; tauto|exact F].
Qed.

Lemma step1 : forall k w, state k line1 [(aZ 51, LeftEnd); (aY true 50, RightEnd)] 2 w ->
  exists w', turn w w' /\ state k line2 [(aY true 50, RightEnd); (aY false 52, RightEnd); (aX 53, LeftEnd)] 4 w'.
Proof.
  intros k w (ps & rest & A & G & LS & LP & N2 & N1 & HQ & Pm & F).
  destruct (pop_k k _ (aZ 51, LeftEnd) [(aY true 50, RightEnd)] rest ltac:(members) F HQ Pm) as (q & EP & HQ' & Pm').
  { constructor; [vm_compute; reflexivity|constructor]. }
  destruct w as [segs ks q0 act sw]. cbn [w_active w_segs w_packets w_queue w_swept] in *. subst act.
  assert (KQ : Forall known q) by (rewrite Pm'; exact (far_soon k [(aY true 50, RightEnd)] rest ltac:(members) F)).
  destruct (upd_ok ps ks (ren k (aZ 51)) (Some (ren k t27)) G) as (ks1 & U1 & G1).
  { rewrite LP. cbn. lia. } { cbn. lia. }
  assert (E1 : sseg_new cP cV (length ps) 1 tt = Ok (ren k (aY false 52))).
  { rewrite LP. replace (50 + 2 + k)%nat with (52 + k)%nat by lia. reflexivity. }
  assert (E2 : sseg_new cV cQ (S (length ps)) 1 tt = Ok (ren k (aX 53))).
  { rewrite LP. replace (S (50 + 2 + k))%nat with (53 + k)%nat by lia. reflexivity. }
  destruct split_z as (X1 & X2).
  destruct (split_ok ps segs ks1 q (map (ren k) (t25 :: aY true 50 :: t29 :: t27 :: aZ 51 :: skipn 3 line0)) sw (ren k (aZ 51)) cV _ _ _ _ G1 LS (N1 51%nat ltac:(lia)) E1 E2
    (remove_map segment_cmp (ren k) (ren_cmp k) _ _ _ _ X1) (insert_map segment_cmp (ren k) (ren_cmp k) _ _ _ X2) KQ HQ') as (segs' & ks' & q' & SP & G' & LS' & HQ2 & Pm2).
  { vm_compute; tauto. } { vm_compute; tauto. } { vm_compute; tauto. }
  eexists. split.
  - exists (ren k (aZ 51)), LeftEnd, q. split; [exact EP|]. cbn [w_active w_segs w_packets w_queue w_swept].
    unfold sweep_left. cbn [w_active w_segs w_packets w_queue w_swept]. assert (I : sl_insert_neighbors segment_cmp (map (ren k) line1) (ren k (aZ 51)) = Ok (Some (ren k t27), Some (ren k t46), map (ren k) (t25 :: aY true 50 :: t29 :: t27 :: aZ 51 :: skipn 3 line0))) by exact (insert_neighbors_map segment_cmp (ren k) (ren_cmp k) _ _ _ _ _ left_z).
    rewrite I. cbn [obind option_map].
    rewrite U1. cbn [obind].
    assert (HI : handle_intersections ks1 (Some (ren k (aZ 51))) (Some (ren k t46)) = Ok (3%nat, Some cV, None, ks1)).
    { destruct (good_get ps ks1 (ren k (aZ 51)) G1) as (kz & Z1 & _ & Z2 & _); [rewrite LP; cbn; lia|].
      destruct (good_get ps ks1 (ren k t46) G1) as (kt & T1 & _ & T2 & _); [rewrite LP; cbn; lia|].
      unfold handle_intersections.
      assert (IS : exists a b, intersect_segments (s_left (ren k (aZ 51)), s_right (ren k (aZ 51))) (s_left (ren k t46), s_right (ren k t46)) = ISegment a b).
      { cbn [ren s_left s_right]. vm_compute. eexists _, _. reflexivity. }
      destruct IS as (ia & ib & ->). rewrite Z1. cbn [obind]. rewrite T1. cbn [obind].
      change (s_index (ren k (aZ 51))) with (51 + k)%nat in Z2. rewrite (N1 51%nat) in Z2 by lia. injection Z2 as <-.
      change (s_index (ren k t46)) with 46%nat in T2. rewrite N2 in T2. injection T2 as <-. cbn [Nat.eqb ren s_left s_right]. vm_compute. reflexivity. }
    rewrite HI. clear HI.
    cbn [obind with_packets w_active w_segs w_packets w_queue w_swept maybe_split maybe_split_opt].
    match type of SP with _ = ?r => match goal with |- context [split_segment ?n ?x ?y ?z] => replace (split_segment n x y z) with r by (symmetry; exact SP) end end.
    cbn [obind Nat.eqb w_packets].
    replace (handle_intersections ks' (Some (ren k t27)) (Some (ren k (aY false 52)))) with (@Ok (nat * option point * option point * list packet) (0%nat, None, None, ks')) by (vm_compute; reflexivity).
    cbn [obind with_packets w_active w_segs w_packets w_queue w_swept maybe_split maybe_split_opt Nat.eqb]. reflexivity.
  - exists (ps ++ [1; 1]%nat), ((ren k (aX 53), RightEnd) :: rest). cbn [w_active w_segs w_packets w_queue w_swept].
    split; [reflexivity|]. split; [exact G'|]. split; [exact LS'|]. split; [rewrite app_length; cbn; lia|]. split; [rewrite nth_error_app1 by lia; exact N2|].
    split; [intros i Hi; now apply (nth_more ps k 2 i)|]. split; [exact HQ2|]. split.
    + etransitivity; [exact Pm2|]. etransitivity; [do 3 apply perm_skip; exact Pm'|]. cbn [map app later fst snd].
      apply (Permutation_trans (l' := (ren k (aX 53), LeftEnd) :: (ren k (aY false 52), RightEnd) :: (ren k (aY true 50), RightEnd) :: (ren k (aX 53), RightEnd) :: rest)).
      * etransitivity; [apply perm_swap|]. apply perm_skip. etransitivity; [apply perm_swap|]. apply perm_skip. apply perm_swap.
      * etransitivity; [apply perm_skip, perm_swap|]. etransitivity; [apply perm_swap|]. apply perm_skip. apply perm_swap.
    + constructor; [vm_compute; tauto|exact F].
Qed.

Lemma right_k : forall k w act s evs more b a act' rest ps q,
  w_active w = map (ren k) act -> sl_remove_neighbors segment_cmp act s = Ok (true, Some b, Some a, act') ->
  (forall ks, exists m, handle_intersections ks (Some (ren k b)) (Some (ren k a)) = Ok (m, None, None, ks)) ->
  good ps (w_packets w) -> length (w_segs w) = length ps -> length ps = (50 + more + k)%nat ->
  nth_error ps 46 = Some 2%nat -> (forall i, (49 <= i < 50 + more)%nat -> nth_error ps (i + k) = Some 1%nat) ->
  heap_pop endpoint_cmp (w_queue w) = Ok (Some (ren k s, RightEnd, q)) -> heap_q q -> Permutation q (map (later k) evs ++ rest) -> Forall far rest ->
  exists w', turn w w' /\ state k act' evs more w'.
Proof.
  intros k w act s evs more b a act' rest ps q A R HI G LS LP N2 N1 EP HQ Pm F. destruct w as [segs ks q0 act0 sw]. cbn [w_active w_segs w_packets w_queue w_swept] in *. subst act0.
  eexists. split.
  - exists (ren k s), RightEnd, q. split; [exact EP|]. cbn [w_active w_segs w_packets w_queue w_swept]. unfold sweep_right. cbn [w_active w_segs w_packets w_queue w_swept].
    assert (I : sl_remove_neighbors segment_cmp (map (ren k) act) (ren k s) = Ok (true, Some (ren k b), Some (ren k a), map (ren k) act')) by exact (remove_neighbors_map segment_cmp (ren k) (ren_cmp k) _ _ _ _ _ _ R).
    rewrite I. cbn [obind option_map w_active w_segs w_packets w_queue w_swept].
    destruct (HI ks) as (m & E). match type of E with _ = ?r => match goal with |- context [handle_intersections ?x ?y ?z] => replace (handle_intersections x y z) with r by (symmetry; exact E) end end. cbn [obind maybe_split]. reflexivity.
  - exists ps, rest. cbn [with_packets w_active w_segs w_packets w_queue w_swept]. repeat (split; [assumption || reflexivity|]). exact F.
Qed.

Lemma step2 : forall k w, state k line2 [(aY true 50, RightEnd); (aY false 52, RightEnd); (aX 53, LeftEnd)] 4 w ->
  exists w' o i, (o = true /\ i = 50%nat \/ o = false /\ i = 52%nat) /\ turn w w' /\ state k (t25 :: aY o i :: tl line0) [(aY o i, RightEnd); (aX 53, LeftEnd)] 4 w'.
Proof.
  intros k w (ps & rest & A & G & LS & LP & N2 & N1 & HQ & Pm & F).
  pose proof (far_soon k [(aY true 50, RightEnd); (aY false 52, RightEnd); (aX 53, LeftEnd)] rest ltac:(members) F) as K. cbn [map app] in K, Pm.
  destruct (pop_q _ _ _ K HQ Pm) as (top & q & EP & HQ' & Pm' & Min).
  assert (T : top = (ren k (aY true 50), RightEnd) \/ top = (ren k (aY false 52), RightEnd)).
  { assert (I : In top (later k (aY true 50, RightEnd) :: later k (aY false 52, RightEnd) :: later k (aX 53, LeftEnd) :: rest)) by (rewrite Pm'; now left).
    destruct I as [<-|[<-|I]]; [now left|now right|exfalso]. specialize (Min (later k (aY true 50, RightEnd)) (or_introl eq_refl)).
    destruct I as [<-|I]; [revert Min; vm_compute; congruence|]. apply Min. rewrite Forall_forall in F, K. specialize (F top I).
    rewrite (known_anti (later k (aY true 50, RightEnd)) top), soon_late; [reflexivity|vm_compute; tauto|exact F|apply K; now left|now apply far_known]. }
  destruct T as [-> | ->].
  - assert (X : exists w', turn w w' /\ state k (t25 :: aY false 52 :: tl line0) [(aY false 52, RightEnd); (aX 53, LeftEnd)] 4 w').
    { apply (right_k k w line2 (aY true 50) _ 4 t25 (aY false 52) _ rest ps q A right_y1); try assumption.
      - intros ks0. eexists. vm_compute. reflexivity.
      - apply Permutation_cons_inv in Pm'. now symmetry. }
    destruct X as (w' & X1 & X2). exists w', false, 52%nat. auto.
  - assert (X : exists w', turn w w' /\ state k (t25 :: aY true 50 :: tl line0) [(aY true 50, RightEnd); (aX 53, LeftEnd)] 4 w').
    { apply (right_k k w line2 (aY false 52) _ 4 (aY true 50) t29 _ rest ps q A right_y2); try assumption.
      - intros ks0. eexists. vm_compute. reflexivity.
      - cbn [map app]. apply (Permutation_cons_inv (a := (ren k (aY false 52), RightEnd))). rewrite <- Pm'. apply perm_swap. }
    destruct X as (w' & X1 & X2). exists w', true, 50%nat. auto.
Qed.

Lemma step3 : forall k w o i, (o = true /\ i = 50%nat \/ o = false /\ i = 52%nat) -> state k (t25 :: aY o i :: tl line0) [(aY o i, RightEnd); (aX 53, LeftEnd)] 4 w ->
  exists w', turn w w' /\ state k line0 [(aX 53, LeftEnd)] 4 w'.
Proof.
  intros k w o i O (ps & rest & A & G & LS & LP & N2 & N1 & HQ & Pm & F).
  destruct (pop_k k _ (aY o i, RightEnd) [(aX 53, LeftEnd)] rest ltac:(members) F HQ Pm) as (q & EP & HQ' & Pm').
  { constructor; [vm_compute; reflexivity|constructor]. }
  apply (right_k k w (t25 :: aY o i :: tl line0) (aY o i) _ 4 t25 t29 line0 rest ps q A (right_last o i O)); try assumption.
  intros ks0. eexists. vm_compute. reflexivity.
Qed.

Lemma ren_line0 : forall k, map (ren k) line0 = line0.
Proof. intros k. reflexivity. Qed.
Lemma round : forall k w, state k line0 [(aX 53, LeftEnd)] 4 w -> state (4 + k) line0 [(aX 49, LeftEnd)] 0 w.
Proof.
  intros k w (ps & rest & A & G & LS & LP & N2 & N1 & HQ & Pm & F). exists ps, rest. split; [rewrite ren_line0 in *; exact A|].
  split; [exact G|]. split; [exact LS|]. split; [rewrite LP; lia|]. split; [exact N2|]. split; [|split; [exact HQ|split; [exact Pm|exact F]]].
  intros i Hi. replace (i + (4 + k))%nat with ((i + 4) + k)%nat by lia. apply N1. lia.
Qed.

(** The loop is never left. *)
Inductive stage (w : sweep) : Prop :=
| st0 : forall k, state k line0 [(aX 49, LeftEnd)] 0 w -> stage w
| st1 : forall k, state k line1 [(aZ 51, LeftEnd); (aY true 50, RightEnd)] 2 w -> stage w
| st2 : forall k, state k line2 [(aY true 50, RightEnd); (aY false 52, RightEnd); (aX 53, LeftEnd)] 4 w -> stage w
| st3 : forall k o i, (o = true /\ i = 50%nat \/ o = false /\ i = 52%nat) -> state k (t25 :: aY o i :: tl line0) [(aY o i, RightEnd); (aX 53, LeftEnd)] 4 w -> stage w.

Lemma stage_turn : forall w, stage w -> exists w', turn w w' /\ stage w'.
Proof.
  intros w [k H|k H|k H|k o i O H].
  - destruct (step0 k w H) as (w' & T & H'). exists w'. split; [exact T|]. now apply (st1 w' k).
  - destruct (step1 k w H) as (w' & T & H'). exists w'. split; [exact T|]. now apply (st2 w' k).
  - destruct (step2 k w H) as (w' & o & i & O & T & H'). exists w'. split; [exact T|]. now apply (st3 w' k o i).
  - destruct (step3 k w o i O H) as (w' & T & H'). exists w'. split; [exact T|]. apply (st0 w' (4 + k)). now apply round.
Qed.
Lemma stage_loop : forall fuel w, stage w -> sweep_loop fuel 4 w = Panic PFuel.
Proof.
  induction fuel as [|fuel IH]; intros w H; destruct (stage_turn w H) as (w' & (s & e & q & E & T) & H'); cbn [sweep_loop]; rewrite E; cbn [obind]; [reflexivity|].
  cbv zeta in T. rewrite T. cbn [obind]. now apply IH.
Qed.

Definition le_atb (l : list bend) (i j : nat) : bool :=
  match nth_error l i, nth_error l j with Some a, Some b => negb (c_eqb (cc a b) Gt) | _, _ => true end.
Lemma heapb_heap : forall l, forallb (fun i => le_atb l (parent i) i) (seq 1 (length l)) = true -> heap_q l.
Proof.
  intros l H i Hi a b Ha Hb. rewrite forallb_forall in H. assert (L : (i < length l)%nat) by (apply nth_error_Some; congruence).
  specialize (H i). rewrite in_seq in H. specialize (H ltac:(lia)). unfold le_atb in H. rewrite Ha, Hb in H. now destruct (cc a b).
Qed.

Lemma stuck_state : state 0 line0 [(aX 49, LeftEnd)] 0 stuck.
Proof.
  exists (map k_polygon (w_packets stuck)), (tl (w_queue stuck)).
  split; [reflexivity|]. split; [split; [reflexivity|]|].
  { unfold stuck. cbn [w_packets]. repeat (constructor; [vm_compute; repeat split; auto using le_n, le_S|]). constructor. }
  split; [reflexivity|]. split; [reflexivity|]. split; [reflexivity|]. split.
  { intros i Hi. replace i with 49%nat by lia. reflexivity. }
  split.
  { apply heapb_heap. vm_compute. reflexivity. }
  split; [reflexivity|].
  apply Forall_forall. intros e He. unfold far. 
  assert (X : forall l, Forall (fun e => In (canon e) late) l -> forall e, In e l -> In (canon e) late) by (intros l Hl; now apply Forall_forall).
  apply (X (tl (w_queue stuck))); [|exact He]. vm_compute. repeat (constructor; [tauto|]). constructor.
Qed.

Lemma stuck_stage : stage stuck.
Proof. exact (st0 stuck 0 stuck_state). Qed.

Lemma after_loop : forall k w w', after k w = Ok w' -> (forall fuel, sweep_loop fuel 4 w' = Panic PFuel) -> forall fuel, sweep_loop fuel 4 w = Panic PFuel.
Proof.
  induction k as [|k IH]; intros w w' H L fuel; cbn [after] in H; [injection H as ->; apply L|].
  destruct (heap_pop endpoint_cmp (w_queue w)) as [next| |] eqn:E; cbn [obind] in H; try discriminate. destruct next as [[[s e] q]|]; [|discriminate].
  destruct fuel as [|fuel]; cbn [sweep_loop]; rewrite E; cbn [obind]; [reflexivity|]. cbv zeta in H.
  destruct (match e with RightEnd => _ | LeftEnd => _ end) as [w1| |]; cbn [obind] in *; try discriminate. exact (IH w1 w' H L fuel).
Qed.
Lemma begun_loop : forall fuel, sweep_loop fuel 4 begun = Panic PFuel.
Proof.
  apply (after_loop 52 begun stuck); [vm_compute; reflexivity|]. intros fuel. apply stage_loop. exact stuck_stage.
Qed.
(** And the sweep makes more and more pieces. *)
Lemma turn_sweeps : forall m w0 w w', sweeps 4 m w0 w -> turn w w' -> sweeps 4 (S m) w0 w'.
Proof.
  intros m w0 w w' H (s & e & q & E & T). induction H as [w|m w s0 e0 q0 w1 w2 H1 H2 H3 IH].
  - exact (s_event 4 0 w s e q w' w' E T (s_none 4 w')).
  - exact (s_event 4 _ w s0 e0 q0 w1 w' H1 H2 (IH E T)).
Qed.
Lemma after_sweeps : forall k w w', after k w = Ok w' -> sweeps 4 k w w'.
Proof.
  induction k as [|k IH]; intros w w' H; cbn [after] in H; [injection H as ->; constructor|].
  destruct (heap_pop endpoint_cmp (w_queue w)) as [next| |] eqn:E; cbn [obind] in H; try discriminate. destruct next as [[[s e] q]|]; [|discriminate].
  cbv zeta in H. destruct (match e with RightEnd => _ | LeftEnd => _ end) as [w1| |] eqn:T; cbn [obind] in *; try discriminate.
  exact (s_event 4 k w s e q w1 w' E T (IH w1 w' H)).
Qed.
Lemma rounds : forall j, exists w, sweeps 4 (52 + 4 * j) begun w /\ state (4 * j) line0 [(aX 49, LeftEnd)] 0 w.
Proof.
  induction j as [|j (w & S & H)].
  - exists stuck. split; [apply after_sweeps; vm_compute; reflexivity|]. exact stuck_state.
  - destruct (step0 _ w H) as (w1 & T1 & H1). destruct (step1 _ w1 H1) as (w2 & T2 & H2). destruct (step2 _ w2 H2) as (w3 & o & i & O & T3 & H3).
    destruct (step3 _ w3 o i O H3) as (w4 & T4 & H4). exists w4. split.
    + replace (52 + 4 * Datatypes.S j)%nat with (Datatypes.S (Datatypes.S (Datatypes.S (Datatypes.S (52 + 4 * j))))) by lia.
      exact (turn_sweeps _ _ _ _ (turn_sweeps _ _ _ _ (turn_sweeps _ _ _ _ (turn_sweeps _ _ _ _ S T1) T2) T3) T4).
    + replace (4 * Datatypes.S j)%nat with (4 + 4 * j)%nat by lia. now apply round.
Qed.

Lemma tangle_begun : add_polygons 4 0 tangle (mk_sweep [] [] [] [] []) = Ok begun.
Proof. vm_compute. reflexivity. Qed.
Lemma never_ends : forall std fuel op, compute std fuel tangle op = Panic PFuel.
Proof.
  intros std fuel op. unfold compute. change (length tangle) with 4%nat. cbv zeta. rewrite tangle_begun. cbn [obind]. rewrite begun_loop. reflexivity.
Qed.

Lemma grows : forall b, exists m w, sweeps 4 m begun w /\ w_queue w <> [] /\ (b <= m)%nat /\ (b <= length (w_segs w))%nat.
Proof.
  intros b. destruct (rounds b) as (w & S & (ps & rest & _ & _ & LS & LP & _ & _ & _ & Pm & _)). exists (52 + 4 * b)%nat, w. split; [exact S|].
  split; [intros E; rewrite E in Pm; now apply Permutation_nil_cons in Pm|]. split; lia.
Qed.

Lemma tangle_corners : Forall2 (fun p z => has_corners (fst p) z) tangle (map (fun t => [t]) tangle_z).
Proof. repeat constructor; apply pt_at; reflexivity. Qed.

Lemma tangle_refutes : exists polys zs w0,
  Forall2 (fun p z => has_corners (fst p) z) polys zs /\ length polys = 4%nat
  /\ Forall (fun z => exists ax ay bx by_ cx cy, z = [[(ax, ay); (bx, by_); (cx, cy)]]
       /\ Forall (fun v => -2 <= v <= 3) [ax; ay; bx; by_; cx; cy] /\ (bx - ax) * (cy - ay) <> (by_ - ay) * (cx - ax))%Z zs
  /\ (forall std fuel op, compute std fuel polys op = Panic PFuel)
  /\ add_polygons 4 0 polys (mk_sweep [] [] [] [] []) = Ok w0
  /\ forall b, exists m w, sweeps 4 m w0 w /\ w_queue w <> [] /\ (b <= m)%nat /\ (b <= length (w_segs w))%nat.
Proof.
  exists tangle, (map (fun t => [t]) tangle_z), begun. split; [exact tangle_corners|]. split; [reflexivity|]. split.
  - unfold tangle_z. cbn [map]. repeat (constructor; [eexists _, _, _, _, _, _; split; [reflexivity|]; split; [repeat (constructor; [lia|]); constructor|lia]|]). constructor.
  - split; [exact never_ends|]. split; [exact tangle_begun|]. exact grows.
Qed.
