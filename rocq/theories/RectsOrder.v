(** Overlaying rectangles in another order. *)

From Coq Require Import List ZArith QArith Bool Arith Lia Permutation.
From Verif Require Import Base Sweep Contours Compute SpecShape SpecOrder SpecIntersect SpecHandle SpecTidy SpecOverlay SpecCompute SpecFollow TidySamples OverlaySamples CrossCover
  GridFacts GridCut GridLines GridSamples GridRects SpecCross SpecGrid SpecRects SpecReorder.
Import ListNotations.
Local Open Scope Z_scope.

(** *** The edges of polygons in another order *)

Lemma flat_map_perm : forall {A B} (f : A -> list B) l m, Permutation l m -> Permutation (flat_map f l) (flat_map f m).
Proof. intros A B f l m H. rewrite !flat_map_concat_map. induction H; cbn [map concat]; auto using Permutation_app_head; [|now apply (Permutation_trans IHPermutation1)]. rewrite !app_assoc. apply Permutation_app_tail, Permutation_app_comm. Qed.

Lemma edges_from_seq : forall zs i, edges_from i zs = flat_map (fun k => polygon_edges (i + k) (nth k zs [])) (seq 0 (length zs)).
Proof.
  induction zs as [|z zs IH]; intros i; [reflexivity|]. cbn [edges_from length seq flat_map nth]. rewrite Nat.add_0_r, IH. f_equal.
  rewrite <- seq_shift, flat_map_concat_map, (flat_map_concat_map _ (map S _)), map_map. f_equal. apply map_ext. intros k. cbn [nth]. now rewrite Nat.add_succ_r.
Qed.

Lemma numbered_edges : forall sigma i z, map (numbered sigma) (polygon_edges i z) = polygon_edges (sigma i) z.
Proof.
  intros sigma i z. unfold polygon_edges. induction (flat_map sides z) as [|s l IH]; [reflexivity|]. cbn [flat_map]. rewrite map_app, IH. f_equal. unfold left_to_right. destruct (lex_z (fst s) (snd s)); reflexivity.
Qed.

Lemma seq_perm : forall n (sigma : nat -> nat), (forall i, (i < n)%nat -> (sigma i < n)%nat) -> (forall i j, (i < n)%nat -> (j < n)%nat -> sigma i = sigma j -> i = j) ->
  Permutation (map sigma (seq 0 n)) (seq 0 n).
Proof.
  intros n sigma B I. apply NoDup_Permutation_bis.
  - assert (G : forall l, NoDup l -> (forall k, In k l -> (k < n)%nat) -> NoDup (map sigma l)).
    { induction l as [|a l IH]; intros D H; cbn [map]; [constructor|]. inversion D; subst. constructor; [|apply IH; auto; intros; apply H; now right].
      intros X. apply in_map_iff in X. destruct X as (b & E & X). apply I in E; [subst; contradiction|apply H; now right|apply H; now left]. }
    apply G; [apply seq_NoDup|]. intros k K. apply in_seq in K. lia.
  - now rewrite map_length.
  - intros k K. apply in_map_iff in K. destruct K as (a & <- & K). apply in_seq in K. apply in_seq. specialize (B a). lia.
Qed.

Lemma reordered_concat : forall {A} sigma (l l' : list (list A)), reordered sigma l l' -> Permutation (concat l') (concat l).
Proof.
  intros A sigma l l' (E & B & I & P).
  assert (G : forall m : list (list A), concat m = flat_map (fun k => nth k m []) (seq 0 (length m))).
  { induction m as [|a m IH]; [reflexivity|]. cbn [concat length seq flat_map nth]. f_equal. rewrite IH at 1. rewrite <- seq_shift, flat_map_concat_map, (flat_map_concat_map _ (map S _)), map_map. reflexivity. }
  rewrite (G l), (G l'), E. etransitivity; [apply flat_map_perm; symmetry; apply (seq_perm (length l) sigma B I)|].
  assert (X : forall ks, (forall k, In k ks -> (k < length l)%nat) -> Permutation (flat_map (fun k => nth k l' []) (map sigma ks)) (flat_map (fun k => nth k l []) ks)).
  { induction ks as [|k ks IH]; intros H; [constructor|]. cbn [map flat_map]. apply Permutation_app; [symmetry; apply P; apply H; now left|apply IH; intros; apply H; now right]. }
  apply X. intros k K. apply in_seq in K. lia.
Qed.

Lemma reordered_same : forall sigma zs zs', reordered sigma zs zs' -> same_polygons sigma zs zs'.
Proof.
  intros sigma zs zs' (E & B & I & P). split; [exact E|]. split; [exact B|]. split; [exact I|]. unfold edges. rewrite !edges_from_seq. change (@length corners zs') with (@length (list (list (Z * Z))) zs'). rewrite E. cbn [Nat.add].
 
  etransitivity; [apply flat_map_perm; symmetry; apply (seq_perm (length zs) sigma B I)|].
  assert (X : forall ks, (forall k, In k ks -> (k < length zs)%nat) -> Permutation (flat_map (fun k => polygon_edges k (nth k zs' [])) (map sigma ks)) (map (numbered sigma) (flat_map (fun k => polygon_edges k (nth k zs [])) ks))).
  { induction ks as [|k ks IH]; intros H; [constructor|]. cbn [map flat_map]. rewrite map_app. apply Permutation_app; [|apply IH; intros; apply H; now right].
    rewrite numbered_edges. unfold polygon_edges. apply flat_map_perm, flat_map_perm. symmetry. apply P. apply H. now left. }
  apply X. intros k K. apply in_seq in K. exact (proj2 K).
Qed.

(** *** Rectangles *)

Lemma existsb_perm : forall {A} (f : A -> bool) l m, Permutation l m -> existsb f l = existsb f m.
Proof. intros A f l m H. induction H; cbn [existsb]; try congruence. rewrite !orb_assoc. f_equal. apply orb_comm. Qed.

Lemma marks_perm : forall g rss rss', Permutation (concat rss') (concat rss) -> forall r, rect_marks g rss' r = rect_marks g rss r.
Proof.
  intros g rss rss' H r.
  assert (V : forall y x, passes_v rss' y x = passes_v rss y x) by (intros; apply existsb_perm, H).
  assert (W : forall x y, passes_h rss' x y = passes_h rss x y) by (intros; apply existsb_perm, H).
  assert (V' : forall y, hmarks g rss' r y = hmarks g rss r y) by (intros; unfold hmarks; f_equal; apply filter_ext, V).
  assert (W' : forall x, vmarks g rss' r x = vmarks g rss r x) by (intros; unfold vmarks; f_equal; apply filter_ext, W).
  unfold rect_marks. now rewrite !V', !W'.
Qed.

Lemma spread_perm : forall g rss rss', Permutation (concat rss') (concat rss) -> spread_out g rss -> spread_out g rss'.
Proof.
  intros g rss rss' P [S G W H X Y]. assert (I : forall r, In r (concat rss') -> In r (concat rss)) by (intros r; apply Permutation_in, P). constructor; auto.
  - apply (Permutation_NoDup (l := flat_map (fun r => [r_left r; r_right r]) (concat rss))); [|exact X]. apply flat_map_perm. now symmetry.
  - apply (Permutation_NoDup (l := flat_map (fun r => [r_bottom r; r_top r]) (concat rss))); [|exact Y]. apply flat_map_perm. now symmetry.
Qed.

Lemma reordered_map : forall {A B} (f : list A -> list B) sigma l l', f [] = [] -> (forall a b, Permutation a b -> Permutation (f a) (f b)) -> reordered sigma l l' -> reordered sigma (map f l) (map f l').
Proof.
  intros A B f sigma l l' N F (E & Bd & I & P). unfold reordered. rewrite !map_length. split; [exact E|]. split; [exact Bd|]. split; [exact I|]. intros i Hi.
  rewrite <- N, !map_nth. apply F, P, Hi.
Qed.

Lemma rects_order : forall std std' fuel fuel' g rss rss' polys polys' op op' sigma, std_laws std -> sorts std -> std_laws std' -> sorts std' ->
  spread_out g rss -> reordered sigma rss rss' ->
  Forall2 (fun p l => has_points (fst p) (map rect_corners l)) polys rss -> Forall2 (fun p l => has_points (fst p) (map rect_corners l)) polys' rss' ->
  ~ In RemoveEdges (map snd polys) -> (forall i, (i < length polys)%nat -> nth_error (map snd polys') (sigma i) = nth_error (map snd polys) i) ->
  (252 * length (concat rss) <= fuel)%nat -> (252 * length (concat rss) <= fuel')%nat ->
  exists r r' rz, compute std fuel polys op = Ok r /\ compute std' fuel' polys' op' = Ok r' /\ has_corners r rz /\ has_corners r' rz
  /\ forall i c c', nth_error r i = Some c -> nth_error r' i = Some c' ->
    c_holes c' = c_holes c /\ c_external c' = c_external c /\ c_neighbors c' = c_neighbors c
    /\ forall k, (k < length polys)%nat -> nth_error (c_from c') (sigma k) = nth_error (c_from c) k.
Proof.
  intros std std' fuel fuel' g rss rss' polys polys' op op' sigma L S L' S' H R F F' N M Fu Fu'. pose proof (reordered_concat _ _ _ R) as P. pose proof (spread_perm g rss rss' P H) as H'.
  assert (Len : length polys = length rss) by (clear - F; induction F; cbn [length]; congruence). assert (Len' : length polys' = length rss') by (clear - F'; induction F'; cbn [length]; congruence).
  assert (N' : ~ In RemoveEdges (map snd polys')).
  { intros X. apply In_nth_error in X. destruct X as (k & X). destruct R as (E & B & I & _).
    assert (K : (k < length rss)%nat) by (rewrite <- E, <- Len', <- (map_length snd); apply nth_error_Some; congruence).
    assert (K' : In k (map sigma (seq 0 (length rss)))) by (apply (Permutation_in k (Permutation_sym (seq_perm (length rss) sigma B I))), in_seq; lia).
    apply in_map_iff in K'. destruct K' as (i & <- & K'). apply in_seq in K'. rewrite (M i) in X by lia. apply nth_error_In in X. contradiction. }
  assert (C : forall g rss polys, spread_out g rss -> Forall2 (fun p l => has_points (fst p) (map rect_corners l)) polys rss -> ~ In RemoveEdges (map snd polys) -> crossable polys (rects_marks g rss)).
  { clear. intros g rss polys H F N. pose proof (rects_cut g rss H) as C. pose proof (rects_edges g rss H) as E. pose proof (rects_few g rss H) as W. apply (grid_crossable g).
    - exact C.
    - exact (proj2 (so_size g rss H)).
    - lia.
    - rewrite rects_plain. clear - F. induction F; cbn; constructor; assumption.
    - now apply plain_covered. }
  pose proof (C g rss polys H F N) as X. pose proof (C g rss' polys' H' F' N') as X'. pose proof (rects_edges g rss H) as E. pose proof (rects_edges g rss' H') as E'. rewrite (Permutation_length P) in E'.
  assert (T : same_polygons sigma (marked (rects_marks g rss)) (marked (rects_marks g rss'))).
  { apply reordered_same. unfold marked, rects_marks. rewrite !map_map.
    rewrite (map_ext (fun x => map (flat_map (fun m : mark => fst m :: snd m)) (map (rect_marks g rss') x)) (fun x => map (flat_map (fun m : mark => fst m :: snd m)) (map (rect_marks g rss) x))).
    - apply (reordered_map (fun x => map (flat_map (fun m : mark => fst m :: snd m)) (map (rect_marks g rss) x))); [reflexivity| |exact R]. intros a b Q. now apply Permutation_map, Permutation_map.
    - intros z. f_equal. apply map_ext. now apply marks_perm. }
  destruct (cross_ends std fuel polys op _ L S X ltac:(lia)) as (r & rz & D & Z). destruct (cross_ends std' fuel' polys' op' _ L' S' X' ltac:(lia)) as (r' & rz' & D' & Z').
  destruct (cross_order_free std std' fuel fuel' polys polys' op op' _ _ sigma L S X ltac:(lia) L' S' X' ltac:(lia) T M r r' rz rz' D D' Z Z') as [Q1 Q2].
  exists r, r', rz. split; [exact D|]. split; [exact D'|]. split; [exact Z|]. split; [now rewrite <- Q1|exact Q2].
Qed.
