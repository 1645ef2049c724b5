(** C41-C50, C58: contours, orders and containers of src/shapeops.rs. *)

From Coq Require Import List ZArith Lia Sorting.Permutation.
From Verif Require Import Base Float SpecFloat64 Geometry Sweep Contours SpecShape ShapeFacts OrientFacts
  SpecContainers ContainerFacts SpecOrder OrderFacts ShapeSamples.
Import ListNotations.
Local Open Scope Z_scope.

(** C41. The segments of a contour form its closed cycle. *)
Theorem C41_segments : forall c,
  length (iter_segments c) = length (c_points c)
  /\ forall i a b, nth_error (iter_segments c) i = Some (a, b) <->
       nth_error (c_points c) i = Some a /\ nth_error (c_points c) (S i mod length (c_points c))%nat = Some b.
Proof. exact segments_cycle. Qed.
Print Assumptions C41_segments.

Example C41_example :
  iter_segments (set_points contour_new [pt 0 0; pt 4 0; pt 4 4])
  = [(pt 0 0, pt 4 0); (pt 4 0, pt 4 4); (pt 4 4, pt 0 0)]
  /\ iter_segments contour_new = [].
Proof. split; vm_compute; reflexivity. Qed.

(** C42. The bounding box of a contour. *)
Theorem C42_bbox : forall c, c_points c <> [] -> (forall p, In p (c_points c) -> no_nan p) ->
  exists left right bottom top,
    In left (c_points c) /\ In right (c_points c) /\ In bottom (c_points c) /\ In top (c_points c)
    /\ (forall p, In p (c_points c) -> in_span (px left) (px right) (px p) /\ in_span (py bottom) (py top) (py p))
    /\ contour_bbox c = mk_rect (px left) (py bottom) (f64_sub (px right) (px left)) (f64_sub (py top) (py bottom)).
Proof. exact contour_bbox_spec. Qed.
Print Assumptions C42_bbox.

Theorem C42_empty : forall c, c_points c = [] -> contour_bbox c = mk_rect f64_zero f64_zero f64_zero f64_zero.
Proof. exact contour_bbox_empty. Qed.
Print Assumptions C42_empty.

Example C42_example :
  contour_bbox (set_points contour_new [pt 3 7; pt (-2) 5; pt 1 9]) = mk_rect (f64_of_Z (-2)) (f64_of_Z 5) (f64_of_Z 5) (f64_of_Z 4).
Proof. vm_compute. reflexivity. Qed.

(** C43. Setting and reversing the orientation. *)
Theorem C43_set_clockwise : forall c, c_points c <> [] -> exists c', set_clockwise c = Ok c'
  /\ clockwise c' = Ok (true, c') /\ (c_points c' = c_points c \/ c_points c' = rev (c_points c)).
Proof. exact set_clockwise_spec. Qed.
Print Assumptions C43_set_clockwise.

Theorem C43_set_counterclockwise : forall c, c_points c <> [] -> exists c', set_counterclockwise c = Ok c'
  /\ clockwise c' = Ok (false, c') /\ (c_points c' = c_points c \/ c_points c' = rev (c_points c)).
Proof. exact set_counterclockwise_spec. Qed.
Print Assumptions C43_set_counterclockwise.

Theorem C43_change : forall c b c1, clockwise c = Ok (b, c1) ->
  c_points (change_orientation c1) = rev (c_points c)
  /\ exists c2, clockwise (change_orientation c1) = Ok (negb b, c2).
Proof. exact change_orientation_spec. Qed.
Print Assumptions C43_change.

Theorem C43_orientation : forall m l zs, Forall2 at_z l zs -> Forall (within m) zs -> l <> [] ->
  Z.of_nat (length l) * (2 * (m * m)) < 2 ^ 53 ->
  orientation_of l = Ok (shoelace zs <? 0).
Proof. exact orientation_int. Qed.
Print Assumptions C43_orientation.

Theorem C43_reversed : forall m l zs, Forall2 at_z l zs -> Forall (within m) zs -> l <> [] ->
  Z.of_nat (length l) * (2 * (m * m)) < 2 ^ 53 -> shoelace zs <> 0 ->
  orientation_of (rev l) = Ok (negb (shoelace zs <? 0)).
Proof. exact orientation_rev. Qed.
Print Assumptions C43_reversed.

Example C43_example :
  orientation_of (c_points (rct 0 0 10 10)) = Ok false
  /\ orientation_of (rev (c_points (rct 0 0 10 10))) = Ok true
  /\ (let* c := set_clockwise (rct 0 0 10 10) in Ok (c_points c)) = Ok (rev (c_points (rct 0 0 10 10))).
Proof. vm_compute. auto. Qed.

(** C44. The cached orientation survives [add]: the full statement is false. *)
Theorem C44_refuted : exists l c, run_ops l contour_new = Ok c
  /\ (exists c', clockwise c = Ok (false, c')) /\ orientation_of (c_points c) = Ok true.
Proof.
  exists [OpAdd (pt 0 0); OpAdd (pt 10 0); OpAdd (pt 0 10); OpClockwise; OpAdd (pt 50 50)].
  eexists. split; [vm_compute; reflexivity|]. split; [eexists|]; vm_compute; reflexivity.
Qed.
Print Assumptions C44_refuted.

(** It holds once the points are fixed, for integer contours. *)
Theorem C44_fixed_points : forall m l pts c c', fixed_history l -> int_contour m pts ->
  c = set_points contour_new pts -> run_ops l c = Ok c' ->
  exists b, clockwise c' = Ok (b, set_cache c' (Some b)) /\ orientation_of (c_points c') = Ok b
    /\ (c_points c' = pts \/ c_points c' = rev pts).
Proof. exact history_reports. Qed.
Print Assumptions C44_fixed_points.

Example C44_hypotheses : int_contour 16 [pt 0 0; pt 10 0; pt 10 10; pt 0 10].
Proof. exact square_int. Qed.
Example C44_example :
  (let* c := run_ops [OpClockwise; OpReverse; OpSetCcw; OpReverse; OpReverse; OpSetCw] (rct 0 0 10 10) in
   let* (b, _) := clockwise c in Ok b) = Ok true.
Proof. vm_compute. reflexivity. Qed.

(** C45. Signed areas of integer triangles are exact. *)
Theorem C45_area : forall a b c za zb zc, at_z a za -> at_z b zb -> at_z c zc ->
  within (2 ^ 24) za -> within (2 ^ 24) zb -> within (2 ^ 24) zc ->
  int_valued (triangle_signed_area a b c) (orient za zb zc)
  /\ int_valued (triangle_signed_area b a c) (- orient za zb zc)
  /\ (f64_gt (triangle_signed_area a b c) f64_zero = true <-> 0 < orient za zb zc)
  /\ (f64_lt (triangle_signed_area a b c) f64_zero = true <-> orient za zb zc < 0)
  /\ (f64_eq (triangle_signed_area a b c) f64_zero = true <-> orient za zb zc = 0).
Proof. exact signed_area_exact. Qed.
Print Assumptions C45_area.

Example C45_hypotheses : at_z (pt (2 ^ 24) 1) (2 ^ 24, 1) /\ within (2 ^ 24) (2 ^ 24, 1).
Proof. split; [apply pt_at; reflexivity|]. split; cbn; lia. Qed.
Example C45_example :
  triangle_signed_area (pt (-16777216) (-16777216)) (pt 16777216 (-16777215)) (pt 16777215 16777216) = f64_of_Z 1125899873288193.
Proof. vm_compute. reflexivity. Qed.

(** C46. Overlap of two spans. *)
Theorem C46_overlap : forall u0 u1 v0 v1, f64_le u0 u1 = true -> f64_le v0 v1 = true ->
  match check_span_overlap u0 u1 v0 v1 with
  | None => forall x, ~ (in_span u0 u1 x /\ in_span v0 v1 x)
  | Some (a, b) => f64_le a b = true /\ forall x, in_span a b x <-> in_span u0 u1 x /\ in_span v0 v1 x
  end.
Proof. exact overlap_spec. Qed.
Print Assumptions C46_overlap.

Example C46_example :
  check_span_overlap (f64_of_Z 0) (f64_of_Z 4) (f64_of_Z 3) (f64_of_Z 9) = Some (f64_of_Z 3, f64_of_Z 4)
  /\ check_span_overlap (f64_of_Z 0) (f64_of_Z 4) (f64_of_Z 4) (f64_of_Z 9) = Some (f64_of_Z 4, f64_of_Z 4)
  /\ check_span_overlap (f64_of_Z 0) (f64_of_Z 4) (f64_of_Z 5) (f64_of_Z 9) = None.
Proof. vm_compute. auto. Qed.

(** C47. [SweepSegment::new] puts the lexicographically smaller point left. *)
Theorem C47_new : forall (T : Type) p0 p1 i o (d : T), no_nan p0 -> no_nan p1 ->
  (sseg_new p0 p1 i o d = Panic PAssert <-> point_eqb p0 p1 = true)
  /\ (point_eqb p0 p1 = false -> exists s, sseg_new p0 p1 i o d = Ok s
      /\ s_index s = i /\ s_order s = o /\ s_data s = d
      /\ lex_before (s_left s) (s_right s)
      /\ (if s_out s then s_left s = p1 /\ s_right s = p0 else s_left s = p0 /\ s_right s = p1)).
Proof. exact sseg_new_spec. Qed.
Print Assumptions C47_new.

Example C47_example :
  sseg_new (pt 3 4) (pt 3 1) 7 2 tt = Ok (mk_sseg (pt 3 1) (pt 3 4) true 7 2 tt)
  /\ sseg_new (pt 3 4) (pt 3 4) 7 2 tt = Panic PAssert.
Proof. vm_compute. auto. Qed.

(** C48. The sorted vector is an ordered set. *)
Theorem C48_insert : forall {A} (P : A -> Prop) cmp c (l : list A) x, lawful P cmp c ->
  Forall P l -> strictly_sorted c l -> P x ->
  exists l', sl_insert cmp l x = Ok l' /\ Forall P l' /\ strictly_sorted c l'
    /\ forall y, In y l' <-> In y l \/ (y = x /\ ~ has c l x).
Proof. exact @lawful_insert. Qed.
Print Assumptions C48_insert.

Theorem C48_remove : forall {A} (P : A -> Prop) cmp c (l : list A) x, lawful P cmp c ->
  Forall P l -> strictly_sorted c l -> P x ->
  exists found l', sl_remove cmp l x = Ok (found, l') /\ Forall P l' /\ strictly_sorted c l'
    /\ (found = true <-> has c l x) /\ forall y, In y l' <-> In y l /\ c y x <> Eq.
Proof. exact @lawful_remove. Qed.
Print Assumptions C48_remove.

Theorem C48_insert_neighbors : forall {A} (P : A -> Prop) cmp c (l : list A) x, lawful P cmp c ->
  Forall P l -> strictly_sorted c l -> P x ->
  exists prev next l', sl_insert_neighbors cmp l x = Ok (prev, next, l') /\ Forall P l' /\ strictly_sorted c l'
    /\ (forall y, In y l' <-> In y l \/ (y = x /\ ~ has c l x))
    /\ predecessor c l x prev /\ successor c l x next.
Proof. exact @lawful_insert_neighbors. Qed.
Print Assumptions C48_insert_neighbors.

Theorem C48_remove_neighbors : forall {A} (P : A -> Prop) cmp c (l : list A) x, lawful P cmp c ->
  Forall P l -> strictly_sorted c l -> P x ->
  exists found prev next l', sl_remove_neighbors cmp l x = Ok (found, prev, next, l') /\ Forall P l' /\ strictly_sorted c l'
    /\ (found = true <-> has c l x) /\ (forall y, In y l' <-> In y l /\ c y x <> Eq)
    /\ predecessor c l x prev /\ successor c l x next.
Proof. exact @lawful_remove_neighbors. Qed.
Print Assumptions C48_remove_neighbors.

Theorem C48_previous : forall {A} (P : A -> Prop) cmp c (l : list A) x, lawful P cmp c ->
  Forall P l -> strictly_sorted c l -> P x ->
  exists r, sl_previous cmp l x = Ok r /\ (has c l x -> predecessor c l x r) /\ (~ has c l x -> r = None).
Proof. exact @lawful_previous. Qed.
Print Assumptions C48_previous.

Theorem C48_history : forall {A} (P : A -> Prop) cmp c (ops : list (set_op A)), lawful P cmp c ->
  Forall (fun o => P (set_arg o)) ops ->
  exists l, ofold (run_set_op cmp) ops [] = Ok l /\ strictly_sorted c l
    /\ forall y, In y l <-> fold_left (set_after c) ops (fun _ => False) y.
Proof. exact @set_history. Qed.
Print Assumptions C48_history.

Example C48_hypotheses : lawful (fun _ => True) (fun a b => Ok (Nat.compare a b)) Nat.compare.
Proof. exact nat_lawful. Qed.
Example C48_example :
  let cmp := fun a b => Ok (Nat.compare a b) in
  ofold (run_set_op cmp) [SInsert 5; SInsert 2; SInsertNeighbors 9; SInsert 5; SRemove 2; SInsert 7; SRemoveNeighbors 8]%nat [] = Ok [5; 7; 9]%nat
  /\ sl_insert_neighbors cmp [2; 5; 9]%nat 6%nat = Ok (Some 5, Some 9, [2; 5; 6; 9])%nat
  /\ sl_remove_neighbors cmp [2; 5; 9]%nat 5%nat = Ok (true, Some 2, Some 9, [2; 9])%nat
  /\ sl_previous cmp [2; 5; 9]%nat 9%nat = Ok (Some 5)%nat /\ sl_previous cmp [2; 5; 9]%nat 6%nat = Ok None.
Proof. vm_compute. repeat split. Qed.

(** C49. The order of events on integer coordinates. *)
Theorem C49_value : forall (T : Type) (a b : endpoint T) la ra lb rb,
  seg_z (fst a) la ra -> seg_z (fst b) lb rb ->
  endpoint_cmp a b = Ok (cmp_then (event_before_z (end_z la ra (snd a)) (end_z lb rb (snd b)) (snd a) (snd b)
                                     (other_z la ra (snd a)) (other_z lb rb (snd b)))
                          (Nat.compare (s_order (fst a)) (s_order (fst b)))).
Proof. exact endpoint_cmp_int. Qed.
Print Assumptions C49_value.

Theorem C49_total_preorder : forall (T : Type),
  lawful (@int_event T) endpoint_cmp (fun a b => match endpoint_cmp a b with Ok c => c | _ => Eq end).
Proof. exact endpoint_lawful. Qed.
Print Assumptions C49_total_preorder.

Example C49_hypotheses : int_event (sg 0 0 4 4 0 0, LeftEnd).
Proof. eexists _, _. apply sg_seg; [reflexivity|split; cbn; lia..]. Qed.
Example C49_example :
  endpoint_cmp (sg 0 0 4 4 0 0, LeftEnd) (sg 0 0 4 3 1 1, LeftEnd) = Ok Gt
  /\ endpoint_cmp (sg 0 0 4 4 0 0, RightEnd) (sg 4 4 5 9 1 1, LeftEnd) = Ok Lt.
Proof. vm_compute. auto. Qed.

(** On arbitrary doubles it is not antisymmetric: both events come after each other. *)
Theorem C49_doubles_refuted : exists (a b : endpoint unit),
  endpoint_cmp a b = Ok Gt /\ endpoint_cmp b a = Ok Gt.
Proof.
  exists (mk_sseg (pt10 9 37) (pt10 14 54) false 0 1 tt, LeftEnd), (mk_sseg (pt10 9 37) (pt10 24 88) false 1 2 tt, LeftEnd).
  vm_compute. auto.
Qed.
Print Assumptions C49_doubles_refuted.

(** C50. The order of segments. *)
Theorem C50_antisymmetric : forall (T : Type) (a b : sseg T), int_seg a -> int_seg b -> s_index a <> s_index b ->
  exists c, segment_cmp a b = Ok c /\ segment_cmp b a = Ok (CompOpp c) /\ (c = Eq -> False).
Proof. exact segment_anti. Qed.
Print Assumptions C50_antisymmetric.

Theorem C50_bottom_to_top : forall (T : Type) (a b : sseg T) la ra lb rb,
  seg_z a la ra -> seg_z b lb rb -> s_index a <> s_index b ->
  below_at (Z.max (fst la) (fst lb)) la ra lb rb -> segment_cmp a b = Ok Lt /\ segment_cmp b a = Ok Gt.
Proof. exact segment_below. Qed.
Print Assumptions C50_bottom_to_top.

Example C50_hypotheses : int_seg (sg 0 0 10 4 0 0) /\ int_seg (sg 3 5 12 2 1 1)
  /\ below_at (Z.max 0 3) (0, 0) (10, 4) (3, 5) (12, 2).
Proof.
  split; [eexists _, _; apply sg_seg; [reflexivity|split; cbn; lia..]|].
  split; [eexists _, _; apply sg_seg; [reflexivity|split; cbn; lia..]|]. unfold below_at. cbn. lia.
Qed.
Example C50_example : segment_cmp (sg 0 0 10 4 0 0) (sg 3 5 12 2 1 1) = Ok Lt /\ segment_cmp (sg 3 5 12 2 1 1) (sg 0 0 10 4 0 0) = Ok Gt.
Proof. vm_compute. auto. Qed.

(** Fractional coordinates, as made by splits, break antisymmetry. *)
Theorem C50_doubles_refuted : exists (a b : sseg unit), s_index a <> s_index b
  /\ lex_before (s_left a) (s_right a) /\ lex_before (s_left b) (s_right b)
  /\ segment_cmp a b = Ok Gt /\ segment_cmp b a = Ok Gt.
Proof.
  exists (mk_sseg (pt 1 0) (mk_point (f64_add f64_one (f64_div f64_one (f64_of_Z 67108864))) f64_zero) false 0 1 tt), (sg 0 4 3 2 1 0).
  split; [discriminate|]. split; [left; vm_compute; reflexivity|]. split; [left; vm_compute; reflexivity|].
  split; vm_compute; reflexivity.
Qed.
Print Assumptions C50_doubles_refuted.

(** Even on integers it is not transitive on arbitrary triples. *)
Theorem C50_transitive_refuted : exists (a b c : sseg unit), int_seg a /\ int_seg b /\ int_seg c
  /\ segment_cmp a b = Ok Lt /\ segment_cmp b c = Ok Lt /\ segment_cmp a c = Ok Gt.
Proof.
  exists (sg 0 0 1 0 0 0), (sg 0 1 1 0 1 1), (sg 2 0 2 1 2 2).
  split; [eexists _, _; apply sg_seg; [reflexivity|split; cbn; lia..]|].
  split; [eexists _, _; apply sg_seg; [reflexivity|split; cbn; lia..]|].
  split; [eexists _, _; apply sg_seg; [reflexivity|split; cbn; lia..]|].
  vm_compute. auto.
Qed.
Print Assumptions C50_transitive_refuted.

(** C58. The event queue is a priority queue. *)
Theorem C58_queue : forall {A} (P : A -> Prop) cmp c (ops : list (queue_op A)), lawful P cmp c ->
  (forall x, In (QPush x) ops -> P x) ->
  exists outs h, run_queue cmp [] ops = Ok (outs, h) /\ queue_trace c [] ops outs h.
Proof. exact @queue_history. Qed.
Print Assumptions C58_queue.

Example C58_example :
  run_queue (fun a b => Ok (Nat.compare a b)) [] [QPush 5; QPush 3; QPush 8; QPop; QPush 1; QPush 4; QPop; QPop; QPop; QPop; QPop]%nat
  = Ok ([Some 3; Some 1; Some 4; Some 5; Some 8; None], [])%nat.
Proof. vm_compute. reflexivity. Qed.
