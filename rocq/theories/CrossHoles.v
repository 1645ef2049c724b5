(** A sample of crossing polygons with a hole. *)

From Coq Require Import List ZArith QArith Bool Lia.
From Verif Require Import Base Float Geometry Sweep Contours Compute StdRef SpecShape SpecOrder SpecIntersect SpecTidy SpecOverlay
  ShapeSamples TidySamples OverlaySamples AgainSamples CrossSamples SpecAgain SpecCross.
Import ListNotations.
Local Open Scope Z_scope.

(** A square, two squares that cross and are cut out of it, and one that crosses its corner. *)
Definition holed_marks : list (list (list mark)) :=
  [[[((0, 0), []); ((20, 0), [(20, 15)]); ((20, 20), [(15, 20)]); ((0, 20), [])]];
   [[((4, 4), []); ((10, 4), [(10, 7)]); ((10, 10), [(7, 10)]); ((4, 10), [])]];
   [[((7, 7), [(10, 7)]); ((13, 7), []); ((13, 13), []); ((7, 13), [(7, 10)])]];
   [[((15, 15), [(20, 15)]); ((25, 15), []); ((25, 25), []); ((15, 25), [(15, 20)])]]].
Definition holed : input := shapes (plain holed_marks) [Normal; RemoveInterior; RemoveInterior; Normal].
Definition holed_lines : corners :=
  [[(0, 0); (20, 0); (20, 15); (15, 15); (15, 20); (0, 20)]; [(4, 4); (4, 10); (7, 10); (7, 13); (13, 13); (13, 7); (10, 7); (10, 4)];
   [(15, 15); (20, 15); (20, 20); (15, 20)]; [(15, 20); (20, 20); (20, 15); (25, 15); (25, 25); (15, 25)]].

Lemma holed_crossable : crossable holed holed_marks.
Proof.
  split; [apply shapes_points; reflexivity|]. split; [apply cut_wellb_ok; vm_compute; reflexivity|]. split; [apply (compactb_ok 100); reflexivity|].
  apply plain_covered. cbn. intros [H|[H|[H|[H|[]]]]]; discriminate.
Qed.
Lemma holed_result : compute std_ref 72 holed Union = Ok (sample_contours holed 72) /\ has_corners (sample_contours holed 72) holed_lines.
Proof. split; [vm_compute; reflexivity|]. apply z_points_at; [vm_compute; reflexivity|reflexivity]. Qed.
Lemma holed_roomy : roomy (marked holed_marks).
Proof. exists 100. split; [|reflexivity]. repeat constructor; cbn; lia. Qed.

(** The corner outside, the square with its hole, and the corner they share. *)
Definition holed_regions : list corners := map (map (fun j => nth j holed_lines [])) [[3]; [1; 0]; [2]]%nat.
Definition holed_again : input := map (fun z => (map (set_points contour_new) (z_points z), Normal)) holed_regions.
Lemma holed_again_corners : Forall2 (fun p z => has_corners (fst p) z) holed_again holed_regions.
Proof. repeat constructor; apply pt_at; reflexivity. Qed.

Lemma holed_shown : map (fun c => (c_external c, c_holes c)) (sample_contours holed 72) = [(true, [1%nat]); (false, []); (true, []); (true, [])].
Proof. vm_compute. reflexivity. Qed.
Lemma holed_at : forall i c, nth_error (sample_contours holed 72) i = Some c -> nth_error [(true, [1%nat]); (false, []); (true, []); (true, [])] i = Some (c_external c, c_holes c).
Proof. intros i c H. rewrite <- holed_shown. now apply (nth_map_some _ _ (fun c => (c_external c, c_holes c))). Qed.
Lemma holed_has : forall i v, nth_error [(true, [1%nat]); (false, []); (true, []); (true, [])] i = Some v -> exists c, nth_error (sample_contours holed 72) i = Some c /\ (c_external c, c_holes c) = v.
Proof.
  intros i v H. rewrite <- holed_shown, nth_error_map in H. destruct (nth_error (sample_contours holed 72) i) as [c|]; [|discriminate]. exists c. split; [reflexivity|]. now injection H.
Qed.

Lemma holed_outs : regions_are (sample_contours holed 72) holed_lines [3; 0; 2]%nat holed_regions.
Proof.
  assert (R : forall i j, in_region (sample_contours holed 72) i j -> j = i \/ (i = 0 /\ j = 1)%nat).
  { intros i j G. induction G as [|j c h G IH Hc Hh]; [now left|]. apply holed_at in Hc. destruct j as [|[|[|[|j]]]]; cbn [nth_error] in Hc; try (destruct j; discriminate); injection Hc as _ E; rewrite <- E in Hh; cbn in Hh; lia. }
  assert (G1 : in_region (sample_contours holed 72) 0 1).
  { destruct (holed_has 0 (true, [1%nat]) eq_refl) as (c & Hc & Hv). injection Hv as _ Hv. eapply region_hole; [apply region_self|exact Hc|]. rewrite Hv. now left. }
  split; [repeat constructor; cbn; lia|]. split.
  - intros i. split.
    + intros Hi. assert (X : exists l, nth_error [(true, [1%nat]); (false, []); (true, []); (true, [])] i = Some (true, l)) by (destruct Hi as [<-|[<-|[<-|[]]]]; eexists; reflexivity).
      destruct X as (l & X). destruct (holed_has i _ X) as (c & Hc & Hv). exists c. split; [exact Hc|]. now injection Hv.
    + intros (c & Hc & Ex). apply holed_at in Hc. rewrite Ex in Hc. destruct i as [|[|[|[|i]]]]; cbn in Hc; try discriminate; cbn; auto. destruct i; discriminate.
  - unfold holed_regions. repeat constructor.
    + exists [3%nat]. split; [|reflexivity]. split; [repeat constructor; cbn; tauto|]. intros j. split; [intros [<-|[]]; apply region_self|intros H; apply R in H; cbn; lia].
    + exists [1; 0]%nat. split; [|reflexivity]. split; [repeat constructor; cbn; lia|]. intros j. split; [intros [<-|[<-|[]]]; [exact G1|apply region_self]|intros H; apply R in H; cbn; lia].
    + exists [2%nat]. split; [|reflexivity]. split; [repeat constructor; cbn; tauto|]. intros j. split; [intros [<-|[]]; apply region_self|intros H; apply R in H; cbn; lia].
Qed.
