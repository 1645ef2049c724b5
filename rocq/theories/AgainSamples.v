(** A sample for overlaying the regions of an overlay. *)

From Coq Require Import List ZArith QArith Bool Lia.
From Verif Require Import Base Float Geometry Sweep Contours Compute StdRef SpecShape SpecOrder SpecIntersect SpecTurn SpecTidy SpecOverlay
  ShapeSamples TidySamples OverlaySamples.
From Verif Require Import SpecAgain.
Import ListNotations.
Local Open Scope Z_scope.

(** The rectangle, the square with its holes, and the island. *)
Definition again_z : list corners := map (map (fun j => nth j islands_lines [])) [[4]; [3; 0; 1]; [2]]%nat.
Definition again : input := map (fun z => (map (set_points contour_new) (z_points z), Normal)) again_z.

Lemma again_corners : Forall2 (fun p z => has_corners (fst p) z) again again_z.
Proof. repeat constructor; apply pt_at; reflexivity. Qed.

Lemma islands_roomy : roomy islands_z.
Proof. exists 100. split; [|reflexivity]. repeat constructor; cbn; lia. Qed.

Lemma islands_shown : map c_external (sample_contours islands 56) = [true; false; true; false; true] /\ map c_holes (sample_contours islands 56) = [[1]; [3]; []; []; []]%nat.
Proof. split; vm_compute; reflexivity. Qed.

Lemma nth_map_some : forall A B (f : A -> B) l i a, nth_error l i = Some a -> nth_error (map f l) i = Some (f a).
Proof. intros A B f l i a H. now rewrite nth_error_map, H. Qed.

Lemma islands_outer : forall i, In i [4; 0; 2]%nat <-> outer (sample_contours islands 56) i.
Proof.
  destruct islands_shown as (E & _). intros i. split.
  - intros Hi. assert (Q : nth_error (map c_external (sample_contours islands 56)) i = Some true) by (rewrite E; destruct Hi as [<-|[<-|[<-|[]]]]; reflexivity).
    rewrite nth_error_map in Q. destruct (nth_error (sample_contours islands 56) i) as [c|] eqn:Hc; [|discriminate Q]. exists c. injection Q as Q. auto.
  - intros (c & Hc & Ex). apply (nth_map_some _ _ c_external) in Hc. rewrite E, Ex in Hc.
    destruct i as [|[|[|[|[|i]]]]]; cbn in Hc; try discriminate Hc; cbn; auto. destruct i; discriminate Hc.
Qed.

Lemma islands_holes : forall j c h, nth_error (sample_contours islands 56) j = Some c -> In h (c_holes c) -> (j = 0 /\ h = 1)%nat \/ (j = 1 /\ h = 3)%nat.
Proof.
  destruct islands_shown as (_ & E). intros j c h Hc Hh. apply (nth_map_some _ _ c_holes) in Hc. rewrite E in Hc.
  destruct j as [|[|[|[|[|j]]]]]; cbn [nth_error] in Hc.
  1,2: injection Hc as Q; rewrite <- Q in Hh; destruct Hh as [<-|[]]; auto.
  1,2,3: injection Hc as Q; rewrite <- Q in Hh; destruct Hh.
  destruct j; discriminate Hc.
Qed.
Lemma hole_in : forall j h, (j = 0 /\ h = 1)%nat \/ (j = 1 /\ h = 3)%nat -> exists c, nth_error (sample_contours islands 56) j = Some c /\ In h (c_holes c).
Proof.
  destruct islands_shown as (_ & E). intros j h [(-> & ->)|(-> & ->)].
  - destruct (nth_error (sample_contours islands 56) 0) as [c|] eqn:Hc; [|exfalso; apply (f_equal (@length _)) in E; rewrite map_length in E; apply nth_error_None in Hc; rewrite E in Hc; cbn in Hc; lia].
    exists c. split; [reflexivity|]. apply (nth_map_some _ _ c_holes) in Hc. rewrite E in Hc. injection Hc as <-. now left.
  - destruct (nth_error (sample_contours islands 56) 1) as [c|] eqn:Hc; [|exfalso; apply (f_equal (@length _)) in E; rewrite map_length in E; apply nth_error_None in Hc; rewrite E in Hc; cbn in Hc; lia].
    exists c. split; [reflexivity|]. apply (nth_map_some _ _ c_holes) in Hc. rewrite E in Hc. injection Hc as <-. now left.
Qed.

Lemma again_regions : regions_are (sample_contours islands 56) islands_lines [4; 0; 2]%nat again_z.
Proof.
  assert (R : forall i j, in_region (sample_contours islands 56) i j -> j = i \/ (i = 0 /\ (j = 1 \/ j = 3))%nat \/ (i = 1 /\ j = 3)%nat).
  { intros i j G. induction G as [|j c h G IH Hc Hh]; [now left|]. pose proof (islands_holes j c h Hc Hh). lia. }
  assert (G1 : in_region (sample_contours islands 56) 0 1).
  { destruct (hole_in 0 1) as (c & Hc & Hh); [auto|]. eapply region_hole; [apply region_self|exact Hc|exact Hh]. }
  assert (G3 : in_region (sample_contours islands 56) 0 3).
  { destruct (hole_in 1 3) as (c & Hc & Hh); [auto|]. eapply region_hole; [exact G1|exact Hc|exact Hh]. }
  split; [repeat constructor; cbn; lia|]. split; [exact islands_outer|]. unfold again_z.
  repeat constructor; [exists [4%nat]|exists [3; 0; 1]%nat|exists [2%nat]]; (split; [|reflexivity]).
  all: split; [repeat constructor; cbn; lia|].
  all: intros j; split; [intros Hj; cbn in Hj|intros Hj; apply R in Hj; cbn; lia].
  - destruct Hj as [<-|[]]. apply region_self.
  - destruct Hj as [<-|[<-|[<-|[]]]]; [exact G3|apply region_self|exact G1].
  - destruct Hj as [<-|[]]. apply region_self.
Qed.
