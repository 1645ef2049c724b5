(** A sample: two rooms that overlap. *)

From Coq Require Import List ZArith QArith Bool Arith Lia.
From Verif Require Import Base Float Geometry Sweep Contours Compute SpecShape SpecTidy StdRef SpecOverlay OverlaySamples CrossSamples SpecCross SpecGrid SpecRects
  RectSamples GridRects PartsArea SpecParts.
Import ListNotations.
Local Open Scope Z_scope.

Definition rooms : list rect := map at_grid [mk_rect 0 0 16 14; mk_rect 4 3 20 9].
Definition rooms_input (modes : list polygon_mode) : input := shapes (map (fun q => [rect_corners q]) rooms) modes.
Definition rooms_result (modes : list polygon_mode) : polygon := sample_contours (rooms_input modes) 504.
Definition rooms_corners : corners :=
  map (map (fun v => (64 * fst v, 64 * snd v)))
  [[(0, 0); (16, 0); (16, 3); (4, 3); (4, 9); (16, 9); (16, 14); (0, 14)]; [(4, 3); (16, 3); (16, 9); (4, 9)]; [(16, 3); (20, 3); (20, 9); (16, 9)]].

Lemma rooms_spread : spread_out 6 (map (fun q => [q]) rooms).
Proof.
  assert (D : forall l : list Z, (fix no (l : list Z) := match l with [] => true | a :: t => negb (existsb (Z.eqb a) t) && no t end) l = true -> NoDup l).
  { induction l as [|a l IH]; intros H; [constructor|]. apply andb_true_iff in H. destruct H as [H1 H2]. constructor; [|now apply IH]. intros I. apply negb_true_iff in H1.
    assert (existsb (Z.eqb a) l = true) by (apply existsb_exists; exists a; split; [exact I|apply Z.eqb_refl]). congruence. }
  constructor.
  - lia.
  - intros r [<-|[<-|[]]]; split; eexists; eexists; (split; [reflexivity|]); cbn; lia.
  - intros r [<-|[<-|[]]]; cbn; lia.
  - intros r [<-|[<-|[]]]; cbn; lia.
  - apply D. reflexivity.
  - apply D. reflexivity.
Qed.
Lemma rooms_points : forall m, Forall2 (fun p q => has_points (fst p) [rect_corners q]) (rooms_input [Normal; m]) rooms /\ map snd (rooms_input [Normal; m]) = [Normal; m].
Proof.
  intros m. destruct (shapes_points (map (fun q => [rect_corners q]) rooms) [Normal; m] eq_refl) as [A B]. split; [|exact B]. repeat constructor.
Qed.
Lemma rooms_done : compute std_ref 504 (rooms_input [Normal; Normal]) Union = Ok (rooms_result [Normal; Normal]) /\ has_corners (rooms_result [Normal; Normal]) rooms_corners.
Proof. split; [vm_compute; reflexivity|]. apply z_points_at; [vm_compute; reflexivity|reflexivity]. Qed.
Lemma rooms_less : compute std_ref 504 (rooms_input [Normal; RemoveInterior]) Union = Ok (rooms_result [Normal; RemoveInterior])
  /\ has_corners (rooms_result [Normal; RemoveInterior]) (firstn 1 rooms_corners).
Proof. split; [vm_compute; reflexivity|]. apply z_points_at; [vm_compute; reflexivity|reflexivity]. Qed.

Lemma rooms_crossable : exists ms, plain ms = map (fun q => [rect_corners q]) rooms /\ (3 * length (edges (marked ms)) <= 504)%nat
  /\ (forall m, m <> RemoveEdges -> crossable (rooms_input [Normal; m]) ms) /\ forall z, In z (plain ms) -> once_round 1 z.
Proof.
  destruct (rects_crossable 6 (map (fun q => [q]) rooms) (rooms_input [Normal; Normal]) rooms_spread) as (ms & P & X & B).
  - pose proof (proj1 (rooms_points Normal)) as F. revert F. generalize (rooms_input [Normal; Normal]) rooms. intros p l F. induction F; constructor; assumption.
  - rewrite (proj2 (rooms_points Normal)). intros [H|[H|[]]]; discriminate.
  - rewrite map_map in P. exists ms. split; [exact P|]. split; [cbn in B; lia|]. split.
    + intros m N. destruct X as (_ & W & C & _). split; [|split; [exact W|split; [exact C|]]].
      * rewrite P. repeat constructor.
      * rewrite (proj2 (rooms_points m)). intros e _ E. exfalso. destruct (e_poly e) as [|[|[|k]]]; cbn in E; congruence.
    + intros z I. rewrite P in I. cbn [map rooms] in I. destruct I as [<-|[<-|[]]]; apply rect_once; cbn; lia.
Qed.
