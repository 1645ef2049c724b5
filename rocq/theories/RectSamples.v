(** A sample: a room with a pillar, a second room, and a pit. *)

From Coq Require Import List ZArith QArith Bool Arith Lia.
From Verif Require Import Base Float Geometry Sweep Contours Compute SpecShape SpecTidy StdRef SpecOverlay OverlaySamples CrossSamples SpecCross SpecGrid SpecRects.
Import ListNotations.
Local Open Scope Z_scope.

Definition at_grid (r : rect) : rect := mk_rect (64 * r_left r) (64 * r_bottom r) (64 * r_right r) (64 * r_top r).
Definition sample_rects : list (list rect) :=
  map (map at_grid) [[mk_rect 0 0 16 14; mk_rect 2 2 6 5]; [mk_rect 4 3 20 9]; [mk_rect 7 (-2) 10 4]].
Definition rect_input : input := shapes (map (map rect_corners) sample_rects) [Normal; Normal; RemoveInterior].

Lemma sample_spread : spread_out 6 sample_rects.
Proof.
  assert (D : forall l : list Z, (fix no (l : list Z) := match l with [] => true | a :: t => negb (existsb (Z.eqb a) t) && no t end) l = true -> NoDup l).
  { induction l as [|a l IH]; intros H; [constructor|]. apply andb_true_iff in H. destruct H as [H1 H2]. constructor; [|now apply IH]. intros I. apply negb_true_iff in H1.
    assert (existsb (Z.eqb a) l = true) by (apply existsb_exists; exists a; split; [exact I|apply Z.eqb_refl]). congruence. }
  constructor.
  - lia.
  - intros r [<-|[<-|[<-|[<-|[]]]]]; split; eexists; eexists; (split; [reflexivity|]); cbn; lia.
  - intros r [<-|[<-|[<-|[<-|[]]]]]; cbn; lia.
  - intros r [<-|[<-|[<-|[<-|[]]]]]; cbn; lia.
  - apply D. reflexivity.
  - apply D. reflexivity.
Qed.
Lemma sample_input : Forall2 (fun p l => has_points (fst p) (map rect_corners l)) rect_input sample_rects /\ map snd rect_input = [Normal; Normal; RemoveInterior].
Proof.
  destruct (shapes_points (map (map rect_corners) sample_rects) [Normal; Normal; RemoveInterior] eq_refl) as [A B]. split; [|exact B].
  fold rect_input in A. repeat constructor.
Qed.
Definition rect_contours : corners :=
  map (map (fun v => (64 * fst v, 64 * snd v)))
  [[(0, 0); (7, 0); (7, 3); (6, 3); (6, 2); (2, 2); (2, 5); (4, 5); (4, 9); (16, 9); (16, 14); (0, 14)]; [(4, 3); (6, 3); (6, 5); (4, 5)];
   [(4, 5); (6, 5); (6, 3); (7, 3); (7, 4); (10, 4); (10, 3); (16, 3); (16, 9); (4, 9)]; [(10, 0); (16, 0); (16, 3); (10, 3)]; [(16, 3); (20, 3); (20, 9); (16, 9)]].
Lemma rect_result : compute std_ref 1008 rect_input Union = Ok (sample_contours rect_input 1008) /\ has_corners (sample_contours rect_input 1008) rect_contours.
Proof. split; [vm_compute; reflexivity|]. apply z_points_at; [vm_compute; reflexivity|reflexivity]. Qed.
