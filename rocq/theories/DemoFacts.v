(** What the shapeops command draws. *)

From Coq Require Import List ZArith Lia.
From Verif Require Import Base Float SpecFloat64 Geometry Sweep Contours Compute StdRef StdFacts SpecCompute SortFacts FuelFacts Chart SpecChart Demo SpecDemo.
Import ListNotations.
Local Open Scope Z_scope.

Lemma first_any : forall std, compute_holes std demo_first = compute_holes std_ref demo_first.
Proof. intros std. vm_compute. reflexivity. Qed.

Lemma demo_any : forall std fuel, std_laws std -> sorts std -> (1000 <= fuel)%nat -> do_shapeops std fuel = do_shapeops std_ref 1000.
Proof.
  intros std fuel L S F. unfold do_shapeops. rewrite first_any. destruct (compute_holes std_ref demo_first) as [first|e|p] eqn:E; [|reflexivity..]. cbn [obind].
  assert (Q : pieces_orderedb 1000 [(first, Normal); (demo_second, Normal); (demo_third, Normal)] = true /\ exists r, compute std_ref 1000 [(first, Normal); (demo_second, Normal); (demo_third, Normal)] Union = Ok r).
  { vm_compute in E. injection E as <-. split; [vm_compute; reflexivity|]. eexists. vm_compute. reflexivity. }
  destruct Q as (Q & r & R). pose proof (compute_same std std_ref 1000 _ Union L std_ref_laws S std_ref_sorts (pieces_orderedb_iff _ _ Q)) as C.
  rewrite R in C. rewrite (compute_more std 1000 fuel _ Union (Ok r) C) by (auto; discriminate). rewrite R. reflexivity.
Qed.

Lemma demo_drawn : forall std fuel, std_laws std -> sorts std -> (1000 <= fuel)%nat ->
  exists d, do_shapeops std fuel = Ok d
    /\ Forall2 (fun s i => square_path (fst s) (snd s) (di_d i) /\ int_valued (di_x i) (fst s + 8) /\ int_valued (di_y i) (snd s - 8)) demo_squares (dd_items d)
    /\ map di_number (dd_items d) = [0; 1; 2; 3]%nat
    /\ view_is int_valued (dd_view d) (-16, -80, 96, 96).
Proof.
  intros std fuel L S F. rewrite (demo_any std fuel L S F). eexists. split; [vm_compute; reflexivity|]. split.
  - cbn [dd_items]. unfold demo_squares.
    repeat (constructor; [cbn [fst snd di_d di_x di_y]; split; [do 5 eexists; split; [|split; [|split; [|split; [|split; [reflexivity|reflexivity]]]]]; vm_compute; reflexivity|split; vm_compute; reflexivity]|]). constructor.
  - split; [reflexivity|]. vm_compute. auto.
Qed.
