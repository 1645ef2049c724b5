(** C105: the shapeops command. *)

From Coq Require Import List ZArith.
From Verif Require Import Base Float SpecFloat64 Contours Compute StdRef StdFacts SpecCompute SortFacts Chart SpecChart Demo SpecDemo DemoFacts.
Import ListNotations.
Local Open Scope Z_scope.

(** C105. The command draws the four quarters of a square, once each and numbered. *)
Theorem C105_quarters : forall std fuel, std_laws std -> sorts std -> (1000 <= fuel)%nat ->
  exists d, do_shapeops std fuel = Ok d
    /\ Forall2 (fun s i => square_path (fst s) (snd s) (di_d i) /\ int_valued (di_x i) (fst s + 8) /\ int_valued (di_y i) (snd s - 8)) demo_squares (dd_items d)
    /\ map di_number (dd_items d) = [0; 1; 2; 3]%nat
    /\ view_is int_valued (dd_view d) (-16, -80, 96, 96).
Proof. exact demo_drawn. Qed.
Print Assumptions C105_quarters.

Example C105_example : std_laws std_ref /\ sorts std_ref
  /\ match do_shapeops std_ref 1000 with
     | Ok d => nth_error (dd_items d) 3 = Some (mk_demo_item
         [MoveTo (f64_of_Z 32) (f64_of_Z (-64)); LineTo (f64_of_Z 32) (f64_of_Z (-32)); LineTo (f64_of_Z 64) (f64_of_Z (-32));
          LineTo (f64_of_Z 64) (f64_of_Z (-64)); LineTo (f64_of_Z 32) (f64_of_Z (-64))] 3 (f64_of_Z 40) (f64_of_Z (-40)))
     | _ => False
     end.
Proof. split; [exact std_ref_laws|]. split; [exact std_ref_sorts|]. vm_compute. reflexivity. Qed.
