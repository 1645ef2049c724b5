(** Two rectangles just too large for their crossing to be found exactly. *)

From Coq Require Import List ZArith Bool Arith Lia SpecFloat.
From Verif Require Import Base BaseFacts Float Geometry Sweep Contours Compute StdRef StdFacts SpecFloat64 SpecShape SpecCompute ShapeSamples ShapeFacts FuelFacts ComputeFacts SortFacts
  OverlaySamples CrossSamples RectangleFacts SpecTidy.
Import ListNotations.
Local Open Scope Z_scope.

(** The largest double below 15. *)
Definition below_15 : f64 := S754_finite false 8444249301319679 (-49).

Lemma below_15_fraction : forall z, ~ int_valued below_15 z.
Proof.
  intros z H. unfold int_valued, below_15 in H. cbn [Z.leb Z.compare] in H. change (2 ^ - -49) with 562949953421312 in H.
  assert (E : 8444249301319679 mod 562949953421312 = 0) by (rewrite H; apply Z.mod_mul; lia). vm_compute in E. discriminate.
Qed.

Definition has_15 (r : polygon) : bool := existsb (fun c => existsb (fun p => float_eqb (py p) below_15) (c_points c)) r.

Lemma rectangles_fraction : exists a b n, int_rectangle a /\ int_rectangle b
  /\ forall std fuel op, std_laws std -> sorts std -> (n <= fuel)%nat ->
     exists r c p, compute std fuel [([a], Normal); ([b], Normal)] op = Ok r /\ In c r /\ In p (c_points c) /\ forall v, ~ at_z p v.
Proof.
  exists (rct 0 0 22 22), (rct (-5) 15 10 15), 100%nat. split; [apply rct_rectangle; reflexivity|]. split; [apply rct_rectangle; reflexivity|].
  intros std fuel op HL HS L. set (polys := [([rct 0 0 22 22], Normal); ([rct (-5) 15 10 15], Normal)]).
  assert (E : compute std fuel polys op = Ok (sample_contours polys 100)).
  { apply (compute_more std 100 fuel); [|discriminate|exact L]. rewrite (compute_ref std) by first [assumption|vm_compute; reflexivity]. rewrite (operation_ignored std_ref _ _ op Union). vm_compute. reflexivity. }
  assert (F : has_15 (sample_contours polys 100) = true) by (vm_compute; reflexivity).
  unfold has_15 in F. apply existsb_exists in F. destruct F as (c & C & F). apply existsb_exists in F. destruct F as (p & P & F). apply float_eqb_ok in F.
  exists (sample_contours polys 100), c, p. split; [exact E|]. split; [exact C|]. split; [exact P|]. intros v (_ & _ & _ & V). rewrite F in V. exact (below_15_fraction _ V).
Qed.
