(** C107-C110: the program. *)

From Coq Require Import String List ZArith.
From Verif Require Import SpecBytes SpecWad Base ParseWad Contours StdRef Info Chart RouteDraw Flip Samples Program SpecProgram ProgramFacts.
Import ListNotations.
Local Open Scope Z_scope.

(** C107. What every call prints, saves and returns. *)
Theorem C107_calls : forall order std fuel mode o args c es z, called args c ->
  (main order std fuel mode o args = (es, z) <-> program_run order std fuel mode o c es z).
Proof. exact main_run. Qed.
Print Assumptions C107_calls.

Theorem C107_usage : forall order std fuel mode o args, (forall c, ~ called args c) ->
  main order std fuel mode o args = ([EUsage], 1).
Proof. exact main_usage. Qed.
Print Assumptions C107_usage.

Theorem C107_saves : forall order std fuel mode o args es z f d, main order std fuel mode o args = (es, z) -> In (ESave f d) es ->
  es = [ESave f d] /\ z = 0 /\ writable o f = true /\ exists c, called args c /\ call_writes c f.
Proof. exact main_saves. Qed.
Print Assumptions C107_saves.

Example C107_example :
  match main (@rev _) std_ref 100 Checked (one_file (bs "a.wad") (buffer full_wad) (bs "b.svg")) [bs "a.wad"; bs "chart"; bs "b.svg"] with
  | ([ESave f (SChart (ChartDoom d))], z) => Some (f, length (d_shapes d), z)
  | _ => None
  end = Some (bs "b.svg", 6%nat, 0)
  /\ called [bs "a.wad"; bs "chart"; bs "b.svg"] (CChart (bs "a.wad") (bs "b.svg"))
  /\ main (@rev _) std_ref 100 Checked (one_file (bs "a.wad") (buffer full_wad) (bs "b.svg")) [bs "b.wad"; bs "chart"; bs "b.svg"] = ([EError FIo], 0)
  /\ main (@rev _) std_ref 100 Checked (one_file (bs "a.wad") [] (bs "b.svg")) [bs "a.wad"] = ([EError FIo], 0)
  /\ main (@rev _) std_ref 100 Checked (mk_world (fun _ => None) (buffer full_wad) (fun _ => false)) [bs "-"] = ([EUnknown], 0)
  /\ main (@rev _) std_ref 100 Checked (one_file (bs "info") (buffer full_wad) (bs "b.svg")) [bs "info"; bs "info"] = ([EUsage], 1).
Proof.
  repeat match goal with |- _ /\ _ => split end; try (vm_compute; reflexivity).
  split; [reflexivity|]. apply arity_none. reflexivity.
Qed.

(** C108, false: an error that is reported shows in the exit status. *)
Theorem C108_refuted : exists o args es e, forall order std fuel mode,
  main order std fuel mode o args = (es, 0) /\ In (EError e) es.
Proof. exact status_zero. Qed.
Print Assumptions C108_refuted.

Theorem C108_always : forall order std fuel mode o args es z e, main order std fuel mode o args = (es, z) -> In (EError e) es -> z = 0.
Proof. exact main_error. Qed.
Print Assumptions C108_always.

(** C109, false: flip writes the flipped WAD. *)
Theorem C109_refuted : exists o f d w b, input o f d /\ wad_layout d w /\ do_flip Checked w = Ok b /\ writable o (bs "flipped.wad") = true
  /\ forall order std fuel mode params, main order std fuel mode o (f :: bs "flip" :: params) = ([EUsage], 1).
Proof. exact flip_lost. Qed.
Print Assumptions C109_refuted.

Theorem C109_always : forall order std fuel mode o args f b, ~ In (ESave f (SFlip b)) (fst (main order std fuel mode o args)).
Proof. exact never_flips. Qed.
Print Assumptions C109_always.

(** C110, false: that the output cannot be written is reported as an error. *)
Theorem C110_refuted : exists o f out d w x, input o f d /\ wad_layout d w /\ do_chart Checked w = Ok (Some x)
  /\ writable o out = false
  /\ forall order std fuel, main order std fuel Checked o [f; bs "chart"; out] = ([], 101).
Proof. exact unwritable_unreported. Qed.
Print Assumptions C110_refuted.

Theorem C110_always : forall order std fuel mode o c f out d w, c = CChart f out \/ c = CRoute f out ->
  ~ In f command_names -> input o f d -> wad_layout d w -> writable o out = false ->
  (c = CChart f out -> exists x, do_chart mode w = Ok (Some x)) ->
  (c = CRoute f out -> exists x, do_route std fuel mode w = Ok (Some x)) ->
  main order std fuel mode o (call_words c) = ([], 101).
Proof. exact unwritable_panics. Qed.
Print Assumptions C110_always.

Example C110_example : let o := one_file (bs "a.wad") (buffer full_wad) (bs "b.svg") in
  input o (bs "a.wad") (buffer full_wad) /\ wad_layout (buffer full_wad) full_wad /\ writable o (bs "c.svg") = false
  /\ main (@rev _) std_ref 1000 Checked o [bs "a.wad"; bs "shapeops"] = ([EError FIo], 0).
Proof.
  cbv zeta. repeat match goal with |- _ /\ _ => split end; [apply read_input_iff|apply (WadFacts.parse_wad_ok_iff true)|..]; vm_compute; reflexivity.
Qed.
