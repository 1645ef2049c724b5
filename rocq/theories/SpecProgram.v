(** Specification vocabulary for the program. *)

From Coq Require Import String List ZArith.
From Coq Require Import Strings.Byte.
From Verif Require Import SpecBytes SpecWad Base ParseWad Contours Info Chart RouteDraw Demo Flip Program.
Import ListNotations.
Local Open Scope Z_scope.

(** [d] is what is read under the file name [f]. *)
Inductive input (o : world) : bytes -> bytes -> Prop :=
| in_stdin : input o (bs "-") (stdin_bytes o)
| in_file : forall f d, f <> bs "-" -> file_bytes o f = Some d -> d <> [] -> input o f d.

(** The ways to call the program. *)
Inductive call :=
| CBare (f : bytes)
| CInfo (f : bytes)
| CChart (f out : bytes)
| CShapeops (f : bytes)
| CRoute (f out : bytes).
Definition call_words (c : call) : list bytes :=
  match c with
  | CBare f => [f]
  | CInfo f => [f; bs "info"]
  | CChart f out => [f; bs "chart"; out]
  | CShapeops f => [f; bs "shapeops"]
  | CRoute f out => [f; bs "route"; out]
  end.
Definition call_file (c : call) : bytes :=
  match c with CBare f | CInfo f | CChart f _ | CShapeops f | CRoute f _ => f end.
Definition command_names : list bytes := [bs "info"; bs "chart"; bs "shapeops"; bs "route"].
Definition called (args : list bytes) (c : call) : Prop :=
  args = call_words c /\ ~ In (call_file c) command_names.

(** The file a call may write. *)
Definition call_writes (c : call) (f : bytes) : Prop :=
  match c with
  | CBare _ | CInfo _ => False
  | CChart _ out | CRoute _ out => f = out
  | CShapeops _ => f = bs "idchoppers-shapeops.svg"
  end.

(** What is seen of a part that ended, and the exit status. *)
Inductive ended {A} : outcome A -> list effect -> Z -> Prop :=
| en_error : forall e, ended (Err e) [EError (FError e)] 0
| en_panic : forall p, ended (Panic p) [] 101.

Section Runs.
  Variable order : list bytes -> list bytes.
  Variable std : std_impl.
  Variable fuel : nat.
  Variable mode : build.

  (** What is seen once the WAD [w] is read, and the exit status. *)
  Inductive command_run (o : world) (w : bare_wad) : call -> list effect -> Z -> Prop :=
  | cr_bare : forall f, command_run o w (CBare f) [EUnknown] 0
  | cr_info : forall f ts, do_info order w = (ts, Ok tt) -> command_run o w (CInfo f) (map EPrint ts) 0
  | cr_info_ended : forall f ts r es z, do_info order w = (ts, r) -> ended r es z ->
      command_run o w (CInfo f) (map EPrint ts ++ es) z
  | cr_no_chart : forall f out, do_chart mode w = Ok None -> command_run o w (CChart f out) [] 0
  | cr_chart : forall f out c, do_chart mode w = Ok (Some c) -> writable o out = true ->
      command_run o w (CChart f out) [ESave out (SChart c)] 0
  | cr_chart_unwritable : forall f out c, do_chart mode w = Ok (Some c) -> writable o out = false ->
      command_run o w (CChart f out) [] 101
  | cr_chart_ended : forall f out es z, ended (do_chart mode w) es z -> command_run o w (CChart f out) es z
  | cr_no_route : forall f out, do_route std fuel mode w = Ok None -> command_run o w (CRoute f out) [] 0
  | cr_route : forall f out c, do_route std fuel mode w = Ok (Some c) -> writable o out = true ->
      command_run o w (CRoute f out) [ESave out (SRoute c)] 0
  | cr_route_unwritable : forall f out c, do_route std fuel mode w = Ok (Some c) -> writable o out = false ->
      command_run o w (CRoute f out) [] 101
  | cr_route_ended : forall f out es z, ended (do_route std fuel mode w) es z -> command_run o w (CRoute f out) es z
  | cr_shapeops : forall f d, do_shapeops std fuel = Ok d -> writable o (bs "idchoppers-shapeops.svg") = true ->
      command_run o w (CShapeops f) [ESave (bs "idchoppers-shapeops.svg") (SDemo d)] 0
  | cr_shapeops_unwritable : forall f d, do_shapeops std fuel = Ok d -> writable o (bs "idchoppers-shapeops.svg") = false ->
      command_run o w (CShapeops f) [EError FIo] 0
  | cr_shapeops_ended : forall f es z, ended (do_shapeops std fuel) es z -> command_run o w (CShapeops f) es z.

  (** What is seen of a call, and the exit status. *)
  Inductive program_run (o : world) (c : call) : list effect -> Z -> Prop :=
  | pr_unreadable : (forall d, ~ input o (call_file c) d) -> program_run o c [EError FIo] 0
  | pr_invalid : forall d e, input o (call_file c) d -> (forall w, ~ wad_layout d w) -> parse_wad d = Err e ->
      program_run o c [EError (FError e)] 0
  | pr_command : forall d w es z, input o (call_file c) d -> wad_layout d w -> command_run o w c es z ->
      program_run o c es z.
End Runs.
