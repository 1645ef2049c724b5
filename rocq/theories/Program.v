(** The program itself, programs/src/idchoppers.rs 22-88: what it reads, prints and
    saves, and its exit status. *)

From Coq Require Import String List ZArith Bool.
From Coq Require Import Strings.Byte.
From Verif Require Import Base ParseWad ArchiveWad Contours Info Chart Flip RouteDraw Demo.
Import ListNotations.
Local Open Scope Z_scope.

(** src/errors.rs 7-10: an error of the library, or one of reading a file. *)
Inductive failure := FIo | FError (e : error).

(** What a command saves: the content of the file as structured data, see Chart.v,
    RouteDraw.v and Demo.v. *)
Inductive saved :=
| SChart (c : chart)
| SRoute (d : route_document)
| SDemo (d : demo_document)
| SFlip (b : bytes).

(** What can be seen of a run. The prints of flip, shapeops and route, and those of
    src/errors.rs 52-76 about a nom error, are not modelled. *)
Inductive effect :=
| EPrint (t : text)               (* do_info *)
| EUnknown                        (* 83: "????" *)
| ESave (file : bytes) (d : saved)
| EError (e : failure)            (* 31-41: "error: ..." *)
| EUsage.                         (* clap's message *)

Inductive result := RDone | RFailed (e : failure) | RPanicked (p : panic).

(** The world outside: the files that can be opened, the standard input, and the file names
    that can be written. Standard input can be read, and a write is complete or fails before
    anything is written. *)
Record world := mk_world {
  file_bytes : bytes -> option bytes;
  stdin_bytes : bytes;
  writable : bytes -> bool
}.

(** src/input_buffer.rs 25-48 and programs/src/idchoppers.rs 70-73. Mapping an empty file
    is an error (memmap 0.6). *)
Definition read_input (o : world) (filename : bytes) : option bytes :=
  if bytes_eqb filename (bs "-") then Some (stdin_bytes o)
  else match file_bytes o filename with
       | Some (b :: l) => Some (b :: l)
       | _ => None
       end.

(** 48-64: the commands declared to clap, with the number of arguments each requires. *)
Definition commands : list (bytes * nat) :=
  [(bs "info", 0%nat); (bs "chart", 1%nat); (bs "shapeops", 0%nat); (bs "route", 1%nat)].
Definition command_arity (c : bytes) : option nat :=
  match find (fun d => bytes_eqb (fst d) c) commands with
  | Some d => Some (snd d)
  | None => None
  end.

(** Argument lists without options: none of them starts with a dash (except the file name
    "-"), and none is clap's own command "help". *)
Definition plain_arg (a : bytes) : bool :=
  negb (bytes_eqb a (bs "help"))
  && match a with b :: _ :: _ => negb (Byte.eqb b x2d) | _ => true end.

(** 45-65: what clap makes of plain arguments: the file and the command with its
    arguments. [None]: they are rejected. The name of a command is never taken as the file. *)
Definition clap (args : list bytes) : option (bytes * option (bytes * list bytes)) :=
  match args with
  | [] => None
  | file :: rest =>
      match command_arity file with
      | Some _ => None
      | None =>
          match rest with
          | [] => Some (file, None)
          | c :: params =>
              match command_arity c with
              | Some n => if (length params =? n)%nat then Some (file, Some (c, params)) else None
              | None => None
              end
          end
      end
  end.

Section Run.
  (** How hash sets are iterated over, sorted and ordered sets, the bound on sweep events,
      and the overflow behaviour; see Info.v, Contours.v, Compute.v and Base.v. *)
  Variable order : list bytes -> list bytes.
  Variable std : std_impl.
  Variable fuel : nat.
  Variable mode : build.

  Definition result_of {A} (o : outcome A) : result :=
    match o with Ok _ => RDone | Err e => RFailed (FError e) | Panic p => RPanicked p end.

  (** Writing a file. A failure is turned into a panic by [unwrap] (206, 211, 726), or
      passed on by [?] (587, 705). *)
  Definition write_file (o : world) (failed : result) (f : bytes) (d : saved) : list effect * result :=
    if writable o f then ([ESave f d], RDone) else ([], failed).
  Definition unwrapped : result := RPanicked PUnwrap.
  Definition passed_on : result := RFailed FIo.

  (** What the command built, if anything, written to a file. *)
  Definition and_write (o : world) (failed : result) (file : option bytes) (built : outcome (option saved))
    : list effect * result :=
    match built with
    | Ok None => ([], RDone)
    | Ok (Some d) =>
        match file with
        | Some f => write_file o failed f d
        | None => ([], RPanicked PUnwrap)
        end
    | Err e => ([], RFailed (FError e))
    | Panic p => ([], RPanicked p)
    end.
  Definition omap_opt {A} (f : A -> saved) (o : outcome (option A)) : outcome (option saved) :=
    let* x := o in
    Ok match x with Some a => Some (f a) | None => None end.

  (** 77-85 *)
  Definition dispatch (o : world) (w : bare_wad) (sub : option (bytes * list bytes)) : list effect * result :=
    match sub with
    | None => ([EUnknown], RDone)
    | Some (c, params) =>
        if bytes_eqb c (bs "info") then
          let '(ts, r) := do_info order w in (map EPrint ts, result_of r)
        else if bytes_eqb c (bs "chart") then and_write o unwrapped (hd_error params) (omap_opt SChart (do_chart mode w))
        else if bytes_eqb c (bs "flip") then
          and_write o passed_on (Some (bs "flipped.wad")) (let* b := do_flip mode w in Ok (Some (SFlip b)))
        else if bytes_eqb c (bs "shapeops") then
          and_write o passed_on (Some (bs "idchoppers-shapeops.svg")) (let* d := do_shapeops std fuel in Ok (Some (SDemo d)))
        else if bytes_eqb c (bs "route") then and_write o unwrapped (hd_error params) (omap_opt SRoute (do_route std fuel mode w))
        else ([EUnknown], RDone)
    end.

  (** 67-88 *)
  Definition run (o : world) (file : bytes) (sub : option (bytes * list bytes)) : list effect * result :=
    match read_input o file with
    | None => ([], RFailed FIo)
    | Some b =>
        match parse_wad b with
        | Ok w => dispatch o w sub
        | Err e => ([], RFailed (FError e))
        | Panic p => ([], RPanicked p)
        end
    end.

  (** 22-29, for plain arguments: what is seen, and the exit status (1 from clap, 101 after
      a panic). *)
  Definition main (o : world) (args : list bytes) : list effect * Z :=
    match clap args with
    | None => ([EUsage], 1)
    | Some (file, sub) =>
        let '(es, r) := run o file sub in
        match r with
        | RDone => (es, 0)
        | RFailed e => (es ++ [EError e], 0)
        | RPanicked _ => (es, 101)
        end
    end.
End Run.
