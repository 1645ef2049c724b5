(** Semantics of the nom 4 combinators used by the parsers (trusted reading of
    the library; see DESIGN.md). *)

From Coq Require Import String List ZArith Bool.
From Coq Require Import Strings.Byte.
From Verif Require Import Base.
Import ListNotations.
Local Open Scope Z_scope.

(** nom::ErrorKind, restricted to the codes the modelled parsers can produce.
    [KFuel] is a model artefact (loop fuel exhausted), proved unreachable. *)
Inductive ekind :=
| KTag | KAlt | KMany0 | KCount | KVerify | KMapRes | KComplete | KEof
| KCustom (n : Z)
| KFuel.

(** nom::Context. With the [verbose-errors] feature a context can be a list of
    positions; without it only [Code] exists. *)
Inductive context :=
| CCode (pos : bytes) (k : ekind)
| CList (l : list (bytes * ekind)).

(** nom::IResult<&[u8], A>. *)
Inductive iresult (A : Type) :=
| Done (rest : bytes) (a : A)
| Incomplete (needed : Z)
| NError (c : context)
| NFailure (c : context).
Arguments Done {A} _ _.
Arguments Incomplete {A} _.
Arguments NError {A} _.
Arguments NFailure {A} _.

Definition parser (A : Type) := bytes -> iresult A.

(** Sequencing in [do_parse!]: every non-success is returned unchanged. *)
Definition pbind {A B} (p : parser A) (k : A -> parser B) : parser B :=
  fun i =>
    match p i with
    | Done r a => k a r
    | Incomplete n => Incomplete n
    | NError c => NError c
    | NFailure c => NFailure c
    end.
Definition pret {A} (a : A) : parser A := fun i => Done i a.
Notation "'do' x <- p ;; k" := (pbind p (fun x => k))
  (at level 200, x pattern, p at level 100, k at level 200).

(** [tag!]: compare bytewise; a mismatch is an error, a proper prefix of the
    tag is incomplete. *)
Fixpoint tag_cmp (t i : bytes) : option (option bytes) :=
  match t, i with
  | [], _ => Some (Some i)               (* matched; rest *)
  | _ :: _, [] => None                   (* input exhausted: incomplete *)
  | x :: t', y :: i' => if Byte.eqb x y then tag_cmp t' i' else Some None
  end.
Definition tag (t : bytes) : parser bytes := fun i =>
  match tag_cmp t i with
  | Some (Some r) => Done r t
  | Some None => NError (CCode i KTag)
  | None => Incomplete (zlen t)
  end.

Definition pvalue {A B} (v : B) (p : parser A) : parser B := fun i =>
  match p i with
  | Done r _ => Done r v
  | Incomplete n => Incomplete n
  | NError c => NError c
  | NFailure c => NFailure c
  end.

(** [alt!(a | b)]: only a recoverable error moves on to the next branch. *)
Definition alt2 {A} (p q : parser A) : parser A := fun i =>
  match p i with
  | NError _ =>
      match q i with
      | NError _ => NError (CCode i KAlt)
      | r => r
      end
  | r => r
  end.

(** [error_node_position!]: with verbose errors, append to the list. *)
Definition add_node (verbose : bool) (i : bytes) (k : ekind) (c : context) : context :=
  if verbose then
    match c with
    | CCode p k' => CList [(p, k'); (i, k)]
    | CList l => CList (l ++ [(i, k)])
    end
  else CCode i k.

(** [return_error!(code, p)]: turn an error into a failure. *)
Definition return_error {A} (verbose : bool) (k : ekind) (p : parser A) : parser A :=
  fun i =>
    match p i with
    | Done r a => Done r a
    | Incomplete n => Incomplete n
    | NError c => NFailure (add_node verbose i k c)
    | NFailure c => NFailure (add_node verbose i k c)
    end.

(** [verify!]. *)
Definition verify {A} (p : parser A) (ok : A -> bool) : parser A := fun i =>
  match p i with
  | Done r a => if ok a then Done r a else NError (CCode i KVerify)
  | r => r
  end.

(** [map_res!]; the mapped function fails with [None]. *)
Definition map_res {A B} (p : parser A) (f : A -> option B) : parser B := fun i =>
  match p i with
  | Done r a =>
      match f a with
      | Some b => Done r b
      | None => NError (CCode i KMapRes)
      end
  | Incomplete n => Incomplete n
  | NError c => NError c
  | NFailure c => NFailure c
  end.

(** [take!(n)]. *)
Definition take (n : nat) : parser bytes := fun i =>
  if (length i <? n)%nat then Incomplete (Z.of_nat n)
  else Done (skipn n i) (firstn n i).

(** [complete!]: incomplete becomes an error. *)
Definition complete {A} (p : parser A) : parser A := fun i =>
  match p i with
  | Incomplete _ => NError (CCode i KComplete)
  | r => r
  end.

(** [many0!]: collect until an error; incomplete and failure propagate; a
    success that consumes nothing is an error. *)
Fixpoint many0_loop {A} (fuel : nat) (p : parser A) (i : bytes) (acc : list A)
  : iresult (list A) :=
  match fuel with
  | O => NFailure (CCode i KFuel)
  | S fuel' =>
      match p i with
      | Done r a =>
          if bytes_eqb r i then NError (CCode i KMany0)
          else many0_loop fuel' p r (a :: acc)
      | NError _ => Done i (rev acc)
      | Incomplete n => Incomplete n
      | NFailure c => NFailure c
      end
  end.
Definition many0 {A} (p : parser A) : parser (list A) := fun i =>
  many0_loop (S (length i)) p i [].

(** [count!(p, n)]: exactly [n] repetitions ([n] a usize). *)
Fixpoint count_loop {A} (verbose : bool) (fuel : nat) (p : parser A) (n : Z)
    (start i : bytes) (acc : list A) : iresult (list A) :=
  if n <=? 0 then Done i (rev acc)
  else
    match fuel with
    | O => NFailure (CCode i KFuel)
    | S fuel' =>
        match p i with
        | Done r a => count_loop verbose fuel' p (n - 1) start r (a :: acc)
        | NError c => NError (add_node verbose start KCount c)
        | Incomplete m => Incomplete m
        | NFailure c => NFailure c
        end
    end.
Definition count {A} (verbose : bool) (p : parser A) (n : Z) : parser (list A) := fun i =>
  count_loop verbose (S (length i)) p n i i [].

(** Little-endian numbers: incomplete when short. *)
Definition le_u8 : parser Z := fun i =>
  match i with
  | b :: r => Done r (zb b)
  | _ => Incomplete 1
  end.
Definition le_u16 : parser Z := fun i =>
  match i with
  | b0 :: b1 :: r => Done r (u16_of b0 b1)
  | _ => Incomplete 2
  end.
Definition le_i16 : parser Z := fun i =>
  match i with
  | b0 :: b1 :: r => Done r (i16_of b0 b1)
  | _ => Incomplete 2
  end.
Definition le_u32 : parser Z := fun i =>
  match i with
  | b0 :: b1 :: b2 :: b3 :: r => Done r (u32_of b0 b1 b2 b3)
  | _ => Incomplete 4
  end.
Definition le_i32 : parser Z := fun i =>
  match i with
  | b0 :: b1 :: b2 :: b3 :: r => Done r (i32_of b0 b1 b2 b3)
  | _ => Incomplete 4
  end.

(** Cargo.toml 19-21: nom is built with [verbose-errors]. *)
Definition nom_verbose : bool := true.

(** src/errors.rs 37-73: [nom_to_result]. The printing is only modelled by the
    indexing it performs ([&pos[0]], [&input[0]]), which panics on empty
    slices. *)
Definition nom_to_result {A} (whence : string) (input : bytes) (r : iresult A)
  : outcome A :=
  match r with
  | Done _ a => Ok a
  | Incomplete _ => Err (TruncatedData whence)
  | NError c | NFailure c =>
      match c with
      | CList _ => Err ParseError
      | CCode pos k =>
          let* _ := index_nat pos 0 in
          let* _ := index_nat input 0 in
          match k with
          | KCustom 1 => Err InvalidMagic
          | _ => Err ParseError
          end
      end
  end.

(** src/parse/util.rs 6-29: [fixed_length_ascii]. [fla_scan] is the [for] loop:
    [n] characters left, [i] the input from the current position, [acc] the
    characters already accepted (reversed). *)
Inductive scan_res := ScanStr (s : bytes) | ScanBad (pos : bytes).
Fixpoint fla_scan (n : nat) (i : bytes) (acc : bytes) : scan_res :=
  match n with
  | O => ScanStr (rev acc)
  | S n' =>
      match i with
      | [] => ScanStr (rev acc)       (* not reached: length checked before *)
      | b :: i' =>
          if zb b =? 0 then ScanStr (rev acc)
          else if (32 <=? zb b) && (zb b <=? 126) then fla_scan n' i' (b :: acc)
          else ScanBad i
      end
  end.
Definition fixed_length_ascii (len : nat) : parser bytes := fun input =>
  if (length input <? len)%nat then Incomplete (Z.of_nat len)
  else match fla_scan len input [] with
       | ScanStr s => Done (skipn len input) s
       | ScanBad pos => NError (CCode pos (KCustom 0))
       end.

(** src/parse/util.rs 33-39: [naive_eof]. *)
Definition naive_eof : parser unit := fun i =>
  match i with
  | [] => Done i tt
  | _ => NError (CCode i KEof)
  end.
