(** A reference implementation of the parts of std the shape code uses: a stable
    insertion sort (what [slice::sort] does on up to 20 elements) and a [BTreeSet]
    of one node, searched linearly. *)

From Coq Require Import List ZArith Bool Arith.
From Verif Require Import Base Float Geometry Sweep Contours.
Import ListNotations.

Section Ref.
  Context {A : Type} (cmp : A -> A -> outcome comparison).

  (** Insert before the first element that is not less. *)
  Fixpoint ins (x : A) (l : list A) : outcome (list A) :=
    match l with
    | [] => Ok [x]
    | y :: l' =>
        let* c := cmp y x in
        match c with
        | Lt => let* r := ins x l' in Ok (y :: r)
        | _ => Ok (x :: l)
        end
    end.
  Fixpoint isort (l : list A) : outcome (list A) :=
    match l with
    | [] => Ok []
    | x :: l' => let* r := isort l' in ins x r
    end.

  Fixpoint node_insert (l : list A) (x : A) : outcome (list A) :=
    match l with
    | [] => Ok [x]
    | y :: l' =>
        let* c := cmp x y in
        match c with
        | Gt => let* r := node_insert l' x in Ok (y :: r)
        | Eq => Ok l
        | Lt => Ok (x :: l)
        end
    end.
  Fixpoint node_remove (l : list A) (x : A) : outcome (list A) :=
    match l with
    | [] => Ok []
    | y :: l' =>
        let* c := cmp x y in
        match c with
        | Gt => let* r := node_remove l' x in Ok (y :: r)
        | Eq => Ok l'
        | Lt => Ok l
        end
    end.
  Fixpoint node_last_before (l : list A) (x : A) (acc : option A) : outcome (option A) :=
    match l with
    | [] => Ok acc
    | y :: l' =>
        let* c := cmp x y in
        match c with
        | Gt => node_last_before l' x (Some y)
        | _ => Ok acc
        end
    end.
End Ref.

Definition std_ref : std_impl :=
  mk_std (@isort) (@node_insert) (@node_remove) (fun A cmp l x => @node_last_before A cmp l x None).
