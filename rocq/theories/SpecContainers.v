(** Specification vocabulary for the containers of the sweep. *)

From Coq Require Import List ZArith Bool Sorting.Permutation.
From Verif Require Import Base Sweep.
Import ListNotations.

(** [cmp] is, on the elements satisfying [P], a comparison function that always
    returns and follows the rules of [Ord] (a total preorder given by [c]). *)
Definition lawful {A} (P : A -> Prop) (cmp : A -> A -> outcome comparison) (c : A -> A -> comparison) : Prop :=
  (forall a b, P a -> P b -> cmp a b = Ok (c a b))
  /\ (forall a b, P a -> P b -> c b a = CompOpp (c a b))
  /\ (forall a b d, P a -> P b -> P d -> c a b <> Gt -> c b d <> Gt -> c a d <> Gt).

(** Every element is strictly before all later ones. *)
Fixpoint strictly_sorted {A} (c : A -> A -> comparison) (l : list A) : Prop :=
  match l with
  | [] => True
  | x :: l' => Forall (fun y => c x y = Lt) l' /\ strictly_sorted c l'
  end.

(** The greatest member before [x], if any. *)
Definition predecessor {A} (c : A -> A -> comparison) (l : list A) (x : A) (r : option A) : Prop :=
  match r with
  | None => forall y, In y l -> c y x <> Lt
  | Some p => In p l /\ c p x = Lt /\ forall y, In y l -> c y x = Lt -> c y p <> Gt
  end.

(** The least member after [x], if any. *)
Definition successor {A} (c : A -> A -> comparison) (l : list A) (x : A) (r : option A) : Prop :=
  match r with
  | None => forall y, In y l -> c y x <> Gt
  | Some p => In p l /\ c p x = Gt /\ forall y, In y l -> c y x = Gt -> c y p <> Lt
  end.

(** Some member compares equal to [x]. *)
Definition has {A} (c : A -> A -> comparison) (l : list A) (x : A) : Prop := exists y, In y l /\ c y x = Eq.

(** ** Histories of the sorted vector *)

Inductive set_op A :=
| SInsert (x : A) | SRemove (x : A) | SInsertNeighbors (x : A) | SRemoveNeighbors (x : A) | SPrevious (x : A).
Arguments SInsert {A} _.
Arguments SRemove {A} _.
Arguments SInsertNeighbors {A} _.
Arguments SRemoveNeighbors {A} _.
Arguments SPrevious {A} _.

Definition set_arg {A} (o : set_op A) : A :=
  match o with SInsert x | SRemove x | SInsertNeighbors x | SRemoveNeighbors x | SPrevious x => x end.

(** What an operation makes of a mathematical set. *)
Definition set_after {A} (c : A -> A -> comparison) (s : A -> Prop) (o : set_op A) : A -> Prop :=
  match o with
  | SInsert x | SInsertNeighbors x => fun y => s y \/ (y = x /\ ~ exists z, s z /\ c z x = Eq)
  | SRemove x | SRemoveNeighbors x => fun y => s y /\ c y x <> Eq
  | SPrevious _ => s
  end.

(** ** Histories of the priority queue *)

Inductive queue_op A := QPush (x : A) | QPop.
Arguments QPush {A} _.
Arguments QPop {A}.

(** Reading from left to right, with the current contents as a bag: each pop
    returns a least element of the bag and removes it. *)
Inductive queue_trace {A} (c : A -> A -> comparison) : list A -> list (queue_op A) -> list (option A) -> list A -> Prop :=
| qt_end : forall bag bag', Permutation bag bag' -> queue_trace c bag [] [] bag'
| qt_push : forall bag x ops outs bag',
    queue_trace c (x :: bag) ops outs bag' -> queue_trace c bag (QPush x :: ops) outs bag'
| qt_empty : forall ops outs bag',
    queue_trace c [] ops outs bag' -> queue_trace c [] (QPop :: ops) (None :: outs) bag'
| qt_pop : forall bag top rest ops outs bag',
    Permutation bag (top :: rest) -> (forall b, In b bag -> c top b <> Gt) ->
    queue_trace c rest ops outs bag' -> queue_trace c bag (QPop :: ops) (Some top :: outs) bag'.

(** ** Running the model's containers through a history *)

Definition run_set_op {A} (cmp : A -> A -> outcome comparison) (l : list A) (o : set_op A) : outcome (list A) :=
  match o with
  | SInsert x => sl_insert cmp l x
  | SRemove x => let* (_, l) := sl_remove cmp l x in Ok l
  | SInsertNeighbors x => let* (_, l) := sl_insert_neighbors cmp l x in Ok l
  | SRemoveNeighbors x => let* (_, l) := sl_remove_neighbors cmp l x in Ok l
  | SPrevious x => let* _ := sl_previous cmp l x in Ok l
  end.

Fixpoint run_queue {A} (cmp : A -> A -> outcome comparison) (h : list A) (ops : list (queue_op A))
  : outcome (list (option A) * list A) :=
  match ops with
  | [] => Ok ([], h)
  | QPush x :: ops => let* h := heap_push cmp h x in run_queue cmp h ops
  | QPop :: ops =>
      let* r := heap_pop cmp h in
      match r with
      | None => let* (outs, h) := run_queue cmp h ops in Ok (None :: outs, h)
      | Some (top, h) => let* (outs, h) := run_queue cmp h ops in Ok (Some top :: outs, h)
      end
  end.
