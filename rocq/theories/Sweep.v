(** src/shapeops.rs 190-407 and 909-985: sweep segments, their orders, and the
    containers used by the sweep. *)

From Coq Require Import List ZArith Bool Arith.
From Verif Require Import Base Float Geometry.
Import ListNotations.

(** src/shapeops.rs 190-194 *)
Inductive seg_end := LeftEnd | RightEnd.
Definition seg_end_eqb (a b : seg_end) : bool :=
  match a, b with LeftEnd, LeftEnd | RightEnd, RightEnd => true | _, _ => false end.

(** src/shapeops.rs 198-206. The payload of [compute] is a [RefCell]; the model
    keeps those packets in a separate store (Compute.v) indexed by [s_index]. Two
    segments of one arena or vector are the same object iff their [index] is the
    same. *)
Record sseg (T : Type) := mk_sseg {
  s_left : point; s_right : point; s_out : bool; s_index : nat; s_order : nat; s_data : T }.
Arguments mk_sseg {T} _ _ _ _ _ _.
Arguments s_left {T} _.
Arguments s_right {T} _.
Arguments s_out {T} _.
Arguments s_index {T} _.
Arguments s_order {T} _.
Arguments s_data {T} _.

(** src/shapeops.rs 209-231: [SweepSegment::new]. *)
Definition sseg_new {T} (p0 p1 : point) (index order : nat) (data : T) : outcome (sseg T) :=
  if point_eqb p0 p1 then Panic PAssert
  else if f64_lt (px p0) (px p1) || (f64_eq (px p0) (px p1) && f64_lt (py p0) (py p1))
  then Ok (mk_sseg p0 p1 false index order data)
  else Ok (mk_sseg p1 p0 true index order data).

(** src/shapeops.rs 233-250 *)
Definition below {T} (s : sseg T) (p : point) : bool :=
  f64_gt (triangle_signed_area (s_left s) (s_right s) p) f64_1em7.
Definition above {T} (s : sseg T) (p : point) : bool := negb (below s p).
Definition vertical {T} (s : sseg T) : bool := f64_eq (px (s_left s)) (px (s_right s)).

(** src/shapeops.rs 340-356: [SweepEndpoint]. *)
Definition endpoint T := (sseg T * seg_end)%type.
Definition ep_point {T} (e : endpoint T) : point :=
  match snd e with LeftEnd => s_left (fst e) | RightEnd => s_right (fst e) end.
Definition ep_other {T} (e : endpoint T) : point :=
  match snd e with LeftEnd => s_right (fst e) | RightEnd => s_left (fst e) end.

(** src/shapeops.rs 370-407: [Ord for SweepEndpoint]. The test for being the same
    object is left out: the callers never compare an endpoint with itself. *)
Definition endpoint_cmp {T} (a b : endpoint T) : outcome comparison :=
  let* cx := fcmp (px (ep_point a)) (px (ep_point b)) in
  let* cy := fcmp (py (ep_point a)) (py (ep_point b)) in
  match cmp_then cx cy with
  | Eq =>
      if seg_end_eqb (snd a) (snd b) then
        let* ca := fcmp (triangle_signed_area (ep_point b) (ep_other b) (ep_other a)) f64_zero in
        Ok (cmp_then ca (Nat.compare (s_order (fst a)) (s_order (fst b))))
      else
        Ok (if seg_end_eqb (snd a) RightEnd then Lt else Gt)
  | c => Ok c
  end.

(** src/shapeops.rs 268-334: [Ord for SweepSegment]. *)
Definition segment_cmp {T} (a b : sseg T) : outcome comparison :=
  if Nat.eqb (s_index a) (s_index b) then Ok Eq
  else if f64_lt (f64_abs (triangle_signed_area (s_left a) (s_right a) (s_left b))) f64_1em7
          && f64_lt (f64_abs (triangle_signed_area (s_left a) (s_right a) (s_right b))) f64_1em7
  then
    match Nat.compare (s_order a) (s_order b) with
    | Eq =>
        match (if point_eqb (s_left a) (s_left b) then Nat.compare (s_index a) (s_index b) else Eq) with
        | Eq => endpoint_cmp (b, LeftEnd) (a, LeftEnd)
        | c => Ok c
        end
    | c => Ok c
    end
  else if point_eqb (s_left a) (s_left b) then
    Ok (if below a (s_right b) then Lt else Gt)
  else
    let* c := endpoint_cmp (a, LeftEnd) (b, LeftEnd) in
    match c with
    | Lt => Ok (if below a (s_left b) then Lt else Gt)
    | _ => Ok (if above b (s_left a) then Lt else Gt)
    end.

(** ** [SweepLine2]: a sorted vector *)

Section SweepLine2.
  Context {A : Type} (cmp : A -> A -> outcome comparison).

  (** The loop of [slice::binary_search] (2018 std). *)
  Fixpoint bs_loop (fuel : nat) (l : list A) (x : A) (base size : nat) : outcome nat :=
    if (size <=? 1)%nat then Ok base
    else
      match fuel with
      | O => Panic PFuel
      | S fuel' =>
          let half := (size / 2)%nat in
          let mid := (base + half)%nat in
          let* e := index_nat l mid in
          let* c := cmp e x in
          bs_loop fuel' l x (match c with Gt => base | _ => mid end) (size - half)
      end.

  (** [Ok(ix)] is [(true, ix)], [Err(ix)] is [(false, ix)]. *)
  Definition binary_search (l : list A) (x : A) : outcome (bool * nat) :=
    match l with
    | [] => Ok (false, O)
    | _ =>
        let* base := bs_loop (length l) l x 0 (length l) in
        let* e := index_nat l base in
        let* c := cmp e x in
        Ok match c with
           | Eq => (true, base)
           | Lt => (false, S base)
           | Gt => (false, base)
           end
    end.

  Definition remove_at (i : nat) (l : list A) : list A := firstn i l ++ skipn (S i) l.
  Definition insert_at (i : nat) (x : A) (l : list A) : list A := firstn i l ++ x :: skipn i l.
  (** [if ix > 0 { Some(v[ix - 1]) } else { None }] *)
  Definition before (l : list A) (ix : nat) : outcome (option A) :=
    match ix with
    | O => Ok None
    | S i => let* e := index_nat l i in Ok (Some e)
    end.

  (** src/shapeops.rs 918-926 *)
  Definition sl_remove (l : list A) (x : A) : outcome (bool * list A) :=
    let* (found, ix) := binary_search l x in
    Ok (if found : bool then (true, remove_at ix l) else (false, l)).

  (** src/shapeops.rs 928-932 *)
  Definition sl_insert (l : list A) (x : A) : outcome (list A) :=
    let* (found, ix) := binary_search l x in
    Ok (if found : bool then l else insert_at ix x l).

  (** src/shapeops.rs 934-951 *)
  Definition sl_remove_neighbors (l : list A) (x : A) : outcome (bool * option A * option A * list A) :=
    let* (found, ix) := binary_search l x in
    let l' := if found : bool then remove_at ix l else l in
    let* prev := before l' ix in
    Ok (found, prev, nth_error l' ix, l').

  (** src/shapeops.rs 953-970 *)
  Definition sl_insert_neighbors (l : list A) (x : A) : outcome (option A * option A * list A) :=
    let* (found, ix) := binary_search l x in
    let l' := if found : bool then l else insert_at ix x l in
    let* prev := before l' ix in
    Ok (prev, nth_error l' (S ix), l').

  (** src/shapeops.rs 972-984 *)
  Definition sl_previous (l : list A) (x : A) : outcome (option A) :=
    let* (found, ix) := binary_search l x in
    if found : bool then before l ix else Ok None.
End SweepLine2.

(** ** [BinaryHeap<Reverse<T>>] (2018 std) *)

Section Heap.
  Context {A : Type} (cmp : A -> A -> outcome comparison).

  Definition set_nth (i : nat) (x : A) (l : list A) : list A := firstn i l ++ x :: skipn (S i) l.

  (** [sift_up(0, pos)]; the hole holds [x]. [hole.element() <= hole.get(parent)]
      on [Reverse]: [parent.0 <= x.0]. *)
  Fixpoint sift_up (fuel : nat) (l : list A) (pos : nat) (x : A) : outcome (list A) :=
    match pos with
    | O => Ok (set_nth O x l)
    | S p =>
        match fuel with
        | O => Panic PFuel
        | S fuel' =>
            let parent := (p / 2)%nat in
            let* y := index_nat l parent in
            let* c := cmp y x in
            match c with
            | Gt => sift_up fuel' (set_nth pos y l) parent x
            | _ => Ok (set_nth pos x l)
            end
        end
    end.

  Definition heap_push (l : list A) (x : A) : outcome (list A) :=
    sift_up (S (length l)) (l ++ [x]) (length l) x.

  (** The loop of [sift_down_to_bottom]: the hole goes to the bottom; returns its
      position. [!(hole.get(child) > hole.get(right))] on [Reverse]:
      [!(right.0 > child.0)]. *)
  Fixpoint sift_down (fuel : nat) (l : list A) (pos : nat) : outcome (list A * nat) :=
    let child := (2 * pos + 1)%nat in
    if (length l <=? child)%nat then Ok (l, pos)
    else
      match fuel with
      | O => Panic PFuel
      | S fuel' =>
          let right := S child in
          let* y := index_nat l child in
          match nth_error l right with
          | None => sift_down fuel' (set_nth pos y l) child
          | Some z =>
              let* c := cmp z y in
              match c with
              | Gt => sift_down fuel' (set_nth pos y l) child
              | _ => sift_down fuel' (set_nth pos z l) right
              end
          end
      end.

  Definition heap_pop (l : list A) : outcome (option (A * list A)) :=
    match rev l with
    | [] => Ok None
    | x :: r =>
        match rev r with
        | [] => Ok (Some (x, []))
        | top :: rest =>
            let* (l', pos) := sift_down (length l) (x :: rest) 0 in
            let* l'' := sift_up (S (length l)) l' pos x in
            Ok (Some (top, l''))
        end
    end.
End Heap.
