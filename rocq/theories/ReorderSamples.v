(** The sample rectangles in another order. *)

From Coq Require Import List ZArith.
From Verif Require Import Base Contours Compute SpecTidy CrossSamples RectSamples SpecRects.
Import ListNotations.
Local Open Scope Z_scope.

(** The pit first, then the room with its pillar before it, then the second room. *)
Definition turned_rects : list (list rect) := map (map at_grid) [[mk_rect 7 (-2) 10 4]; [mk_rect 2 2 6 5; mk_rect 0 0 16 14]; [mk_rect 4 3 20 9]].
Definition turned_input : input := shapes (map (map rect_corners) turned_rects) [RemoveInterior; Normal; Normal].
