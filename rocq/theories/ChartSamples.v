(** Concrete maps for the examples about the chart command. *)

From Coq Require Import String List ZArith Lia.
From Verif Require Import Base BaseFacts ParseWad ArchiveWad ParseMap SpecLumps MapModel FlipFacts SectorPolys SpecSector Actors Chart SpecChart Samples.
Import ListNotations.
Local Open Scope Z_scope.

Lemma room_valid : map_valid room_map.
Proof.
  apply (parsed_map_valid full_wad (nth 0 (iter_maps full_wad) (new_block (MAPxx 1) 0))). vm_compute. reflexivity.
Qed.

Lemma room_refs : small_map room_map /\ chart_refs room_map.
Proof.
  split; [unfold small_map; cbn; lia|].
  unfold chart_refs, has_item. cbn [room_map m_lines m_vertices m_sides m_sectors room_lines In]. split; [|split].
  - intros l [<-|[<-|[<-|[<-|[]]]]]; cbn; lia.
  - intros l [<-|[<-|[<-|[<-|[]]]]]; cbn; lia.
  - intros _ l id [<-|[<-|[<-|[<-|[]]]]]; cbn; lia.
Qed.

(** A triangular room with an imp and a special line. *)
Definition triangle_map : binary_map hexen_line hexen_thing :=
  mk_bmap [mk_vertex 0 0; mk_vertex 100 50; mk_vertex 0 200]
    [mk_sector 0 128 (bs "FLAT1") (bs "FLAT2") 160 9 7]
    [mk_side 0 0 (bs "-") (bs "-") (bs "-") 0]
    [mk_hline 0 1 1 0 [0; 0; 0; 0; 0] 0 (-1); mk_hline 1 2 1 80 [0; 0; 0; 0; 0] 0 (-1); mk_hline 2 0 1 0 [0; 0; 0; 0; 0] 0 (-1)]
    [mk_hthing 0 (-30) 100 0 0 3001 7 0 [0; 0; 0; 0; 0]].

Lemma imp_style : forall fill r, thing_style 3001 fill r -> r = 20.
Proof.
  intros fill r [(a & (i & H1 & H2 & H3) & -> & _)|(H & _)].
  - assert (F : forallb (fun a => match a_doomednum a with Some 3001 => a_radius a =? 20 | _ => true end) doom2_actors = true) by (vm_compute; reflexivity).
    rewrite forallb_forall in F. specialize (F a (nth_error_In _ _ H1)). rewrite H2 in F. lia.
  - exfalso. destruct (find (fun a => match a_doomednum a with Some d => d =? 3001 | None => false end) doom2_actors) as [a|] eqn:E.
    + apply find_some in E. destruct E as [E1 E2]. apply (H a E1). destruct (a_doomednum a); [f_equal; lia|discriminate].
    + vm_compute in E. discriminate.
Qed.

Lemma triangle_fits : bare_i16 hexen_chart_ops triangle_map /\ bare_refs hexen_chart_ops triangle_map /\ fits hexen_chart_ops triangle_map.
Proof.
  split; [|split].
  - unfold bare_i16, i16_indices, is_i16. cbn.
    split; [split; [|split; [|lia]]|split; [|split; [|lia]]].
    + intros l [<-|[<-|[<-|[]]]]; cbn; lia.
    + intros sd [<-|[]]; cbn; lia.
    + intros q [<-|[<-|[<-|[<-|[]]]]]; cbn; lia.
    + intros t [<-|[]]; cbn; lia.
  - unfold bare_refs, has_item. cbn. split; [intros l [<-|[<-|[<-|[]]]]; cbn; lia|].
    intros _ l id [<-|[<-|[<-|[]]]]; cbn; lia.
  - unfold fits. cbn [triangle_map m_lines m_things In]. split; [|split; [|split]].
    + intros l v _ [H|H]; destruct H as [_ H]; apply nth_error_In in H; cbn in H; destruct H as [<-|[<-|[<-|[]]]]; cbn; lia.
    + intros t fill r [<-|[]] S. cbn in S. apply imp_style in S. subst r. cbn. lia.
    + cbn. intros p q [<-|[<-|[<-|[<-|[]]]]] [<-|[<-|[<-|[<-|[]]]]]; cbn; lia.
    + right. exists (0, 0). cbn. auto with zarith.
Qed.
