(** Proofs about the flip command. *)

From Coq Require Import String List ZArith Bool Lia ZifyBool ZifyNat ZifyN.
From Coq Require Import Strings.Byte.
From Verif Require Import Base SpecBytes BaseFacts Nom NomFacts ParseWad SpecWad WadFacts EncodeFacts ParseMap SpecLumps
  LumpFacts LumpFacts2 SpecMapName MapNameFacts
  ArchiveWad SpecArchive ArchiveFacts IterFacts TexturexFacts ToArchiveFacts SpecMap ParseMapFacts Flip SpecFlip.
Import ListNotations.
Local Open Scope Z_scope.

Definition lumps_of (nm : bytes) (m : doom_map) : list (bytes * bytes) :=
  [(nm, []); (bs "THINGS", flat_map write_doom_thing (m_things m));
   (bs "LINEDEFS", flat_map write_doom_line (m_lines m));
   (bs "SIDEDEFS", flat_map write_side (m_sides m));
   (bs "VERTEXES", flat_map write_vertex (m_vertices m));
   (bs "SECTORS", flat_map write_sector (m_sectors m))].
Definition all_lumps (ms : list (bytes * doom_map)) : list (bytes * bytes) :=
  flat_map (fun '(nm, m) => lumps_of nm m) ms.

Definition wrap_entry (e : dir_entry) : dir_entry :=
  mk_entry (wrap_u32 (filepos e)) (wrap_u32 (size e)) (name e).

(** ** Laid out directories *)

Lemma lay_out_app : forall a b pos,
  lay_out pos (a ++ b) = lay_out pos a ++ lay_out (pos + zlen (concat (map snd a))) b.
Proof.
  induction a as [|[n d] a IH]; intros b pos; cbn [lay_out app map concat snd].
  - unfold zlen. cbn [length]. rewrite Z.add_0_r. reflexivity.
  - rewrite IH. f_equal. f_equal. f_equal. unfold zlen. rewrite app_length. lia.
Qed.

Lemma lay_out_length : forall L pos, length (lay_out pos L) = length L.
Proof. induction L as [|[n d] L IH]; intros pos; cbn [lay_out length]; auto. Qed.

Lemma lay_out_names : forall L pos, map name (lay_out pos L) = map fst L.
Proof. induction L as [|[n d] L IH]; intros pos; cbn [lay_out map name fst]; f_equal; auto. Qed.

Lemma lay_out_nth : forall L k n d pos, nth_error L k = Some (n, d) ->
  nth_error (lay_out pos L) k = Some (mk_entry (pos + zlen (concat (map snd (firstn k L)))) (zlen d) n).
Proof.
  induction L as [|[n0 d0] L IH]; intros [|k] n d pos H; cbn in H; try discriminate.
  - injection H as -> ->. cbn. unfold zlen. cbn. rewrite Z.add_0_r. reflexivity.
  - cbn [lay_out nth_error firstn map concat snd]. rewrite (IH _ _ _ _ H). do 2 f_equal.
    unfold zlen. rewrite app_length. lia.
Qed.

Lemma lay_out_in : forall L pos e, In e (lay_out pos L) ->
  pos <= filepos e /\ 0 <= size e /\ filepos e + size e <= pos + zlen (concat (map snd L)) /\ In (name e) (map fst L).
Proof.
  induction L as [|[n d] L IH]; intros pos e H; cbn [lay_out] in H; [destruct H|].
  cbn [map concat snd fst In]. unfold zlen. rewrite app_length. destruct H as [<-|H].
  - cbn [filepos size name]. split; [lia|]. split; [lia|]. split; [lia|auto].
  - destruct (IH _ _ H) as (A & B & C & D). unfold zlen in C. split; [lia|]. split; [lia|]. split; [lia|auto].
Qed.

Lemma lay_out_order : forall L pos j k a b, (j < k)%nat -> nth_error (lay_out pos L) j = Some a ->
  nth_error (lay_out pos L) k = Some b -> filepos a + size a <= filepos b.
Proof.
  induction L as [|[n d] L IH]; intros pos j k a b Hjk Ha Hb; cbn [lay_out] in *; [destruct j; discriminate|].
  destruct k as [|k]; [lia|]. destruct j as [|j]; cbn [nth_error] in *.
  - injection Ha as <-. cbn [filepos size]. apply nth_error_In in Hb. apply lay_out_in in Hb. lia.
  - eapply IH; [|exact Ha|exact Hb]. lia.
Qed.

Lemma concat_firstn_split : forall (L : list (bytes * bytes)) k n d, nth_error L k = Some (n, d) ->
  concat (map snd L) = concat (map snd (firstn k L)) ++ d ++ concat (map snd (skipn (S k) L)).
Proof.
  induction L as [|[n0 d0] L IH]; intros [|k] n d H; cbn in H; try discriminate.
  - injection H as -> ->. reflexivity.
  - cbn [firstn skipn map concat snd]. rewrite (IH _ _ _ H), <- app_assoc. reflexivity.
Qed.

(** Reading a lump of a written WAD. *)
Lemma written_lump : forall t L h k n d,
  nth_error L k = Some (n, d) ->
  let buf := encode_wad t (concat (map snd L)) (lay_out 12 L) in
  entry_slice (mk_wad buf h (lay_out 12 L)) k = Ok d.
Proof.
  intros t L h k n d H buf. unfold entry_slice. cbn [directory buffer].
  unfold index_nat. rewrite (lay_out_nth _ _ _ _ _ H). cbn [obind filepos size].
  set (p := concat (map snd (firstn k L))).
  set (hd := (magic t ++ le_bytes 4 (Z.of_nat (length (lay_out 12 L)))
              ++ le_bytes 4 (12 + Z.of_nat (length (concat (map snd L)))))).
  assert (Hhd : length hd = 12%nat).
  { unfold hd. rewrite !le_bytes_4, !app_length, !length_put32. destruct t; reflexivity. }
  assert (Hbuf : buf = (hd ++ p) ++ d ++ (concat (map snd (skipn (S k) L)) ++ concat (map encode_entry (lay_out 12 L)))).
  { unfold buf, encode_wad. rewrite (concat_firstn_split _ _ _ _ H) at 2. fold p. unfold hd. rewrite <- !app_assoc. reflexivity. }
  assert (Hlen : length (hd ++ p) = (12 + length p)%nat) by (rewrite app_length, Hhd; reflexivity).
  unfold slice. replace (12 + zlen p <=? 12 + zlen p + zlen d) with true by (unfold zlen; lia).
  replace (12 + zlen p + zlen d <=? zlen buf) with true.
  2:{ rewrite Hbuf. unfold zlen. rewrite !app_length, Hhd. lia. }
  cbn [andb]. f_equal. rewrite Hbuf.
  replace (Z.to_nat (12 + zlen p)) with (length (hd ++ p)) by (unfold zlen; lia).
  replace (Z.to_nat (12 + zlen p + zlen d - (12 + zlen p))) with (length d) by (unfold zlen; lia).
  rewrite skipn_app_exact by reflexivity. apply firstn_app_exact. reflexivity.
Qed.

(** ** The state after one map *)

Lemma finish_append : forall nm d buf dir,
  finish_lump nm (append_bytes d (mk_flip buf dir (zlen buf)))
  = mk_flip (buf ++ d) (dir ++ map wrap_entry (lay_out (12 + zlen buf) [(nm, d)])) (zlen (buf ++ d)).
Proof.
  intros nm d buf dir. unfold append_bytes, finish_lump, wrap_entry. cbn [lay_out map filepos size name].
  f_equal. f_equal. f_equal.
  replace (zlen (buf ++ d) - zlen buf) with (zlen d) by (unfold zlen; rewrite app_length; lia).
  f_equal. f_equal. lia.
Qed.

Definition fst_of (buf : bytes) (dir : list dir_entry) (L : list (bytes * bytes)) : flip_state :=
  mk_flip (buf ++ concat (map snd L)) (dir ++ map wrap_entry (lay_out (12 + zlen buf) L))
          (zlen (buf ++ concat (map snd L))).

Lemma finish_fst : forall nm d buf dir L,
  finish_lump nm (append_bytes d (fst_of buf dir L)) = fst_of buf dir (L ++ [(nm, d)]).
Proof.
  intros nm d buf dir L. unfold fst_of. rewrite finish_append, lay_out_app, map_app, map_app, concat_app.
  replace (12 + zlen (buf ++ concat (map snd L))) with (12 + zlen buf + zlen (concat (map snd L)))
    by (unfold zlen; rewrite app_length; lia).
  cbn [map snd concat]. rewrite app_nil_r, <- !app_assoc. reflexivity.
Qed.

Lemma flip_map_eq : forall mode nm m buf dir,
  flip_map mode nm m (mk_flip buf dir (zlen buf))
  = let* things := omap (flip_thing mode) (m_things m) in
    let* vertices := omap (flip_vertex mode) (m_vertices m) in
    Ok (fst_of buf dir
         (lumps_of nm (mk_bmap vertices (m_sectors m) (m_sides m) (map flip_line (m_lines m)) things))).
Proof.
  intros mode nm m buf dir. unfold flip_map. cbn [fl_buffer fl_directory fl_filepos].
  apply obind_ext; intros things. 
  replace (mk_flip buf (dir ++ [mk_entry (wrap_u32 (zlen buf + 12)) 0 nm]) (zlen buf))
    with (fst_of buf dir [(nm, [])]).
  2:{ unfold fst_of. cbn [map snd concat lay_out length]. unfold wrap_entry; cbn [filepos size name].
      rewrite !app_nil_r, (Z.add_comm 12). reflexivity. }
  rewrite !finish_fst. apply obind_ext; intros vertices. rewrite !finish_fst. reflexivity.
Qed.

Lemma fst_of_app : forall buf dir L M,
  fst_of (buf ++ concat (map snd L)) (dir ++ map wrap_entry (lay_out (12 + zlen buf) L)) M = fst_of buf dir (L ++ M).
Proof.
  intros buf dir L M. unfold fst_of. rewrite lay_out_app, !map_app, concat_app.
  replace (12 + zlen (buf ++ concat (map snd L))) with (12 + zlen buf + zlen (concat (map snd L)))
    by (unfold zlen; rewrite app_length; lia).
  rewrite <- !app_assoc. reflexivity.
Qed.

(** Flipping a map as a value. *)
Definition flip_doom (mode : build) (m : doom_map) : outcome doom_map :=
  let* things := omap (flip_thing mode) (m_things m) in
  let* vertices := omap (flip_vertex mode) (m_vertices m) in
  Ok (mk_bmap vertices (m_sectors m) (m_sides m) (map flip_line (m_lines m)) things).

Lemma flip_map_fst : forall mode nm m L,
  flip_map mode nm m (fst_of [] [] L) = let* m' := flip_doom mode m in Ok (fst_of [] [] (L ++ lumps_of nm m')).
Proof.
  intros mode nm m L. unfold fst_of at 1. rewrite flip_map_eq. unfold flip_doom. rewrite obind_obind.
  apply obind_ext; intros things. rewrite obind_obind. apply obind_ext; intros vertices. cbn [obind].
  rewrite fst_of_app. reflexivity.
Qed.

Definition flips (mode : build) (a b : bytes * doom_map) : Prop :=
  fst b = fst a /\ flip_doom mode (snd a) = Ok (snd b).

Lemma flip_fold : forall mode w rs L s,
  ofold (flip_range mode w) rs (fst_of [] [] L) = Ok s <->
  exists ms ms', doom_maps_of w rs ms /\ Forall2 (flips mode) ms ms' /\ s = fst_of [] [] (L ++ all_lumps ms').
Proof.
  intros mode w. induction rs as [|r rs IH]; intros L s; cbn [ofold].
  - split.
    + intros E. injection E as <-. exists [], []. split; [constructor|]. split; [constructor|].
      cbn [all_lumps flat_map]. rewrite app_nil_r. reflexivity.
    + intros (ms & ms' & H & HF & ->). inversion H; subst. inversion HF; subst.
      cbn [all_lumps flat_map]. rewrite app_nil_r. reflexivity.
  - unfold flip_range at 1. destruct (parse_doom_map w r) as [bm|e|p] eqn:Ep; cbn [obind].
    2,3: split; [discriminate|intros (ms & ms' & H & _); inversion H; subst; congruence].
    destruct bm as [m|m].
    + unfold index_nat. destruct (nth_error (directory w) (marker_index r)) as [e|] eqn:Ee; cbn [obind].
      2:{ split; [discriminate|]. intros (ms & ms' & H & _). inversion H; subst; congruence. }
      rewrite flip_map_fst. destruct (flip_doom mode m) as [m'|x|p] eqn:Em; cbn [obind].
      * rewrite IH. split.
        -- intros (ms & ms' & H & HF & ->). exists ((name e, m) :: ms), ((name e, m') :: ms').
           split; [econstructor; eauto|]. split; [constructor; [split; auto|auto]|].
           cbn [all_lumps flat_map]. rewrite <- app_assoc. reflexivity.
        -- intros (ms & ms' & H & HF & ->). inversion H as [|r0 rs0 m0 e0 ms0 P1 P2 P3|]; subst; [|congruence].
           inversion HF as [|? [n2 m2] ? ms2 [F1 F2] HF2]; subst. cbn [fst snd] in *.
           assert (m0 = m) by congruence. assert (e0 = e) by congruence. subst m0 e0.
           assert (m2 = m') by congruence. subst.
           exists ms0, ms2. split; [auto|]. split; [auto|]. cbn [all_lumps flat_map]. rewrite <- app_assoc. reflexivity.
      * split; [discriminate|]. intros (ms & ms' & H & HF & ->). inversion H as [|r0 rs0 m0 e0 ms0 P1 P2 P3|]; subst; [|congruence].
        inversion HF as [|? [n2 m2] ? ms2 [F1 F2] HF2]; subst. cbn [fst snd] in *. congruence.
      * split; [discriminate|]. intros (ms & ms' & H & HF & ->). inversion H as [|r0 rs0 m0 e0 ms0 P1 P2 P3|]; subst; [|congruence].
        inversion HF as [|? [n2 m2] ? ms2 [F1 F2] HF2]; subst. cbn [fst snd] in *. congruence.
    + cbn [obind]. rewrite IH. split.
      * intros (ms & ms' & H & HF & ->). exists ms, ms'. split; [econstructor; eauto|]. auto.
      * intros (ms & ms' & H & HF & ->). inversion H; subst; [congruence|]. exists ms, ms'. auto.
Qed.

(** ** Values *)

Lemma neg_i16_cases : forall mode z, is_i16 z ->
  (exists z', neg_i16 mode z = Ok z' /\ negated z z' /\ neg_i16 mode z' = Ok z /\ is_i16 z' /\ (mode = Checked -> z <> - 2 ^ 15))
  \/ (mode = Checked /\ z = - 2 ^ 15 /\ neg_i16 mode z = Panic POverflow).
Proof.
  intros mode z Hz. unfold neg_i16, negated, is_i16 in *. change (2 ^ 15) with 32768 in *. change (2 ^ 16) with 65536.
  destruct (Z.eqb_spec z (-32768)) as [E|E].
  - destruct mode; [right; auto|]. left. exists z. split; [auto|]. subst z. repeat split; try lia; discriminate.
  - left. exists (- z). split; [auto|]. replace (- z =? -32768) with false by lia.
    replace (z + - z) with 0 by lia. repeat split; try lia. f_equal. lia.
Qed.

Definition thing_min (t : doom_thing) : Prop := dt_y t = - 2 ^ 15 \/ dt_angle t = - 2 ^ 15.

Lemma flip_thing_cases : forall mode t, thing_valid t ->
  (exists t', flip_thing mode t = Ok t' /\ flipped_thing t t' /\ flip_thing mode t' = Ok t /\ thing_valid t'
     /\ (mode = Checked -> ~ thing_min t))
  \/ (mode = Checked /\ thing_min t /\ flip_thing mode t = Panic POverflow).
Proof.
  intros mode [x y a n f] (H1 & H2 & H3 & H4 & H5). cbn in *. unfold flip_thing, thing_min. cbn [dt_x dt_y dt_angle dt_num dt_flags].
  destruct (neg_i16_cases mode y H2) as [(y' & -> & N1 & B1 & V1 & M1)|(-> & -> & ->)]; cbn [obind].
  2:{ right. auto. }
  destruct (neg_i16_cases mode a H3) as [(a' & -> & N2 & B2 & V2 & M2)|(-> & -> & ->)]; cbn [obind].
  2:{ right. auto. }
  left. eexists; split; [reflexivity|]. split; [repeat split; auto; apply N1 || apply N2|].
  cbn [dt_x dt_y dt_angle dt_num dt_flags]. rewrite B1, B2. cbn [obind]. split; [reflexivity|].
  split; [repeat split; cbn; auto; try apply H1; try apply V1; try apply V2; try apply H4; try apply H5|].
  intros HM [E|E]; [apply M1 in HM|apply M2 in HM]; contradiction.
Qed.

Lemma flip_vertex_cases : forall mode v, vertex_valid v ->
  (exists v', flip_vertex mode v = Ok v' /\ flipped_vertex v v' /\ flip_vertex mode v' = Ok v /\ vertex_valid v'
     /\ (mode = Checked -> vy v <> - 2 ^ 15))
  \/ (mode = Checked /\ vy v = - 2 ^ 15 /\ flip_vertex mode v = Panic POverflow).
Proof.
  intros mode [x y] (H1 & H2). cbn in *. unfold flip_vertex. cbn [vx vy].
  destruct (neg_i16_cases mode y H2) as [(y' & -> & N1 & B1 & V1 & M1)|(-> & -> & ->)]; cbn [obind].
  2:{ right. auto. }
  left. eexists; split; [reflexivity|]. split; [split; auto; apply N1|].
  cbn [vx vy]. rewrite B1. cbn [obind]. split; [reflexivity|]. split; [split; cbn; auto|]. auto.
Qed.

(** A loop that either succeeds on every element or panics. *)
Lemma omap_flip : forall {A} (f : A -> outcome A) (R : A -> A -> Prop) (ok bad : A -> Prop) (chk : Prop) l,
  (forall a, ok a -> (exists b, f a = Ok b /\ R a b /\ f b = Ok a /\ ok b /\ (chk -> ~ bad a))
     \/ (chk /\ bad a /\ f a = Panic POverflow)) ->
  Forall ok l ->
  (exists l', omap f l = Ok l' /\ Forall2 R l l' /\ omap f l' = Ok l /\ Forall ok l' /\ (chk -> forall a, In a l -> ~ bad a))
  \/ (chk /\ (exists a, In a l /\ bad a) /\ omap f l = Panic POverflow).
Proof.
  intros A f R ok bad chk l Hf HF. induction HF as [|a l Ha HF IH]; cbn [omap].
  - left. exists []. split; [reflexivity|]. split; [constructor|]. split; [reflexivity|]. split; [constructor|]. intros _ a [].
  - destruct (Hf a Ha) as [(b & -> & HR & Hb & Vb & Mb)|(Hc & Hbad & ->)]; cbn [obind].
    2:{ right. split; [auto|]. split; [exists a; split; [left; auto|auto]|reflexivity]. }
    destruct IH as [(l' & -> & HR' & Hb' & Vl & Ml)|(Hc & (x & Hx & Hbad) & ->)]; cbn [obind].
    2:{ right. split; [auto|]. split; [exists x; split; [right; auto|auto]|reflexivity]. }
    left. exists (b :: l'). split; [reflexivity|]. split; [constructor; auto|]. cbn [omap]. rewrite Hb. cbn [obind].
    rewrite Hb'. cbn [obind]. split; [reflexivity|]. split; [constructor; auto|].
    intros Hc x [<-|Hx]; [auto|apply Ml; auto].
Qed.

Lemma flip_line_flipped : forall ls, Forall2 flipped_line ls (map flip_line ls).
Proof. induction ls as [|l ls IH]; cbn; constructor; auto. repeat split. Qed.
Lemma flip_line_twice : forall ls, map flip_line (map flip_line ls) = ls.
Proof. intros ls. rewrite map_map. rewrite <- (map_id ls) at 2. apply map_ext. intros []; reflexivity. Qed.
Lemma flip_line_valid : forall ls, Forall line_valid ls -> Forall line_valid (map flip_line ls).
Proof. intros ls H. induction H as [|l ls Hl H IH]; cbn; constructor; auto. unfold line_valid in *. cbn. tauto. Qed.

Lemma flip_doom_cases : forall mode m, map_valid m ->
  (exists m', flip_doom mode m = Ok m' /\ flipped_map m m' /\ flip_doom mode m' = Ok m /\ map_valid m'
     /\ (mode = Checked -> ~ has_minimum m))
  \/ (mode = Checked /\ has_minimum m /\ flip_doom mode m = Panic POverflow).
Proof.
  intros mode [V Sc D L T] (H1 & H2 & H3 & H4 & H5). cbn in *. unfold flip_doom. cbn [m_things m_vertices m_lines m_sides m_sectors].
  destruct (omap_flip (flip_thing mode) flipped_thing thing_valid thing_min (mode = Checked) T (flip_thing_cases mode) H1)
    as [(T' & -> & RT & BT & VT & MT)|(Hc & (t & Ht & Hm) & ->)]; cbn [obind].
  2:{ right. split; [auto|]. split; [|reflexivity]. left. exists t. cbn. auto. }
  destruct (omap_flip (flip_vertex mode) flipped_vertex vertex_valid (fun v => vy v = - 2 ^ 15) (mode = Checked) V (flip_vertex_cases mode) H4)
    as [(V' & -> & RV & BV & VV & MV)|(Hc & (t & Ht & Hm) & ->)]; cbn [obind].
  2:{ right. split; [auto|]. split; [|reflexivity]. right. exists t. cbn. auto. }
  left. eexists; split; [reflexivity|]. split.
  - split; [exact RT|]. split; [apply flip_line_flipped|]. split; [reflexivity|]. split; [exact RV|reflexivity].
  - cbn [m_things m_vertices m_lines m_sides m_sectors]. rewrite BT. cbn [obind]. rewrite BV. cbn [obind].
    rewrite flip_line_twice. split; [reflexivity|]. split.
    + split; [exact VT|]. split; [apply flip_line_valid; auto|]. auto.
    + intros Hc [(t & Ht & Hm)|(v & Hv & Hm)]; [eapply MT; eauto|eapply MV; eauto].
Qed.

Lemma decode_all_valid : forall fmt fv fs fd fl ft m, decode_all fmt fv fs fd fl ft = Ok (BMDoom m) -> map_valid m.
Proof.
  intros fmt fv fs fd fl ft m H. unfold decode_all, decode_rest in H.
  destruct fv as [dv|e|p]; cbn [obind] in H; try discriminate.
  destruct (vertexes_decode dv) as (r1 & V & EV & _). rewrite EV in H. cbn [nom_to_result obind] in H.
  destruct fs as [ds|e|p]; cbn [obind] in H; try discriminate.
  destruct (sectors_decode ds) as (r2 & Sc & ES & _). rewrite ES in H. cbn [nom_to_result obind] in H.
  destruct fd as [dd|e|p]; cbn [obind] in H; try discriminate.
  destruct (sides_decode dd) as (r3 & D & ED & _). rewrite ED in H. cbn [nom_to_result obind] in H.
  destruct (format_eqb fmt Doom).
  - destruct fl as [dl|e|p]; cbn [obind] in H; try discriminate.
    destruct (doom_lines_decode dl) as (r4 & L & EL & _). rewrite EL in H. cbn [nom_to_result obind] in H.
    destruct ft as [dt|e|p]; cbn [obind] in H; try discriminate.
    destruct (doom_things_decode dt) as (r5 & T & ET & _). rewrite ET in H. cbn [nom_to_result obind] in H.
    injection H as <-. repeat split; cbn [m_things m_vertices m_lines m_sides m_sectors].
    + eapply doom_things_valid; eauto. + eapply doom_lines_valid; eauto. + eapply sides_valid; eauto.
    + eapply vertexes_valid; eauto. + eapply sectors_valid; eauto.
  - destruct fl as [dl|e|p]; cbn [obind] in H; try discriminate.
    destruct (hexen_lines_decode dl) as (r4 & L & EL & _). rewrite EL in H. cbn [nom_to_result obind] in H.
    destruct ft as [dt|e|p]; cbn [obind] in H; try discriminate.
    destruct (hexen_things_decode dt) as (r5 & T & ET & _). rewrite ET in H. cbn [nom_to_result obind] in H. discriminate.
Qed.

Lemma parsed_map_valid : forall w r m, parse_doom_map w r = Ok (BMDoom m) -> map_valid m.
Proof. intros w r m H. rewrite parse_doom_map_alt in H. eapply decode_all_valid; eauto. Qed.

(** ** Iterating over the written directory *)

Definition the_name (nm : bytes) : map_name := match map_name_of nm with Some n => n | None => MAPxx 0 end.

Definition six (i : nat) (n : map_name) (last : nat) : map_block :=
  mk_block Doom n i last (Some (1 + i)%nat) (Some (2 + i)%nat) (Some (3 + i)%nat) (Some (4 + i)%nat)
    None None None (Some (5 + i)%nat) None None None None.

Fixpoint blocks (i : nat) (ms : list (bytes * doom_map)) : list map_block :=
  match ms with
  | [] => []
  | (nm, _) :: ms' =>
      six i (the_name nm) (match ms' with [] => (5 + i)%nat | _ => (6 + i)%nat end) :: blocks (6 + i) ms'
  end.

Lemma scan_five_end : forall i n p1 s1 p2 s2 p3 s3 p4 s4 p5 s5,
  let e1 := mk_entry p1 s1 (bs "THINGS") in let e2 := mk_entry p2 s2 (bs "LINEDEFS") in
  let e3 := mk_entry p3 s3 (bs "SIDEDEFS") in let e4 := mk_entry p4 s4 (bs "VERTEXES") in
  let e5 := mk_entry p5 s5 (bs "SECTORS") in
  scan_lumps MAP_LUMP_ORDER (new_block n i) (1 + i) e1
    [((1 + i)%nat, e1); ((2 + i)%nat, e2); ((3 + i)%nat, e3); ((4 + i)%nat, e4); ((5 + i)%nat, e5)]
  = inl (six i n i, (5 + i)%nat, []).
Proof. reflexivity. Qed.

Lemma scan_five_more : forall i n p1 s1 p2 s2 p3 s3 p4 s4 p5 s5 e6 it,
  let e1 := mk_entry p1 s1 (bs "THINGS") in let e2 := mk_entry p2 s2 (bs "LINEDEFS") in
  let e3 := mk_entry p3 s3 (bs "SIDEDEFS") in let e4 := mk_entry p4 s4 (bs "VERTEXES") in
  let e5 := mk_entry p5 s5 (bs "SECTORS") in
  map_name_of (name e6) <> None ->
  scan_lumps MAP_LUMP_ORDER (new_block n i) (1 + i) e1
    (((1 + i)%nat, e1) :: ((2 + i)%nat, e2) :: ((3 + i)%nat, e3) :: ((4 + i)%nat, e4) :: ((5 + i)%nat, e5)
     :: ((6 + i)%nat, e6) :: it)
  = inl (six i n i, (6 + i)%nat, ((6 + i)%nat, e6) :: it).
Proof.
  intros i n p1 s1 p2 s2 p3 s3 p4 s4 p5 s5 e6 it e1 e2 e3 e4 e5 Hm.
  transitivity (scan_lumps [(bs "REJECT", false); (bs "BLOCKMAP", false); (bs "BEHAVIOR", false)] (six i n i) (6 + i) e6
                  (((6 + i)%nat, e6) :: it)).
  { reflexivity. }
  assert (K : forall f, bytes_eqb (name e6) (lump_name f) = false).
  { intros f. apply bytes_eqb_neq. intros E. apply Hm. rewrite E. apply lump_not_marker. }
  cbn [scan_lumps]. change (bs "REJECT") with (lump_name REJECT). change (bs "BLOCKMAP") with (lump_name BLOCKMAP).
  change (bs "BEHAVIOR") with (lump_name BEHAVIOR). rewrite !K. reflexivity.
Qed.

Lemma collect_written : forall ms i pos fuel, Forall (fun a => map_name_of (fst a) <> None) ms ->
  (length ms < fuel)%nat ->
  collect_items fuel (enumerate_from i (lay_out pos (all_lumps ms))) = Some (map WMap (blocks i ms), []).
Proof.
  induction ms as [|[nm m] ms IH]; intros i pos fuel HF Hfuel.
  - destruct fuel as [|fuel]; [lia|]. reflexivity.
  - inversion HF as [|? ? Hn HF']; subst. cbn [fst] in Hn. cbn [length] in Hfuel. destruct fuel as [|fuel]; [lia|].
    unfold all_lumps. cbn [flat_map]. fold (all_lumps ms). unfold lumps_of. cbn [app lay_out enumerate_from collect_items].
    set (L := lay_out _ (all_lumps ms)). unfold wad_next at 1. cbn [name].
    destruct (map_name_of nm) as [n|] eqn:En; [|congruence].
    change (bytes_eqb (bs "THINGS") (bs "TEXTMAP")) with false. cbv beta iota zeta.
    assert (Tn : the_name nm = n) by (unfold the_name; rewrite En; reflexivity).
    destruct ms as [|[nm2 m2] ms].
    + change L with (@nil dir_entry). cbn [enumerate_from].
      rewrite (scan_five_end i n). cbn [set_last_index six].
      destruct fuel as [|fuel]; [lia|]. cbn [collect_items wad_next blocks map]. rewrite Tn. reflexivity.
    + remember L as L' eqn:EL. unfold L in EL. unfold all_lumps in EL. cbn [flat_map] in EL. fold (all_lumps ms) in EL.
      unfold lumps_of at 1 in EL. cbn [app lay_out] in EL.
      match type of EL with L' = ?e :: ?l => remember l as l6 end.
      pose proof (IH (6 + i)%nat) as IH'. rewrite EL. cbn [enumerate_from].
      inversion HF' as [|? ? Hn2 _]; subst l6. cbn [fst] in Hn2.
      rewrite (scan_five_more i n) by exact Hn2. cbn [set_last_index six].
      match goal with |- context [collect_items fuel ?s] =>
        match type of IH' with forall pos, _ =>
          let x := fresh in
          evar (x : Z); specialize (IH' x fuel HF' ltac:(cbn [length] in *; lia)); 
          replace s with (enumerate_from (6 + i) (lay_out x (all_lumps ((nm2, m2) :: ms)))); subst x end end.
      * rewrite IH'. cbn [blocks map]. rewrite Tn. reflexivity.
      * unfold all_lumps. cbn [flat_map]. fold (all_lumps ms). unfold lumps_of at 1. cbn [app lay_out enumerate_from]. reflexivity.
Qed.

(** ** Reading the written WAD *)

Definition written (ms : list (bytes * doom_map)) : bare_wad :=
  let L := all_lumps ms in
  mk_wad (encode_wad PWAD (concat (map snd L)) (lay_out 12 L))
    (mk_header PWAD (Z.of_nat (length (lay_out 12 L))) (12 + Z.of_nat (length (concat (map snd L)))))
    (lay_out 12 L).

Lemma all_lumps_app : forall a b, all_lumps (a ++ b) = all_lumps a ++ all_lumps b.
Proof. intros a b. unfold all_lumps. apply flat_map_app. Qed.

Lemma all_lumps_length : forall a, length (all_lumps a) = (6 * length a)%nat.
Proof.
  induction a as [|[nm m] a IH]; [reflexivity|]. unfold all_lumps in *. cbn [flat_map length]. rewrite app_length, IH.
  cbn [lumps_of length]. lia.
Qed.

Lemma all_lumps_nth : forall pre nm m post j x, nth_error (lumps_of nm m) j = Some x ->
  nth_error (all_lumps (pre ++ (nm, m) :: post)) (j + 6 * length pre) = Some x.
Proof.
  intros pre nm m post j x H. rewrite all_lumps_app. rewrite nth_error_app2; rewrite all_lumps_length; [|lia].
  replace (j + 6 * length pre - 6 * length pre)%nat with j by lia.
  unfold all_lumps. cbn [flat_map]. rewrite nth_error_app1; [exact H|]. apply nth_error_Some. congruence.
Qed.

Lemma decode_written : forall m, map_valid m ->
  decode_all Doom (Ok (flat_map write_vertex (m_vertices m))) (Ok (flat_map write_sector (m_sectors m)))
    (Ok (flat_map write_side (m_sides m))) (Ok (flat_map write_doom_line (m_lines m)))
    (Ok (flat_map write_doom_thing (m_things m))) = Ok (BMDoom m).
Proof.
  intros [V Sc D L T] (H1 & H2 & H3 & H4 & H5). cbn [m_things m_vertices m_lines m_sides m_sectors] in *. unfold decode_all, decode_rest.
  cbn [obind m_things m_vertices m_lines m_sides m_sectors].
  rewrite vertexes_write by auto. cbn [nom_to_result obind]. rewrite sectors_write by auto. cbn [nom_to_result obind].
  rewrite sides_write by auto. cbn [nom_to_result obind format_eqb]. rewrite doom_lines_write by auto. cbn [nom_to_result obind].
  rewrite doom_things_write by auto. reflexivity.
Qed.

Lemma parse_written : forall pre nm m post n last, map_valid m ->
  parse_doom_map (written (pre ++ (nm, m) :: post)) (six (6 * length pre) n last) = Ok (BMDoom m)
  /\ exists e, nth_error (directory (written (pre ++ (nm, m) :: post))) (6 * length pre) = Some e /\ name e = nm.
Proof.
  intros pre nm m post n last Hv. split.
  - rewrite parse_doom_map_alt. unfold fetch. cbn [lump_index six require obind b_format
      things_index linedefs_index sidedefs_index vertexes_index sectors_index].
    unfold written.
    rewrite (written_lump PWAD _ _ _ _ _ (all_lumps_nth pre nm m post 4 _ eq_refl)).
    rewrite (written_lump PWAD _ _ _ _ _ (all_lumps_nth pre nm m post 5 _ eq_refl)).
    rewrite (written_lump PWAD _ _ _ _ _ (all_lumps_nth pre nm m post 3 _ eq_refl)).
    rewrite (written_lump PWAD _ _ _ _ _ (all_lumps_nth pre nm m post 2 _ eq_refl)).
    rewrite (written_lump PWAD _ _ _ _ _ (all_lumps_nth pre nm m post 1 _ eq_refl)).
    apply decode_written. exact Hv.
  - unfold written. cbn [directory].
    pose proof (lay_out_nth _ _ _ _ 12 (all_lumps_nth pre nm m post 0 _ eq_refl)) as H.
    rewrite Nat.add_0_l in H. rewrite H. eexists; split; reflexivity.
Qed.

Lemma blocks_read : forall ms pre, Forall (fun a => map_valid (snd a)) ms ->
  doom_maps_of (written (pre ++ ms)) (blocks (6 * length pre) ms) ms.
Proof.
  induction ms as [|[nm m] ms IH]; intros pre HF; cbn [blocks]; [constructor|].
  inversion HF as [|? ? Hv HF']; subst. cbn [snd] in Hv.
  destruct (parse_written pre nm m ms (the_name nm) (match ms with [] => (5 + 6 * length pre)%nat | _ => (6 + 6 * length pre)%nat end) Hv)
    as (HP & e & He & Hn).
  rewrite <- Hn. econstructor; [rewrite Hn; exact HP|rewrite Hn; exact He|].
  rewrite Hn. specialize (IH (pre ++ [(nm, m)]) HF'). rewrite <- app_assoc in IH. cbn [app] in IH.
  replace (6 + 6 * length pre)%nat with (6 * length (pre ++ [(nm, m)]))%nat by (rewrite app_length; cbn [length]; lia).
  exact IH.
Qed.

Lemma maps_of_map : forall bsl, maps_of (map WMap bsl) = bsl.
Proof. induction bsl as [|b l IH]; cbn; [reflexivity|f_equal; auto]. Qed.

Lemma written_iter : forall ms, Forall (fun a => map_name_of (fst a) <> None) ms ->
  iter_maps (written ms) = blocks 0 ms.
Proof.
  intros ms HF. unfold iter_maps, iter, iter_collect. unfold enumerate.
  change (directory (written ms)) with (lay_out 12 (all_lumps ms)).
  rewrite (collect_written ms 0 12); auto.
  - apply maps_of_map.
  - rewrite enumerate_from_length, lay_out_length, all_lumps_length. lia.
Qed.

Lemma written_reads : forall ms, Forall (fun a => map_name_of (fst a) <> None) ms -> Forall (fun a => map_valid (snd a)) ms ->
  reads_as (written ms) ms /\ length (iter_maps (written ms)) = length ms.
Proof.
  intros ms H1 H2. unfold reads_as. rewrite written_iter by auto. split.
  - apply (blocks_read ms [] H2).
  - clear H2. generalize 0%nat. clear H1. induction ms as [|[nm m] ms IH]; intros i; cbn [blocks length]; auto.
Qed.

(** What is known of the maps of a parsed WAD. *)
Lemma doom_maps_facts : forall w rs ms, (forall r, In r rs -> In r (iter_maps w)) -> doom_maps_of w rs ms ->
  Forall (fun a => map_name_of (fst a) <> None) ms /\ Forall (fun a => map_valid (snd a)) ms
  /\ Forall (fun a => exists e, In e (directory w) /\ name e = fst a) ms.
Proof.
  intros w rs ms Hin H. induction H as [|r rs m e ms HP He H IH|r rs m ms HP H IH].
  - repeat split; constructor.
  - destruct (IH (fun q Hq => Hin q (or_intror Hq))) as (A & B & C).
    repeat split; constructor; auto; cbn [fst snd].
    + destruct (iter_map_ok w r (Hin r (or_introl eq_refl))) as (e' & fs & He' & Hd & _).
      assert (e' = e) by congruence. subst e'. apply map_name_of_iff in Hd. congruence.
    + eapply parsed_map_valid; eauto.
    + exists e. split; [eapply nth_error_In; eauto|reflexivity].
  - apply IH. intros q Hq. apply Hin. right; auto.
Qed.

Lemma doom_maps_unique : forall w rs a b, doom_maps_of w rs a -> doom_maps_of w rs b -> a = b.
Proof.
  intros w rs a b H. revert b. induction H as [|r rs m e ms HP He H IH|r rs m ms HP H IH]; intros b Hb.
  - inversion Hb; reflexivity.
  - inversion Hb as [|? ? ? ? ? P1 P2 P3|? ? ? ? P1 P3]; subst; [|congruence]. rewrite (IH _ P3). congruence.
  - inversion Hb as [|? ? ? ? ? P1 P2 P3|? ? ? ? P1 P3]; subst; [congruence|]. auto.
Qed.

Lemma wrap_lay_out : forall L pos, 0 <= pos -> pos + zlen (concat (map snd L)) < 2 ^ 32 ->
  map wrap_entry (lay_out pos L) = lay_out pos L.
Proof.
  intros L pos Hp Hs. rewrite <- (map_id (lay_out pos L)) at 2. apply map_ext_in. intros [f s n] He.
  apply lay_out_in in He. cbn in He. change (2 ^ 32) with 4294967296 in Hs. unfold wrap_entry, wrap_u32. cbn [filepos size name].
  rewrite !Z.mod_small by lia. reflexivity.
Qed.

Lemma write_dir_entry_eq : forall l, flat_map write_dir_entry l = concat (map encode_entry l).
Proof.
  intros l. rewrite flat_map_concat_map. f_equal. apply map_ext. intros e. unfold write_dir_entry, encode_entry.
  rewrite !le_bytes_4. reflexivity.
Qed.

(** The bytes [do_flip] writes. *)
Definition flip_bytes (ms : list (bytes * doom_map)) : bytes :=
  let s := fst_of [] [] (all_lumps ms) in
  bs "PWAD" ++ put32 (wrap_u32 (zlen (fl_directory s))) ++ put32 (wrap_u32 (12 + zlen (fl_buffer s)))
  ++ fl_buffer s ++ flat_map write_dir_entry (fl_directory s).

Lemma do_flip_ok : forall mode w out, do_flip mode w = Ok out <->
  exists ms ms', reads_as w ms /\ Forall2 (flips mode) ms ms' /\ out = flip_bytes ms'.
Proof.
  intros mode w out. unfold do_flip, reads_as.
  change (mk_flip [] [] 0) with (fst_of [] [] []). split.
  - destruct (ofold (flip_range mode w) (iter_maps w) (fst_of [] [] [])) as [s|e|p] eqn:E; cbn [obind]; try discriminate.
    apply flip_fold in E. destruct E as (ms & ms' & H & HF & ->). intros Eo. injection Eo as <-. exists ms, ms'. auto.
  - intros (ms & ms' & H & HF & ->).
    assert (E : ofold (flip_range mode w) (iter_maps w) (fst_of [] [] []) = Ok (fst_of [] [] ([] ++ all_lumps ms')))
      by (apply flip_fold; eauto).
    rewrite E. reflexivity.
Qed.

Lemma flip_bytes_written : forall ms, Forall (fun a => short_name (fst a)) ms ->
  Z.of_nat (length (flip_bytes ms)) < 2 ^ 32 ->
  flip_bytes ms = buffer (written ms) /\ parse_wad (flip_bytes ms) = Ok (written ms).
Proof.
  intros ms Hn Hlen.
  assert (HL : 12 + zlen (concat (map snd (all_lumps ms))) < 2 ^ 32).
  { unfold flip_bytes, fst_of in Hlen. cbn [fl_buffer fl_directory app] in Hlen.
    rewrite !app_length, !length_put32 in Hlen. change (length (bs "PWAD")) with 4%nat in Hlen. unfold zlen. lia. }
  assert (HN : zlen (all_lumps ms) < 2 ^ 32).
  { unfold flip_bytes, fst_of in Hlen. cbn [fl_buffer fl_directory app] in Hlen.
    rewrite !app_length, !length_put32 in Hlen. change (length (bs "PWAD")) with 4%nat in Hlen.
    assert (K : forall l, (length l <= length (flat_map write_dir_entry l))%nat).
    { induction l as [|e l IH]; cbn [flat_map length]; [lia|]. rewrite app_length. unfold write_dir_entry at 1. rewrite app_length, length_put32. lia. }
    match type of Hlen with context [flat_map write_dir_entry ?l] =>
      specialize (K l); assert (KL : length l = length (all_lumps ms)) by (rewrite map_length, lay_out_length; reflexivity);
      set (q := flat_map write_dir_entry l) in *; set (l0 := l) in * end.
    unfold zlen in *. lia. }
  assert (E : flip_bytes ms = buffer (written ms)).
  { unfold flip_bytes, written, fst_of, encode_wad. cbn [fl_buffer fl_directory buffer app].
    change (12 + zlen (@nil byte)) with 12. rewrite (wrap_lay_out (all_lumps ms) 12 ltac:(lia) HL).
    rewrite !le_bytes_4, write_dir_entry_eq. change (magic PWAD) with (bs "PWAD").
    change (zlen (lay_out 12 (all_lumps ms))) with (Z.of_nat (length (lay_out 12 (all_lumps ms)))).
    change (zlen (concat (map snd (all_lumps ms)))) with (Z.of_nat (length (concat (map snd (all_lumps ms))))) in *.
    assert (W : forall z, 0 <= z < 2 ^ 32 -> wrap_u32 z = z) by (intros z Hz; apply Z.mod_small; exact Hz).
    rewrite W by (rewrite lay_out_length; split; [lia|exact HN]). rewrite W by (split; [lia|exact HL]). reflexivity. }
  split; [exact E|]. rewrite E. unfold written. cbn [buffer]. apply parse_encode_wad.
  - apply Forall_forall. intros e He. apply lay_out_in in He. destruct He as (A & B & C & D). pose proof (Z.le_lt_trans _ _ _ C HL) as C2.
    split; [lia|]. split; [lia|]. apply in_map_iff in D. destruct D as ([n d] & Ed & Hd). cbn [fst] in Ed. rewrite <- Ed.
    unfold all_lumps in Hd. apply in_flat_map in Hd. destruct Hd as ([nm m] & Hm & Hd).
    rewrite Forall_forall in Hn. specialize (Hn _ Hm). cbn [fst] in Hn.
    cbn [lumps_of In] in Hd. repeat (destruct Hd as [Hd|Hd]; [injection Hd as <- _; try exact Hn; (split; [vm_compute; lia|vm_compute; repeat constructor; lia || (intros; discriminate)])|]). destruct Hd.
  - unfold zlen in HL. exact HL.
  - rewrite lay_out_length. exact HN.
Qed.

(** ** The command as a whole *)

Lemma flips_facts : forall mode ms ms', Forall (fun a => map_valid (snd a)) ms -> Forall2 (flips mode) ms ms' ->
  Forall2 flipped_named ms ms' /\ Forall2 (flips mode) ms' ms /\ Forall (fun a => map_valid (snd a)) ms'
  /\ map fst ms' = map fst ms /\ (mode = Checked -> Forall (fun a => ~ has_minimum (snd a)) ms).
Proof.
  intros mode ms ms' HV HF. induction HF as [|a b ms ms' [H1 H2] HF IH].
  - repeat split; constructor.
  - inversion HV as [|? ? Va HV']; subst. destruct (IH HV') as (A & B & C & D & E).
    destruct (flip_doom_cases mode (snd a) Va) as [(m' & Em & Fm & Bm & Vm & Mm)|(_ & _ & Em)]; [|congruence].
    assert (m' = snd b) by congruence. subst m'.
    split; [constructor; auto; split; auto|]. split; [constructor; auto; split; auto|].
    split; [constructor; auto|]. split; [cbn [map]; congruence|]. intros HM. constructor; auto.
Qed.

Lemma names_transfer : forall (P : bytes -> Prop) (ms ms' : list (bytes * doom_map)),
  map fst ms' = map fst ms -> Forall (fun a => P (fst a)) ms -> Forall (fun a => P (fst a)) ms'.
Proof.
  intros P ms ms' E H. apply Forall_forall. intros a Ha. rewrite Forall_forall in H.
  apply (in_map fst) in Ha. rewrite E in Ha. apply in_map_iff in Ha. destruct Ha as (b & Eb & Hb).
  rewrite <- Eb. auto.
Qed.

Lemma names_of_parsed : forall buf w ms, parse_wad buf = Ok w ->
  Forall (fun a : bytes * doom_map => exists e, In e (directory w) /\ name e = fst a) ms -> Forall (fun a => short_name (fst a)) ms.
Proof.
  intros buf w ms Hw HF. eapply Forall_impl; [|exact HF]. cbv beta. intros a (e & He & En).
  cut (short_name (name e)); [rewrite En; auto|]. clear En.
  apply (parse_wad_ok_iff true) in Hw. destruct Hw as (_ & _ & _ & _ & Hd & Hl & Hk).
  apply In_nth_error in He. destruct He as [k He]. pose proof (Hk k e He) as (_ & _ & Hn).
  assert (k < length (directory w))%nat by (apply nth_error_Some; congruence).
  eapply name_field_short in Hn; [exact Hn|].
  pose proof (u32_at_range buf 8). pose proof (u32_at_range buf 4).
  unfold directory_inside in Hd. rewrite sub_length; [lia|]. unfold entry_offset. lia.
Qed.

(** Everything about a successful run. *)
Lemma flip_run : forall mode buf w out, parse_wad buf = Ok w -> do_flip mode w = Ok out ->
  Z.of_nat (length out) < 2 ^ 32 ->
  exists ms ms', reads_as w ms /\ Forall2 (flips mode) ms ms' /\ Forall2 flipped_named ms ms'
    /\ (mode = Checked -> Forall (fun a => ~ has_minimum (snd a)) ms)
    /\ Forall (fun a => short_name (fst a)) ms /\ Forall (fun a => map_name_of (fst a) <> None) ms
    /\ Forall (fun a => map_valid (snd a)) ms
    /\ map fst ms' = map fst ms /\ Forall2 (flips mode) ms' ms /\ Forall (fun a => map_valid (snd a)) ms'
    /\ out = buffer (written ms') /\ parse_wad out = Ok (written ms')
    /\ reads_as (written ms') ms' /\ length (iter_maps (written ms')) = length ms'.
Proof.
  intros mode buf w out Hw Hf Hlen. apply do_flip_ok in Hf. destruct Hf as (ms & ms' & HR & HF & ->).
  destruct (doom_maps_facts w (iter_maps w) ms (fun r H => H) HR) as (HN & HV & HS).
  pose proof (names_of_parsed buf w ms Hw HS) as HSh.
  destruct (flips_facts mode ms ms' HV HF) as (A & B & C & D & E).
  pose proof (names_transfer short_name ms ms' D HSh) as HSh'.
  pose proof (names_transfer (fun n => map_name_of n <> None) ms ms' D HN) as HN'.
  destruct (flip_bytes_written ms' HSh' Hlen) as (Eb & Ep).
  destruct (written_reads ms' HN' C) as (R1 & R2).
  exists ms, ms'. rewrite <- Eb. repeat (split; [assumption|]). auto.
Qed.

Lemma all_lumps_names : forall ms, map fst (all_lumps ms) = flat_map (fun a => map_entry_names (fst a)) ms.
Proof.
  induction ms as [|[nm m] ms IH]; [reflexivity|]. unfold all_lumps in *. cbn [flat_map]. rewrite map_app, IH. reflexivity.
Qed.

Lemma names_flat : forall a b : list (bytes * doom_map), map fst a = map fst b ->
  flat_map (fun x => map_entry_names (fst x)) a = flat_map (fun x => map_entry_names (fst x)) b.
Proof.
  induction a as [|x a IH]; intros [|y b] H; cbn in H; try discriminate; auto.
  injection H as H1 H2. cbn [flat_map]. apply (f_equal2 (@app _)); [apply (f_equal map_entry_names); exact H1|exact (IH b H2)].
Qed.

Lemma flip_valid_wad : forall mode buf w out, parse_wad buf = Ok w -> do_flip mode w = Ok out ->
  Z.of_nat (length out) < 2 ^ 32 ->
  exists ms w', reads_as w ms /\ parse_wad out = Ok w' /\ identification (header w') = PWAD
    /\ map name (directory w') = flat_map (fun a => map_entry_names (fst a)) ms
    /\ (forall e, In e (directory w') -> 12 <= filepos e /\ 0 <= size e
          /\ filepos e + size e <= infotableofs (header w'))
    /\ (forall j k a b, (j < k)%nat -> nth_error (directory w') j = Some a -> nth_error (directory w') k = Some b ->
          filepos a + size a <= filepos b)
    /\ infotableofs (header w') + 16 * Z.of_nat (length (directory w')) = Z.of_nat (length out).
Proof.
  intros mode buf w out Hw Hf Hlen.
  destruct (flip_run mode buf w out Hw Hf Hlen) as (ms & ms' & HR & HF & _ & _ & HSh & _ & _ & D & _ & _ & Eo & Ep & _).
  exists ms, (written ms'). split; [exact HR|]. split; [exact Ep|]. split; [reflexivity|]. split.
  - unfold written. cbn [directory]. rewrite lay_out_names, all_lumps_names.
    apply names_flat. exact D.
  - unfold written. cbn [directory header infotableofs]. split; [|split].
    + intros e He. apply lay_out_in in He. destruct He as (A & B & C & _). split; [exact A|]. split; [exact B|exact C].
    + intros j k a b. apply lay_out_order.
    + pose proof (names_transfer short_name ms ms' D HSh) as HSh'.
      rewrite Eo. unfold written, encode_wad. cbn [buffer].
      rewrite !app_length, !le_bytes_4, !length_put32. change (length (magic PWAD)) with 4%nat.
      rewrite (concat_blocks_length encode_entry 16).
      * lia.
      * intros e He. apply encode_entry_length. pose proof Ep as Ep'.
        apply (names_of_parsed out (written ms') [(name e, mk_bmap [] [] [] [] [])]) in Ep'.
        -- inversion Ep'; auto.
        -- constructor; [|constructor]. exists e. split; [exact He|reflexivity].
Qed.

Lemma flip_content : forall mode buf w out, parse_wad buf = Ok w -> do_flip mode w = Ok out ->
  Z.of_nat (length out) < 2 ^ 32 ->
  exists ms ms' w', reads_as w ms /\ Forall2 flipped_named ms ms'
    /\ parse_wad out = Ok w' /\ reads_as w' ms' /\ length (iter_maps w') = length ms'.
Proof.
  intros mode buf w out Hw Hf Hlen.
  destruct (flip_run mode buf w out Hw Hf Hlen) as (ms & ms' & HR & _ & HF & _ & _ & _ & _ & _ & _ & _ & _ & Ep & R1 & R2).
  exists ms, ms', (written ms'). auto.
Qed.

Lemma do_flip_of_reads : forall mode w ms ms', reads_as w ms -> Forall2 (flips mode) ms ms' -> do_flip mode w = Ok (flip_bytes ms').
Proof. intros. apply do_flip_ok. eauto. Qed.

Lemma flip_bytes_length : forall ms, Forall (fun a => map_valid (snd a)) ms -> length (flip_bytes ms) =
  (12 + length (concat (map snd (all_lumps ms))) + length (concat (map encode_entry (map wrap_entry (lay_out 12 (all_lumps ms))))))%nat.
Proof.
  intros ms _. unfold flip_bytes, fst_of. cbn [fl_buffer fl_directory app]. rewrite !app_length, !length_put32, write_dir_entry_eq.
  change (length (bs "PWAD")) with 4%nat. change (12 + zlen []) with 12. lia.
Qed.

(** Flipped maps take as many bytes. *)
Lemma flat_map_len : forall {A} (f : A -> bytes) n l, (forall a, In a l -> length (f a) = n) -> length (flat_map f l) = (n * length l)%nat.
Proof. intros A f n l H. rewrite flat_map_concat_map. apply concat_blocks_length. exact H. Qed.

Lemma flips_sizes : forall mode ms ms', Forall2 (flips mode) ms ms' ->
  Forall2 (fun x y => fst x = fst y /\ length (snd x) = length (snd y)) (all_lumps ms) (all_lumps ms').
Proof.
  intros mode ms ms' H. induction H as [|[n m] [n' m'] ms ms' [H1 H2] HF IH]; [constructor|].
  unfold all_lumps in *. cbn [flat_map]. apply Forall2_app; [|exact IH]. cbn [fst snd] in *. subst n'.
  unfold flip_doom in H2.
  destruct (omap (flip_thing mode) (m_things m)) as [T|e|p] eqn:ET; cbn [obind] in H2; try discriminate.
  destruct (omap (flip_vertex mode) (m_vertices m)) as [V|e|p] eqn:EV; cbn [obind] in H2; try discriminate.
  injection H2 as <-. apply omap_ok in ET, EV. apply Forall2_length' in ET, EV.
  unfold lumps_of. cbn [m_things m_vertices m_lines m_sides m_sectors].
  repeat constructor; cbn [fst snd].
  - rewrite !(flat_map_len write_doom_thing 10) by reflexivity. lia.
  - rewrite !(flat_map_len write_doom_line 14) by reflexivity. rewrite map_length. reflexivity.
  - rewrite !(flat_map_len write_vertex 4) by reflexivity. lia.
Qed.

Lemma lay_out_sizes : forall (L L' : list (bytes * bytes)), Forall2 (fun x y => fst x = fst y /\ length (snd x) = length (snd y)) L L' ->
  length (concat (map snd L)) = length (concat (map snd L')) /\ forall pos, lay_out pos L = lay_out pos L'.
Proof.
  intros L L' H. induction H as [|[n d] [n' d'] L L' [H1 H2] H [IH1 IH2]]; [split; auto|]. cbn [fst snd] in *. subst n'.
  split.
  - cbn [map concat snd]. rewrite !app_length. lia.
  - intros pos. cbn [lay_out]. rewrite H2, IH2. reflexivity.
Qed.

Lemma flip_twice : forall mode buf w out, parse_wad buf = Ok w -> do_flip mode w = Ok out ->
  Z.of_nat (length out) < 2 ^ 32 ->
  exists ms w' out' w'', reads_as w ms /\ parse_wad out = Ok w' /\ do_flip mode w' = Ok out'
    /\ parse_wad out' = Ok w'' /\ reads_as w'' ms /\ length (iter_maps w'') = length ms
    /\ do_flip mode w'' = Ok out.
Proof.
  intros mode buf w out Hw Hf Hlen.
  destruct (flip_run mode buf w out Hw Hf Hlen) as (ms & ms' & HR & HF & _ & _ & HSh & HN & HV & D & HB & HV' & Eo & Ep & R1 & R2).
  assert (Eo' : out = flip_bytes ms').
  { pose proof (do_flip_of_reads mode w ms ms' HR HF) as H. rewrite Hf in H. injection H as H. exact H. }
  exists ms, (written ms'), (flip_bytes ms), (written ms). split; [exact HR|]. split; [exact Ep|].
  split; [eapply do_flip_of_reads; eauto|].
  assert (HL : Z.of_nat (length (flip_bytes ms)) < 2 ^ 32).
  { rewrite flip_bytes_length by auto. rewrite Eo', flip_bytes_length in Hlen by auto.
    destruct (lay_out_sizes _ _ (flips_sizes mode ms ms' HF)) as [S1 S2]. rewrite S1, S2. exact Hlen. }
  destruct (flip_bytes_written ms HSh HL) as (_ & EP). split; [exact EP|].
  destruct (written_reads ms HN HV) as (R3 & R4). split; [exact R3|]. split; [exact R4|].
  rewrite Eo'. apply (do_flip_of_reads mode (written ms) ms ms' R3 HF).
Qed.

(** ** When the command fails *)

Lemma flip_range_cases : forall mode w r L, In r (iter_maps w) ->
  (can_flip mode w r /\ exists M, flip_range mode w (fst_of [] [] L) r = Ok (fst_of [] [] (L ++ M)))
  \/ (~ can_flip mode w r /\ exists e, parse_doom_map w r = Err e /\ forall s, flip_range mode w s r = Err e)
  \/ (~ can_flip mode w r /\ (forall e, parse_doom_map w r <> Err e)
      /\ exists p, flip_range mode w (fst_of [] [] L) r = Panic p).
Proof.
  intros mode w r L Hin. unfold flip_range. destruct (parse_doom_map w r) as [bm|e|p] eqn:Ep; cbn [obind].
  - destruct bm as [m|m].
    + destruct (iter_map_ok w r Hin) as (e & fs & He & _). unfold index_nat. rewrite He. cbn [obind].
      rewrite flip_map_fst. pose proof (parsed_map_valid _ _ _ Ep) as Hv.
      destruct (flip_doom_cases mode m Hv) as [(m' & -> & _ & _ & _ & Hm)|(Hc & Hm & ->)]; cbn [obind].
      * left. split; [|eauto]. exists (BMDoom m). split; [auto|]. intros m0 E HM. injection E as <-. auto.
      * right; right. split.
        -- intros (bm & E & Hbm). rewrite Ep in E. injection E as <-. eapply Hbm; eauto.
        -- split; [discriminate|eauto].
    + left. split; [|exists []; rewrite app_nil_r; reflexivity].
      exists (BMHexen m). split; [auto|]. discriminate.
  - right; left. split; [|eauto]. intros (bm & E & _). congruence.
  - right; right. split; [intros (bm & E & _); congruence|]. split; [discriminate|eauto].
Qed.

Lemma flip_fold_cases : forall mode w rs L, (forall r, In r rs -> In r (iter_maps w)) ->
  ((forall r, In r rs -> can_flip mode w r) /\ exists s, ofold (flip_range mode w) rs (fst_of [] [] L) = Ok s)
  \/ (exists pre r post, rs = pre ++ r :: post /\ (forall q, In q pre -> can_flip mode w q) /\ ~ can_flip mode w r
      /\ ((exists e, parse_doom_map w r = Err e /\ ofold (flip_range mode w) rs (fst_of [] [] L) = Err e)
          \/ ((forall e, parse_doom_map w r <> Err e) /\ exists p, ofold (flip_range mode w) rs (fst_of [] [] L) = Panic p))).
Proof.
  intros mode w. induction rs as [|r rs IH]; intros L Hin; cbn [ofold].
  - left. split; [intros r []|eauto].
  - destruct (flip_range_cases mode w r L (Hin r (or_introl eq_refl))) as [(Hc & M & ->)|[(Hc & e & Ep & E)|(Hc & Ep & p & ->)]].
    + cbn [obind]. destruct (IH (L ++ M) (fun q Hq => Hin q (or_intror Hq))) as [(HA & s & Es)|(pre & q & post & -> & Hpre & Hq & Hres)].
      * left. split; [intros q [<-|Hq]; auto|eauto].
      * right. exists (r :: pre), q, post. split; [reflexivity|]. split; [intros x [<-|Hx]; auto|]. auto.
    + right. exists [], r, rs. split; [reflexivity|]. split; [intros q []|]. split; [exact Hc|].
      left. exists e. split; [exact Ep|]. rewrite E. reflexivity.
    + right. exists [], r, rs. split; [reflexivity|]. split; [intros q []|]. split; [exact Hc|].
      right. split; [exact Ep|]. exists p. reflexivity.
Qed.

Lemma first_unflippable_unique : forall mode w r q, first_unflippable mode w r -> first_unflippable mode w q -> r = q.
Proof.
  intros mode w r q ((p & s & E & H) & N) ((p' & s' & E' & H') & N').
  rewrite E in E'. clear E. revert p' E' H'. induction p as [|a p IH]; intros [|a' p'] E' H'; cbn in E'; injection E'; intros; subst.
  - reflexivity.
  - exfalso. apply N. apply H'. left; auto.
  - exfalso. apply N'. apply H. left; auto.
  - eapply IH; eauto. intros h Hh; apply H; right; auto. intros h Hh; apply H'; right; auto.
Qed.

Lemma do_flip_cases : forall mode w,
  ((forall r, In r (iter_maps w) -> can_flip mode w r) /\ exists out, do_flip mode w = Ok out)
  \/ (exists r, first_unflippable mode w r
      /\ ((exists e, parse_doom_map w r = Err e /\ do_flip mode w = Err e)
          \/ ((forall e, parse_doom_map w r <> Err e) /\ exists p, do_flip mode w = Panic p))).
Proof.
  intros mode w. unfold do_flip. change (mk_flip [] [] 0) with (fst_of [] [] []).
  destruct (flip_fold_cases mode w (iter_maps w) [] (fun r H => H)) as [(HA & s & ->)|(pre & r & post & E & Hpre & Hr & Hres)]; cbn [obind].
  - left. eauto.
  - right. exists r. split; [split; [exists pre, post; auto|exact Hr]|].
    destruct Hres as [(e & Ep & ->)|(Ep & p & ->)]; cbn [obind]; eauto.
Qed.

Lemma first_unflippable_not_all : forall mode w r, first_unflippable mode w r -> ~ (forall q, In q (iter_maps w) -> can_flip mode w q).
Proof. intros mode w r ((pre & post & E & _) & N) H. apply N, H. rewrite E. apply in_or_app; right; left; auto. Qed.

Lemma do_flip_succeeds : forall mode w, (exists out, do_flip mode w = Ok out) <-> forall r, In r (iter_maps w) -> can_flip mode w r.
Proof.
  intros mode w. destruct (do_flip_cases mode w) as [(HA & out & ->)|(r & Hr & [(e & Ep & ->)|(Ep & p & ->)])].
  - split; eauto.
  - split; [intros [o H]; discriminate|]. intros H. exfalso. eapply first_unflippable_not_all; eauto.
  - split; [intros [o H]; discriminate|]. intros H. exfalso. eapply first_unflippable_not_all; eauto.
Qed.

Lemma do_flip_error : forall mode w e, do_flip mode w = Err e <-> exists r, first_unflippable mode w r /\ parse_doom_map w r = Err e.
Proof.
  intros mode w e. destruct (do_flip_cases mode w) as [(HA & out & ->)|(r & Hr & [(e' & Ep & ->)|(Ep & p & ->)])].
  - split; [discriminate|]. intros (r & Hr & _). exfalso. eapply first_unflippable_not_all; eauto.
  - split; [intros E; injection E as <-; eauto|]. intros (q & Hq & Eq). rewrite (first_unflippable_unique _ _ _ _ Hr Hq) in Ep. congruence.
  - split; [discriminate|]. intros (q & Hq & Eq). exfalso. rewrite (first_unflippable_unique _ _ _ _ Hr Hq) in Ep. eapply Ep; eauto.
Qed.

Lemma do_flip_panics : forall mode w, (exists p, do_flip mode w = Panic p) <->
  exists r, first_unflippable mode w r
    /\ ((exists p, parse_doom_map w r = Panic p)
        \/ (mode = Checked /\ exists m, parse_doom_map w r = Ok (BMDoom m) /\ has_minimum m)).
Proof.
  intros mode w. destruct (do_flip_cases mode w) as [(HA & out & ->)|(r & Hr & [(e & Ep & ->)|(Ep & p & Ef)])].
  - split; [intros [o H]; discriminate|]. intros (r & Hr & _). exfalso. eapply first_unflippable_not_all; eauto.
  - split; [intros [o H]; discriminate|]. intros (q & Hq & Eq). exfalso.
    rewrite (first_unflippable_unique _ _ _ _ Hr Hq) in Ep. destruct Eq as [[p Eq]|(_ & m & Eq & _)]; congruence.
  - split; [|eauto]. intros _. exists r. split; [exact Hr|].
    destruct (parse_doom_map w r) as [bm|e|p'] eqn:E; [|exfalso; eapply Ep; eauto|eauto].
    right. destruct Hr as ((pre & post & Eit & _) & N).
    destruct bm as [m|m].
    + destruct mode.
      * split; [auto|]. exists m. split; [auto|].
        destruct (flip_doom_cases Checked m (parsed_map_valid _ _ _ E)) as [(m' & _ & _ & _ & _ & Hm)|(_ & Hm & _)]; [|exact Hm].
        exfalso. apply N. exists (BMDoom m). split; [auto|]. intros m0 E0 _. injection E0 as <-. auto.
      * exfalso. apply N. exists (BMDoom m). split; [auto|]. intros; discriminate.
    + exfalso. apply N. exists (BMHexen m). split; [auto|]. discriminate.
Qed.

(** Checked builds negate exactly. *)
Lemma flip_checked_exact : forall buf w out, parse_wad buf = Ok w -> do_flip Checked w = Ok out ->
  exists ms, reads_as w ms /\ Forall (fun a => ~ has_minimum (snd a)) ms.
Proof.
  intros buf w out Hw Hf. apply do_flip_ok in Hf. destruct Hf as (ms & ms' & HR & HF & _).
  destruct (doom_maps_facts w (iter_maps w) ms (fun r H => H) HR) as (_ & HV & _).
  exists ms. split; [exact HR|]. apply (flips_facts Checked ms ms' HV HF). reflexivity.
Qed.

Lemma negated_value : forall a b, is_i16 a -> negated a b -> b = if a =? - 2 ^ 15 then a else - a.
Proof.
  intros a b Ha [Hb Hm]. unfold is_i16 in *. change (2 ^ 15) with 32768 in *. change (2 ^ 16) with 65536 in *.
  apply Z.mod_divide in Hm; [|lia]. destruct Hm as [q Hq]. destruct (Z.eqb_spec a (Z.opp 32768)); lia.
Qed.
