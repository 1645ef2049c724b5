(** Proofs about [Map::sector_to_polygons]. *)

From Coq Require Import String List ZArith Bool Lia ZifyBool FinFun.
From Verif Require Import Base BaseFacts ParseMap SpecLumps Float MapModel SpecMapModel MapFacts SectorPolys SpecSector SectorFacts LoopFacts.
Import ListNotations.
Local Open Scope Z_scope.

Lemma index_item : forall {A} (l : list A) z,
  match index l z with
  | Ok a => item_at l z a /\ has_item l z
  | Panic p => p = PIndex /\ ~ has_item l z
  | Err _ => False
  end.
Proof.
  intros A l z. unfold index, item_at, has_item, zlen.
  destruct ((0 <=? z) && (z <? Z.of_nat (length l))) eqn:E; [|split; [reflexivity|lia]].
  destruct (nth_error l (Z.to_nat z)) eqn:E2; [repeat split; try assumption; lia|].
  apply nth_error_None in E2. lia.
Qed.

Lemma has_item_item : forall {A} (l : list A) z, has_item l z -> exists a, item_at l z a.
Proof. intros A l z H. destruct (index l z) eqn:E; pose proof (index_item l z) as H'; rewrite E in H'; [|contradiction|tauto]. exists a. tauto. Qed.

Definition mends (e : medge) : Z * Z := (vr_ix (me_v0 e), vr_ix (me_v1 e)).
Definition strip (e : medge) := (me_line e, me_front e, me_v0 e, me_v1 e).

Section Collect.
  Variable m : gmap.
  Variable s : Z.

  Definition m_ref_ok (o : option handle) : Prop := forall h, o = Some h -> has_item (g_sides m) h.
  Definition m_verts_ok (l : line) : Prop := has_item (g_vertices m) (ln_start l) /\ has_item (g_vertices m) (ln_end l).
  Definition vref_at (v : vref) : Prop := item_at (g_vertices m) (vr_ix v) (vr_pt v).

  (** An edge made from a line. *)
  Definition edge_of (l : line) (e : medge) : Prop :=
    vr_ix (me_v0 e) = ln_start l /\ vr_ix (me_v1 e) = ln_end l /\ vref_at (me_v0 e) /\ vref_at (me_v1 e) /\ me_done e = false
    /\ me_line e = ln_index l /\ m_side_in m s (if me_front e then ln_front l else ln_back l).

  Lemma m_add_side_spec : forall l edges vm facing o, indexed (map mends edges) vm ->
    o = (if facing : bool then ln_front l else ln_back l) ->
    match map_add_side m s l (edges, vm) (facing, o) with
    | Ok (edges', vm') => m_ref_ok o /\ indexed (map mends edges') vm' /\
        ((~ m_side_in m s o /\ edges' = edges)
         \/ (m_side_in m s o /\ m_verts_ok l /\ exists e, edge_of l e /\ edges' = edges ++ [e]))
    | Panic p => p = PIndex /\ (~ m_ref_ok o \/ (m_side_in m s o /\ ~ m_verts_ok l))
    | Err _ => False
    end.
  Proof.
    intros l edges vm facing o Hix Ho. unfold map_add_side.
    destruct o as [h|].
    2: { split; [intros h; discriminate|]. split; [exact Hix|]. left. split; [|reflexivity]. intros (h & sd & H & _). discriminate. }
    pose proof (index_item (g_sides m) h) as H1. destruct (index (g_sides m) h) as [sd| |p]; cbn [obind]; [|contradiction|].
    2: { destruct H1 as (-> & H1). split; [reflexivity|]. left. intros H. apply H1, H. reflexivity. }
    destruct H1 as (Hi & Hh).
    assert (Hin : m_side_in m s (Some h) <-> si_sector sd = s).
    { split.
      - intros (h' & sd' & [= <-] & Hi' & Hp). rewrite (item_at_inj _ _ _ _ Hi Hi'). exact Hp.
      - intros H. exists h, sd. auto. }
    assert (Hr : m_ref_ok (Some h)) by (intros h' [= <-]; exact Hh).
    destruct (Z.eqb_spec (si_sector sd) s) as [Es|Es].
    2: { split; [exact Hr|]. split; [exact Hix|]. left. tauto. }
    unfold lookup_vref, m_verts_ok.
    pose proof (index_item (g_vertices m) (ln_start l)) as Hv0.
    destruct (index (g_vertices m) (ln_start l)) as [p0| |]; cbn [obind]; [|contradiction|].
    2: { destruct Hv0 as (-> & Hv0). split; [reflexivity|]. right. tauto. }
    pose proof (index_item (g_vertices m) (ln_end l)) as Hv1.
    destruct (index (g_vertices m) (ln_end l)) as [p1| |]; cbn [obind]; [|contradiction|].
    2: { destruct Hv1 as (-> & Hv1). split; [reflexivity|]. right. tauto. }
    split; [exact Hr|]. cbn [vr_ix]. split.
    - rewrite app_length. cbn [length]. rewrite Nat.add_sub, map_app. cbn [map mends me_v0 me_v1 vr_ix]. unfold mends at 2. cbn [me_v0 me_v1 vr_ix].
      rewrite <- (map_length mends edges). apply indexed_push. exact Hix.
    - right. split; [tauto|]. split; [tauto|]. eexists. split; [|reflexivity].
      unfold edge_of, vref_at; cbn. rewrite <- Ho. tauto.
  Qed.

  Lemma m_add_line_spec : forall l edges vm, indexed (map mends edges) vm ->
    match map_add_line m s (edges, vm) l with
    | Ok (edges', vm') =>
        m_ref_ok (ln_front l) /\ m_ref_ok (ln_back l) /\ (m_borders m s l -> m_verts_ok l)
        /\ indexed (map mends edges') vm'
        /\ ((m_borders m s l /\ exists e, edge_of l e /\ edges' = edges ++ [e]) \/ (~ m_borders m s l /\ edges' = edges))
    | Panic p => p = PIndex /\ (~ m_ref_ok (ln_front l) \/ ~ m_ref_ok (ln_back l) \/ (m_borders m s l /\ ~ m_verts_ok l))
    | Err _ => False
    end.
  Proof.
    intros l edges vm Hix. unfold map_add_line.
    assert (Hskip : match (let* front := oopt (index (g_sides m)) (ln_front l) in
        match front with
        | None => Ok false
        | Some f => let* back := oopt (index (g_sides m)) (ln_back l) in
            Ok match back with None => false | Some b => si_sector f =? si_sector b end
        end) with
      | Ok k => (k = true -> m_ref_ok (ln_front l) /\ m_ref_ok (ln_back l)) /\ (k = true <-> m_same_sector m l)
      | Panic p => p = PIndex /\ (~ m_ref_ok (ln_front l) \/ ~ m_ref_ok (ln_back l))
      | Err _ => False end).
    { unfold m_same_sector, m_ref_ok, oopt. destruct (ln_front l) as [f|]; cbn [obind].
      2: { split; [discriminate|]. split; [discriminate|]. intros (h & k & x & y & H & _). discriminate. }
      pose proof (index_item (g_sides m) f) as H1. destruct (index (g_sides m) f) as [x| |p]; cbn [obind]; [|contradiction|].
      2: { destruct H1 as (-> & H1). split; [reflexivity|]. left. intros H. apply H1, H. reflexivity. }
      destruct (ln_back l) as [b|]; cbn [obind].
      2: { split; [discriminate|]. split; [discriminate|]. intros (h & k & x' & y & _ & H & _). discriminate. }
      pose proof (index_item (g_sides m) b) as H2. destruct (index (g_sides m) b) as [y| |p]; cbn [obind]; [|contradiction|].
      2: { destruct H2 as (-> & H2). split; [reflexivity|]. right. intros H. apply H2, H. reflexivity. }
      destruct H1 as (H1 & H1'), H2 as (H2 & H2'). split; [intros _; split; intros h [= <-]; assumption|].
      rewrite Z.eqb_eq. split; [intros E; exists f, b, x, y; auto|]. intros (h & k & x' & y' & [= <-] & [= <-] & Hx & Hy & E).
      rewrite (item_at_inj _ _ _ _ H1 Hx), (item_at_inj _ _ _ _ H2 Hy). exact E. }
    assert (Hbs : m_side_in m s (ln_front l) -> m_side_in m s (ln_back l) -> m_same_sector m l).
    { intros (h & x & Eh & Hx & Sx) (k & y & Ek & Hy & Sy). exists h, k, x, y. repeat split; auto; try apply Hx; try apply Hy. congruence. }
    assert (Hbd : m_borders m s l <-> (m_side_in m s (ln_front l) \/ m_side_in m s (ln_back l)) /\ ~ m_same_sector m l) by reflexivity.
    set (Bd := m_borders m s l) in *. clearbody Bd.
    assert (Hmatch : forall (k : bool -> outcome (list medge * vmap)),
      (let* front := oopt (index (g_sides m)) (ln_front l) in
       let* skip := match front with
        | None => Ok false
        | Some f => let* back := oopt (index (g_sides m)) (ln_back l) in
            Ok match back with None => false | Some b => si_sector f =? si_sector b end
        end in k skip) =
      (let* skip := (let* front := oopt (index (g_sides m)) (ln_front l) in
       match front with
        | None => Ok false
        | Some f => let* back := oopt (index (g_sides m)) (ln_back l) in
            Ok match back with None => false | Some b => si_sector f =? si_sector b end
        end) in k skip)).
    { intros k. destruct (oopt (index (g_sides m)) (ln_front l)); reflexivity. }
    rewrite Hmatch. clear Hmatch.
    destruct (let* front := _ in _) as [k| |p]; cbn [obind]; [|contradiction|tauto].
    destruct Hskip as (Hr & Hk). set (Same := m_same_sector m l) in *. clearbody Same. destruct k.
    { destruct (Hr eq_refl) as (Hrf & Hrb). split; [exact Hrf|]. split; [exact Hrb|]. split; [tauto|]. split; [exact Hix|]. right. tauto. }
    assert (Hns : ~ Same) by (rewrite <- Hk; discriminate).
    cbn [ofold].
    pose proof (m_add_side_spec l edges vm true (ln_front l) Hix eq_refl) as HA.
    destruct (map_add_side m s l (edges, vm) (true, ln_front l)) as [[edges1 vm1]| |p]; cbn [obind]; [|contradiction|].
    2: { destruct HA as (-> & HA). split; [reflexivity|]. tauto. }
    destruct HA as (HAr & HAi & HA).
    pose proof (m_add_side_spec l edges1 vm1 false (ln_back l) HAi eq_refl) as HB.
    destruct (map_add_side m s l (edges1, vm1) (false, ln_back l)) as [[edges2 vm2]| |p]; cbn [obind]; [|contradiction|].
    2: { destruct HB as (-> & HB). split; [reflexivity|]. tauto. }
    destruct HB as (HBr & HBi & HB).
    split; [exact HAr|]. split; [exact HBr|]. split; [tauto|]. split; [exact HBi|].
    destruct HA as [(HA & ->)|(HA & HAv & e1 & He1 & ->)], HB as [(HB & ->)|(HB & HBv & e2 & He2 & ->)].
    - right. tauto.
    - left. split; [tauto|]. eauto.
    - left. split; [tauto|]. eauto.
    - exfalso. tauto.
  Qed.

  Definition all_ok (lines : list line) : Prop :=
    forall l, In l lines -> m_ref_ok (ln_front l) /\ m_ref_ok (ln_back l) /\ (m_borders m s l -> m_verts_ok l).

  Lemma m_collect_spec : forall lines edges vm, indexed (map mends edges) vm ->
    match ofold (map_add_line m s) lines (edges, vm) with
    | Ok (edges', vm') => all_ok lines /\ indexed (map mends edges') vm'
        /\ exists bl new, edges' = edges ++ new /\ selected (m_borders m s) lines bl /\ Forall2 edge_of bl new
    | Panic p => p = PIndex /\ ~ all_ok lines
    | Err _ => False
    end.
  Proof.
    induction lines as [|l lines IH]; intros edges vm Hix; cbn [ofold].
    { split; [intros l []|]. split; [exact Hix|]. exists [], []. rewrite app_nil_r. split; [reflexivity|]. split; constructor. }
    pose proof (m_add_line_spec l edges vm Hix) as H1.
    destruct (map_add_line m s (edges, vm) l) as [[edges1 vm1]| |p]; cbn [obind]; [|contradiction|].
    2: { destruct H1 as (-> & H1). split; [reflexivity|]. intros H. specialize (H l (or_introl eq_refl)). tauto. }
    destruct H1 as (Hf & Hb & Hv & Hix1 & He1). specialize (IH edges1 vm1 Hix1).
    destruct (ofold _ _ _) as [[edges2 vm2]| |p]; [|contradiction|].
    2: { destruct IH as (-> & IH). split; [reflexivity|]. intros H. apply IH. intros l' Hl'. apply H. right. exact Hl'. }
    destruct IH as (Hall & Hix2 & bl & new & -> & Hsel & Hnew).
    split; [intros l' [<-|Hl']; [tauto|apply Hall, Hl']|]. split; [exact Hix2|].
    destruct He1 as [(Hbl & e & He & ->)|(Hbl & ->)].
    - exists (l :: bl), (e :: new). rewrite <- app_assoc. split; [reflexivity|]. split; constructor; assumption.
    - exists bl, new. split; [reflexivity|]. split; [constructor; assumption|exact Hnew].
  Qed.

  Lemma all_ok_exist : all_ok (g_lines m) <-> m_indices_exist m s.
  Proof.
    unfold all_ok, m_indices_exist, m_ref_ok, m_verts_ok. split.
    - intros H. split.
      + intros l h Hl [E|E]; destruct (H l Hl) as (H1 & H2 & _); auto.
      + intros l Hl. apply H, Hl.
    - intros (H1 & H2) l Hl. split; [intros h E; eauto|]. split; [intros h E; eauto|]. auto.
  Qed.
End Collect.

(** Positions of the selected lines. *)
Lemma selected_positions : forall {L} (P : L -> Prop) ls bl, selected P ls bl ->
  exists ps, NoDup ps /\ Forall2 (fun p l => nth_error ls p = Some l) ps bl
    /\ (forall p l, nth_error ls p = Some l -> P l -> In p ps).
Proof.
  intros L P ls bl H. induction H as [|l ls bl Hp _ (ps & Hnd & HF & Hc)|l ls bl Hp _ (ps & Hnd & HF & Hc)].
  - exists []. split; [constructor|]. split; [constructor|]. intros [|p] l H; discriminate.
  - exists (0%nat :: map S ps). split.
    { constructor; [intros Hin; apply in_map_iff in Hin; destruct Hin as (x & Hx & _); discriminate|].
      apply FinFun.Injective_map_NoDup; [intros a b; congruence|exact Hnd]. }
    split. { constructor; [reflexivity|]. clear - HF. induction HF; constructor; auto. }
    intros [|p] l' Hl' Hp'; cbn in Hl'; [left; reflexivity|]. right. apply in_map. eauto.
  - exists (map S ps). split; [apply FinFun.Injective_map_NoDup; [intros a b; congruence|exact Hnd]|].
    split. { clear - HF. induction HF; constructor; auto. }
    intros [|p] l' Hl' Hp'; cbn in Hl'; [injection Hl' as ->; contradiction|]. apply in_map. eauto.
Qed.

(** ** Walking *)

Definition m_done (edges : list medge) (k : nat) : Prop := exists ed, nth_error edges k = Some ed /\ me_done ed = true.

Lemma set_done_spec : forall edges e ed, nth_error edges e = Some ed ->
  exists edges', set_done edges e = Ok edges' /\ map strip edges' = map strip edges
    /\ (forall k, m_done edges' k <-> m_done edges k \/ k = e).
Proof.
  intros edges e ed He. unfold set_done, write_at. rewrite (proj2 (Z.leb_le _ _)), Nat2Z.id by lia.
  set (f := fun x => mk_medge (me_line x) (me_front x) (me_v0 x) (me_v1 x) true).
  destruct (update_nth_map strip f edges e ed (fun a => eq_refl) He) as (l' & El & Em).
  rewrite El. exists l'. split; [reflexivity|]. split; [exact Em|]. intros k. unfold m_done.
  assert (G : forall edges l' e ed, update_nth e f edges = Some l' -> nth_error edges e = Some ed ->
            forall k, nth_error l' k = if Nat.eqb k e then Some (f ed) else nth_error edges k).
  { clear. induction edges as [|y edges IH]; intros l' e ed El He k; destruct e; cbn in He; try discriminate; cbn [update_nth] in El.
    - injection El as <-. injection He as ->. destruct k; reflexivity.
    - destruct (update_nth e _ edges) eqn:E; [|discriminate]. injection El as <-. destruct k; [reflexivity|]. cbn. eapply IH; eauto. }
  rewrite (G _ _ _ _ El He k). destruct (Nat.eqb_spec k e) as [->|Hk].
  - split; [auto|]. intros _. eexists. split; [reflexivity|reflexivity].
  - tauto.
Qed.

Lemma strip_mends : forall es es', map strip es' = map strip es -> map mends es' = map mends es.
Proof.
  intros es es' H. assert (G : forall l, map mends l = map (fun x => match x with (_, _, a, b) => (vr_ix a, vr_ix b) end) (map strip l)).
  { intros l. rewrite map_map. reflexivity. }
  rewrite !G, H. reflexivity.
Qed.
Lemma strip_length : forall es es', map strip es' = map strip es -> length es' = length es.
Proof. intros es es' H. rewrite <- (map_length strip es'), H. apply map_length. Qed.
Lemma strip_verts : forall es es' (P : vref -> Prop), map strip es' = map strip es ->
  (forall e, In e es -> P (me_v0 e) /\ P (me_v1 e)) -> (forall e, In e es' -> P (me_v0 e) /\ P (me_v1 e)).
Proof.
  intros es es' P H HP e He. apply (in_map strip) in He. rewrite H in He. apply in_map_iff in He.
  destruct He as (e' & E & He'). apply HP in He'. unfold strip in E. injection E as _ _ E0 E1. rewrite <- E0, <- E1. exact He'.
Qed.

(** The best neighbour is an edge at the vertex, not yet walked, and the vertex its other end. *)
Definition cand (edges : list medge) (i : nat) (next : vref) (es : list nat) (c : closest) : Prop :=
  (cl_edge c = None /\ cl_vertex c = None /\ cl_ccw c = false)
  \/ exists e x, cl_edge c = Some e /\ cl_vertex c = Some x /\ In e es /\ e <> i
       /\ exists ed, nth_error edges e = Some ed /\ me_done ed = false
          /\ x = if vr_ix (me_v0 ed) =? vr_ix next then me_v1 ed else me_v0 ed.

Lemma consider_spec : forall i edges next cv es0 es c,
  incl es es0 -> (forall e, In e es -> exists ed, nth_error edges e = Some ed) -> cand edges i next es0 c ->
  exists c', ofold (consider_edge i edges next cv) es c = Ok c' /\ cand edges i next es0 c'
    /\ (cl_edge c <> None -> cl_edge c' <> None)
    /\ (forall e ed, In e es -> e <> i -> nth_error edges e = Some ed -> me_done ed = false -> cl_edge c' <> None).
Proof.
  induction es as [|e es IH]; intros c Hin Hex Hc; cbn [ofold].
  { exists c. split; [reflexivity|]. split; [exact Hc|]. split; [auto|]. intros e ed []. }
  assert (Hstep : exists c1, consider_edge i edges next cv c e = Ok c1 /\ cand edges i next es0 c1
            /\ (cl_edge c <> None -> cl_edge c1 <> None)
            /\ (forall ed, e <> i -> nth_error edges e = Some ed -> me_done ed = false -> cl_edge c1 <> None)).
  { unfold consider_edge. destruct (Nat.eqb_spec i e) as [->|Hie].
    { exists c. split; [reflexivity|]. split; [exact Hc|]. split; [auto|]. congruence. }
    destruct (Hex e (or_introl eq_refl)) as (ed & He). unfold index_nat. rewrite He. cbn [obind].
    destruct (me_done ed) eqn:Ed.
    { exists c. split; [reflexivity|]. split; [exact Hc|]. split; [auto|]. intros ed' _ [= <-]. congruence. }
    set (x := if vr_ix (me_v0 ed) =? vr_ix next then me_v1 ed else me_v0 ed).
    assert (Hgood : forall d b, cand edges i next es0 (mk_closest d (Some e) (Some x) b)).
    { intros d b. right. exists e, x. cbn. split; [reflexivity|]. split; [reflexivity|]. split; [apply Hin; left; reflexivity|].
      split; [auto|]. exists ed. auto. }
    cbv zeta. set (ccw := f64_gt _ _). set (d := f64_div _ _).
    destruct (ccw && negb (cl_ccw c)).
    { eexists. split; [reflexivity|]. split; [apply Hgood|]. split; intros; discriminate. }
    destruct (negb ccw && cl_ccw c) eqn:E2.
    { exists c. split; [reflexivity|]. split; [exact Hc|]. split; [auto|]. intros _ _ _ _.
      destruct Hc as [(_ & _ & Hc)|(e' & x' & Hc & _)]; [rewrite Hc, andb_false_r in E2; discriminate|congruence]. }
    match goal with |- context [if ?b then Ok (mk_closest _ _ _ _) else Ok c] => destruct b eqn:E3 end.
    { eexists. split; [reflexivity|]. split; [apply Hgood|]. split; intros; discriminate. }
    exists c. split; [reflexivity|]. split; [exact Hc|]. split; [auto|]. intros _ _ _ _.
    apply orb_false_elim in E3. destruct E3 as (E3 & _). apply orb_false_elim in E3. destruct E3 as (E3 & _).
    destruct (cl_edge c); [discriminate|discriminate]. }
  destruct Hstep as (c1 & -> & Hc1 & Hm1 & Hp1). cbn [obind].
  destruct (IH c1 (fun x H => Hin x (or_intror H)) (fun x H => Hex x (or_intror H)) Hc1) as (c' & -> & Hc' & Hm' & Hp').
  exists c'. split; [reflexivity|]. split; [exact Hc'|]. split; [auto|].
  intros e' ed [<-|Hin'] Hne Hed Hd; [apply Hm'; eapply Hp1; eauto|eapply Hp'; eauto].
Qed.

(** [es] are the edges along the vertices [vs] (a path of edges). *)
Definition vchain (E : list (Z * Z)) (vs : list Z) (es : list nat) : Prop := length vs = S (length es) /\ chain E vs es.

Lemma chain_snoc : forall E vs a es e x, length (vs ++ [a]) = S (length es) -> chain E (vs ++ [a]) es -> is_link E e a x ->
  chain E ((vs ++ [a]) ++ [x]) (es ++ [e]).
Proof.
  intros E vs a es e x Hl Hc Hlink i e' Hi. rewrite app_length in Hl. cbn [length] in Hl.
  destruct (Nat.lt_trichotomy i (length es)) as [H|[->|H]].
  - rewrite nth_error_app1 in Hi by exact H. destruct (Hc _ _ Hi) as (u & v & Hu & Hv & L). exists u, v.
    rewrite !(nth_error_app1 (vs ++ [a])) by (rewrite app_length; cbn; lia). auto.
  - rewrite nth_error_mid in Hi. injection Hi as <-. exists a, x.
    split; [rewrite nth_error_app1 by (rewrite app_length; cbn; lia); replace (length es) with (length vs) by lia; apply nth_error_mid|].
    split; [|exact Hlink]. replace (S (length es)) with (length (vs ++ [a])) by (rewrite app_length; cbn; lia). apply nth_error_mid.
  - apply nth_error_lt in Hi. rewrite app_length in Hi. cbn in Hi. lia.
Qed.

Section Walk.
  Variable m : gmap.
  Variable E : list (Z * Z).
  Variable vm : vmap.
  Hypothesis Hix : indexed E vm.

  Definition verts_at (edges : list medge) : Prop := forall e, In e edges -> vref_at m (me_v0 e) /\ vref_at m (me_v1 e).

  Lemma vref_eq : forall u v, vref_at m u -> vref_at m v -> vr_ix u = vr_ix v -> u = v.
  Proof.
    intros [i p] [j q] Hu Hv Hij. unfold vref_at in *. cbn in *. subst j. f_equal. eapply item_at_inj; eauto.
  Qed.

  (** One step of the walk: all that can happen at the vertex [next]. *)
  Lemma walk_step : forall i edges next cv,
    map mends edges = E -> verts_at edges -> vref_at m next -> vert E (vr_ix next) ->
    exists es c, vmap_get vm (vr_ix next) = Some es
      /\ ofold (consider_edge i edges next cv) es (mk_closest f64_nan None None false) = Ok c
      /\ ((cl_edge c = None /\ forall e p, nth_error E e = Some p -> touches p (vr_ix next) -> e <> i -> m_done edges e)
          \/ exists e x, cl_edge c = Some e /\ cl_vertex c = Some x /\ e <> i /\ ~ m_done edges e
               /\ is_link E e (vr_ix next) (vr_ix x) /\ vref_at m x /\ (exists ed, nth_error edges e = Some ed)).
  Proof.
    intros i edges next cv He Hva Hnext Hv.
    destruct (vmap_get vm (vr_ix next)) as [es|] eqn:G.
    2: { exfalso. destruct Hv as (p & Hp & Ht). eapply (proj2 Hix); eauto. }
    destruct (proj1 Hix _ _ G) as (_ & Hes).
    assert (Hex : forall e, In e es -> exists ed, nth_error edges e = Some ed).
    { intros e H. apply Hes in H. destruct H as (p & Hp & _). rewrite <- He, nth_error_map in Hp. destruct (nth_error edges e); [eauto|discriminate]. }
    destruct (consider_spec i edges next cv es es (mk_closest f64_nan None None false) (fun x H => H) Hex) as (c & Hc & Hcand & _ & Hany).
    { left. auto. }
    exists es, c. split; [reflexivity|]. split; [exact Hc|].
    destruct Hcand as [(H1 & _)|(e & x & H1 & H2 & Hin & Hne & ed & Hed & Hd & Hx)].
    - left. split; [exact H1|]. intros e p Hp Ht Hne. assert (Hin : In e es) by (apply Hes; eauto).
      destruct (Hex e Hin) as (ed & Hed). exists ed. split; [exact Hed|]. destruct (me_done ed) eqn:Ed; [reflexivity|].
      exfalso. eapply Hany; eauto.
    - right. exists e, x. split; [exact H1|]. split; [exact H2|]. split; [exact Hne|].
      split; [intros (ed' & H & H'); congruence|].
      apply Hes in Hin. destruct Hin as (p & Hp & Ht).
      assert (Hpe : p = mends ed) by (rewrite <- He, nth_error_map, Hed in Hp; cbn in Hp; congruence). subst p.
      destruct (Hva ed (nth_error_In _ _ Hed)) as (Hv0 & Hv1).
      destruct (Z.eqb_spec (vr_ix (me_v0 ed)) (vr_ix next)) as [Eq|Eq]; subst x.
      + split; [left; rewrite Hp; unfold mends; rewrite Eq; reflexivity|]. eauto.
      + destruct Ht as [Ht|Ht]; cbn [mends fst snd] in Ht; [contradiction|].
        split; [right; rewrite Hp; unfold mends; rewrite Ht; reflexivity|]. eauto.
  Qed.

  (** The result of a walk that started with [used0]. *)
  Definition walk_result (edges0 edges' : list medge) (used0 : list nat) (o : list point) (used : list nat) : Prop :=
    map strip edges' = map strip edges0
    /\ (exists more, used = used0 ++ more /\ (forall k, m_done edges' k <-> m_done edges0 k \/ In k more)
          /\ forall k, In k more -> ~ m_done edges0 k)
    /\ NoDup used
    /\ exists vs : list vref, (forall v, In v vs -> vref_at m v) /\ o = map vr_pt vs
         /\ ((length vs = S (length used) /\ chain E (map vr_ix vs) used)
             \/ (length vs = length used /\ exists x p0, vref_at m x /\ chain E (map vr_ix vs ++ [vr_ix x]) used
                   /\ nth_error o 0 = Some p0 /\ point_eqb (vr_pt x) p0 = true)).

  Lemma walk_spec : forall fuel i edges vs used prev next,
    map mends edges = E -> verts_at edges -> vref_at m next -> (forall v, In v vs -> vref_at m v) ->
    vs <> [] -> length vs = length used -> chain E (map vr_ix vs ++ [vr_ix next]) used ->
    NoDup used -> (forall k, In k used -> m_done edges k) -> In i used ->
    (length E < length used + fuel)%nat ->
    exists edges' o' used', walk fuel vm i edges (map vr_pt vs) used prev next = Ok (edges', o', used')
      /\ walk_result edges edges' used o' used'.
  Proof.
    induction fuel as [|fuel IH]; intros i edges vs used prev next He Hva Hnext Hvs Hne Hlen Hch Hnd Hdn Hi Hfuel.
    { exfalso. assert (length used <= length E)%nat; [|lia].
      assert (Hinc : incl used (seq 0 (length E))).
      { intros k Hk. apply in_seq. destruct (Hdn k Hk) as (ed & Hed & _). apply nth_error_lt in Hed.
        rewrite <- He, map_length. lia. }
      pose proof (NoDup_incl_length Hnd Hinc) as H. rewrite seq_length in H. exact H. }
    cbn [walk]. destruct vs as [|v0 vs0]; [congruence|]. set (vs := v0 :: vs0) in *.
    replace (index_nat (map vr_pt vs) 0) with (Ok (vr_pt v0)) by reflexivity. cbn [obind].
    destruct (point_eqb (vr_pt next) (vr_pt v0)) eqn:Eq.
    { eexists _, _, _. split; [reflexivity|]. split; [reflexivity|]. split.
      { exists []. rewrite app_nil_r. split; [reflexivity|]. split; [intros k; cbn; tauto|intros k []]. }
      split; [exact Hnd|]. exists vs. split; [exact Hvs|]. split; [reflexivity|]. right. split; [exact Hlen|].
      exists next, (vr_pt v0). auto. }
    clearbody vs.
    assert (Hvn : vert E (vr_ix next)).
    { destruct used as [|u used'] eqn:Eu; [destruct vs; [congruence|discriminate]|]. rewrite <- Eu in *.
      destruct (nth_error_ex used (length used - 1)) as (e & Hel); [rewrite Eu; cbn; lia|].
      destruct (Hch _ _ Hel) as (a & b & Ha & Hb & Hl).
      replace (S (length used - 1)) with (length (map vr_ix vs)) in Hb by (rewrite map_length, Hlen, Eu; cbn; lia).
      rewrite nth_error_mid in Hb. injection Hb as <-.
      destruct (is_link_touch _ _ _ _ Hl) as (p & Hp & _ & T). exists p. split; [eauto using nth_error_In|exact T]. }
    destruct (walk_step i edges next (p_sub (vr_pt next) (vr_pt prev)) He Hva Hnext Hvn) as (es & c & -> & -> & Hcase).
    cbn [obind]. replace (map vr_pt vs ++ [vr_pt next]) with (map vr_pt (vs ++ [next])) by (rewrite map_app; reflexivity).
    assert (Hvs' : forall v, In v (vs ++ [next]) -> vref_at m v).
    { intros v H. apply in_app_or in H. destruct H as [H|[<-|[]]]; auto. }
    destruct Hcase as [(-> & _)|(e & x & -> & -> & Hei & Hnde & Hlink & Hxv & ed & Hed)].
    { eexists _, _, _. split; [reflexivity|]. split; [reflexivity|]. split.
      { exists []. rewrite app_nil_r. split; [reflexivity|]. split; [intros k; cbn; tauto|intros k []]. }
      split; [exact Hnd|]. exists (vs ++ [next]). split; [exact Hvs'|]. split; [reflexivity|]. left.
      split; [rewrite app_length; cbn; lia|]. rewrite map_app. exact Hch. }
    destruct (set_done_spec edges e ed Hed) as (edges1 & -> & Hst & Hd1). cbn [obind].
    assert (Heused : ~ In e used) by (intros H; apply Hnde, Hdn, H).
    destruct (IH i edges1 (vs ++ [next]) (used ++ [e]) next x) as (edges' & o' & used' & -> & Hr).
    - rewrite (strip_mends _ _ Hst). exact He.
    - exact (strip_verts _ _ _ Hst Hva).
    - exact Hxv.
    - exact Hvs'.
    - destruct vs; discriminate.
    - rewrite !app_length, Hlen. reflexivity.
    - rewrite map_app. cbn [map]. apply chain_snoc; [rewrite app_length, map_length; cbn; lia|exact Hch|exact Hlink].
    - apply NoDup_rev in Hnd. rewrite <- (rev_involutive (_ ++ [e])). apply NoDup_rev. rewrite rev_app_distr. cbn [rev app].
      constructor; [rewrite <- in_rev; exact Heused|exact Hnd].
    - intros k H. apply Hd1. apply in_app_or in H. destruct H as [H|[<-|[]]]; auto.
    - apply in_or_app. auto.
    - rewrite app_length. cbn [length]. lia.
    - eexists _, _, _. split; [reflexivity|]. destruct Hr as (R1 & (more & -> & R2 & R2') & R3 & R4).
      split; [congruence|]. split; [|split; [exact R3|exact R4]].
      exists (e :: more). split; [rewrite <- app_assoc; reflexivity|]. split.
      { intros k. rewrite R2, Hd1. cbn [In]. intuition. }
      intros k [<-|Hk]; [exact Hnde|]. intros H. apply (R2' k Hk). apply Hd1. auto.
  Qed.

  (** The outlines found so far. *)
  Definition outline_ok (x : list point * list nat) : Prop :=
    (3 <= length (fst x))%nat
    /\ exists vs : list vref, (forall v, In v vs -> vref_at m v) /\ fst x = map vr_pt vs
         /\ ((length vs = S (length (snd x)) /\ chain E (map vr_ix vs) (snd x))
             \/ (length vs = length (snd x) /\ exists y p0, vref_at m y /\ chain E (map vr_ix vs ++ [vr_ix y]) (snd x)
                   /\ nth_error (fst x) 0 = Some p0 /\ point_eqb (vr_pt y) p0 = true)).

  Definition starts_inv (edges : list medge) (outs : list (list point * list nat)) : Prop :=
    map mends edges = E /\ verts_at edges
    /\ (forall k, In k (concat (map snd outs)) -> m_done edges k)
    /\ NoDup (concat (map snd outs)) /\ Forall outline_ok outs.

  Lemma NoDup_app_intro : forall {A} (l r : list A), NoDup l -> NoDup r -> (forall x, In x l -> ~ In x r) -> NoDup (l ++ r).
  Proof.
    induction l as [|a l IH]; intros r Hl Hr Hd; [exact Hr|]. inversion Hl; subst. cbn [app]. constructor.
    - intros H. apply in_app_or in H. destruct H as [H|H]; [contradiction|]. apply (Hd a); [left; reflexivity|exact H].
    - apply IH; auto. intros x Hx. apply Hd. right. exact Hx.
  Qed.

  Lemma start_spec : forall i edges outs, starts_inv edges outs -> (i < length E)%nat ->
    exists edges' outs', start_edge vm (edges, outs) i = Ok (edges', outs') /\ starts_inv edges' outs'
      /\ map strip edges' = map strip edges.
  Proof.
    intros i edges outs (He & Hva & Hd & Hnd & Ho) Hi. unfold start_edge.
    destruct (nth_error_ex edges i) as (ed & Hed); [rewrite <- He, map_length in Hi; exact Hi|].
    unfold index_nat. rewrite Hed. cbn [obind]. destruct (me_done ed) eqn:Edd.
    { eexists _, _. split; [reflexivity|]. split; [|reflexivity]. split; [exact He|]. split; [exact Hva|]. split; [exact Hd|]. split; assumption. }
    destruct (set_done_spec edges i ed Hed) as (edges1 & -> & Hst & Hd1). cbn [obind].
    destruct (Hva ed (nth_error_In _ _ Hed)) as (Hv0 & Hv1).
    assert (Hnth : nth_error E i = Some (mends ed)) by (rewrite <- He, nth_error_map, Hed; reflexivity).
    destruct (walk_spec (length edges1 + 1) i edges1 [me_v0 ed] [i] (me_v0 ed) (me_v1 ed)) as (edges' & o & used & Hw & R1 & (more & -> & R2 & R2') & R3 & R4).
    - rewrite (strip_mends _ _ Hst). exact He.
    - exact (strip_verts _ _ _ Hst Hva).
    - exact Hv1.
    - intros v [<-|[]]. exact Hv0.
    - discriminate.
    - reflexivity.
    - intros [|k] e Hk; [|destruct k; discriminate]. injection Hk as <-. exists (vr_ix (me_v0 ed)), (vr_ix (me_v1 ed)).
      split; [reflexivity|]. split; [reflexivity|]. left. exact Hnth.
    - constructor; [intros []|constructor].
    - intros k [<-|[]]. apply Hd1. auto.
    - left. reflexivity.
    - rewrite (strip_length _ _ Hst), <- (map_length mends edges), He. cbn. lia.
    - cbn [map] in Hw. rewrite Hw. cbn [obind].
      assert (Hst' : map strip edges' = map strip edges) by congruence.
      assert (Hold : forall k, m_done edges k -> m_done edges' k) by (intros k H; apply R2; left; apply Hd1; auto).
      assert (Hused : forall k, In k ([i] ++ more) -> m_done edges' k).
      { intros k H. apply R2. apply in_app_or in H. destruct H as [[<-|[]]|H]; [left; apply Hd1|]; auto. }
      eexists _, _. split; [reflexivity|]. split; [|exact Hst'].
      split; [rewrite (strip_mends _ _ Hst'); exact He|]. split; [exact (strip_verts _ _ _ Hst' Hva)|].
      destruct (Nat.ltb_spec 2 (length o)) as [Hlo|Hlo].
      2: { split; [auto|]. split; [exact Hnd|exact Ho]. }
      rewrite map_app, concat_app. cbn [map concat snd]. rewrite app_nil_r. split; [|split].
      + intros k H. apply in_app_or in H. destruct H; auto.
      + apply NoDup_app_intro; [exact Hnd|exact R3|]. intros k Hk Hk'.
        assert (Hkd : m_done edges k) by auto. apply in_app_or in Hk'. destruct Hk' as [[<-|[]]|Hk'].
        * destruct Hkd as (ed' & H1 & H2). congruence.
        * apply (R2' k Hk'). apply Hd1. auto.
      + apply Forall_app. split; [exact Ho|]. constructor; [|constructor]. split; [cbn; lia|]. exact R4.
  Qed.

  Lemma starts_spec : forall is edges outs, starts_inv edges outs -> (forall i, In i is -> (i < length E)%nat) ->
    exists edges' outs', ofold (start_edge vm) is (edges, outs) = Ok (edges', outs') /\ starts_inv edges' outs'.
  Proof.
    induction is as [|i is IH]; intros edges outs Hinv His; cbn [ofold]; [eauto|].
    destruct (start_spec i edges outs Hinv (His i (or_introl eq_refl))) as (edges1 & outs1 & -> & H1 & _). cbn [obind].
    apply IH; [exact H1|]. intros k Hk. apply His. right. exact Hk.
  Qed.
End Walk.

Lemma Forall2_nth : forall {A B} (R : A -> B -> Prop) l r i b, Forall2 R l r -> nth_error r i = Some b ->
  exists a, nth_error l i = Some a /\ R a b.
Proof.
  intros A B R l r i b H. revert i. induction H; intros [|i] Hi; cbn in *; try discriminate; [injection Hi as <-; eauto|eauto].
Qed.
Lemma Forall2_nth_l : forall {A B} (R : A -> B -> Prop) l r i a, Forall2 R l r -> nth_error l i = Some a ->
  exists b, nth_error r i = Some b /\ R a b.
Proof.
  intros A B R l r i a H. revert i. induction H; intros [|i] Hi; cbn in *; try discriminate; [injection Hi as <-; eauto|eauto].
Qed.
Lemma Forall2_len : forall {A B} (R : A -> B -> Prop) l r, Forall2 R l r -> length l = length r.
Proof. intros A B R l r H. induction H; cbn; congruence. Qed.

(** From edge numbers to line numbers. *)
Section Lines.
  Variable m : gmap.
  Variable s : Z.
  Variable edges : list medge.
  Variable bl : list line.
  Variable ps : list nat.
  Hypothesis Hbl : Forall2 (edge_of m s) bl edges.
  Hypothesis Hps : Forall2 (fun p l => nth_error (g_lines m) p = Some l) ps bl.
  Hypothesis Hnd : NoDup ps.
  Hypothesis Hbd : forall l, In l bl -> m_borders m s l.

  Definition line_no (e : nat) : nat := nth e ps 0%nat.

  Lemma link_joins : forall e a b, is_link (map mends edges) e a b -> m_joins m s (line_no e) a b.
  Proof.
    intros e a b H.
    assert (Hex : exists ed, nth_error edges e = Some ed /\ (mends ed = (a, b) \/ mends ed = (b, a))).
    { destruct H as [H|H]; rewrite nth_error_map in H; destruct (nth_error edges e) as [ed|]; try discriminate; cbn [option_map] in H; exists ed; (split; [reflexivity|]); [left|right]; congruence. }
    destruct Hex as (ed & Hed & Hm).
    destruct (Forall2_nth _ _ _ _ _ Hbl Hed) as (l & Hl & He). destruct (Forall2_nth _ _ _ _ _ Hps Hl) as (p & Hp & Hpl).
    exists l. unfold line_no. rewrite (nth_error_nth _ _ _ Hp). split; [exact Hpl|]. split; [apply Hbd; eauto using nth_error_In|].
    destruct He as (E0 & E1 & _). unfold mends in Hm. rewrite E0, E1 in Hm. destruct Hm as [Hm|Hm]; injection Hm as -> ->; auto.
  Qed.

  Lemma line_no_inj : forall e e', (e < length edges)%nat -> (e' < length edges)%nat -> line_no e = line_no e' -> e = e'.
  Proof.
    intros e e' He He' H. unfold line_no in H. pose proof (Forall2_len _ _ _ Hbl). pose proof (Forall2_len _ _ _ Hps).
    eapply (proj1 (List.NoDup_nth ps 0%nat) Hnd); eauto; lia.
  Qed.

  Lemma map_NoDup : forall (used : list nat), NoDup used -> (forall k, In k used -> (k < length edges)%nat) -> NoDup (map line_no used).
  Proof.
    induction used as [|k used IH]; intros H Hb; [constructor|]. inversion H; subst. cbn [map]. constructor.
    - intros Hin. apply in_map_iff in Hin. destruct Hin as (k' & E & Hk'). apply line_no_inj in E; [|apply Hb; right; exact Hk'|apply Hb; left; reflexivity].
      subst. contradiction.
    - apply IH; [assumption|]. intros k' Hk'. apply Hb. right. exact Hk'.
  Qed.

  Lemma outline_walked : forall o used, outline_ok m (map mends edges) (o, used) ->
    exists vs, walked m s o vs (map line_no used).
  Proof.
    intros o used (_ & vs & Hvs & Ho & Hc). cbn [fst snd] in *. exists (map vr_ix vs). subst o. split.
    { clear - Hvs. induction vs as [|v vs IH]; cbn [map]; constructor; [apply Hvs; left; reflexivity|]. apply IH. intros x Hx. apply Hvs. right. exact Hx. }
    rewrite !map_length. destruct Hc as [(Hl & Hc)|(Hl & y & p0 & Hy & Hc & H0 & Hpe)].
    - split; [|left; lia]. intros k p a b Hp Ha Hb. rewrite nth_error_map in Hp. destruct (nth_error used k) as [e|] eqn:Ee; [|discriminate].
      cbn in Hp. injection Hp as <-. destruct (Hc _ _ Ee) as (a' & b' & Ha' & Hb' & Hlk). unfold handle in *. assert (a' = a) by congruence. assert (b' = b) by congruence. subst a' b'. apply link_joins. exact Hlk.
    - split.
      + intros k p a b Hp Ha Hb. rewrite nth_error_map in Hp. destruct (nth_error used k) as [e|] eqn:Ee; [|discriminate].
        cbn in Hp. injection Hp as <-. destruct (Hc _ _ Ee) as (a' & b' & Ha' & Hb' & Hlk). apply link_joins.
        pose proof (nth_error_lt _ _ _ Ha). pose proof (nth_error_lt _ _ _ Hb).
        rewrite nth_error_app1 in Ha' by assumption. rewrite nth_error_app1 in Hb' by assumption. unfold handle in *. assert (a' = a) by congruence. assert (b' = b) by congruence. subst a' b'. exact Hlk.
      + right. split; [lia|].
        assert (Hpos : (0 < length vs)%nat) by (destruct vs; [discriminate|cbn; lia]).
        destruct (nth_error_ex used (length vs - 1) ltac:(lia)) as (e & He).
        destruct (Hc _ _ He) as (a & b & Ha & Hb & Hlk).
        replace (S (length vs - 1)) with (length (map vr_ix vs)) in Hb by (rewrite map_length; lia).
        rewrite nth_error_mid in Hb. injection Hb as <-.
        exists (line_no e), a, (vr_ix y), (vr_pt y), p0.
        split; [rewrite nth_error_map, He; reflexivity|].
        split; [rewrite nth_error_app1 in Ha by (rewrite map_length; lia); exact Ha|].
        split; [apply link_joins; exact Hlk|]. auto.
  Qed.
End Lines.

Lemma map_sector_spec : forall m s,
  (m_indices_exist m s ->
     exists outlines vss lss, map_sector_to_polygons m s = Ok outlines
       /\ length vss = length outlines /\ length lss = length outlines
       /\ (forall k o vs ls, nth_error outlines k = Some o -> nth_error vss k = Some vs -> nth_error lss k = Some ls ->
             (3 <= length o)%nat /\ walked m s o vs ls)
       /\ NoDup (concat lss))
  /\ (~ m_indices_exist m s -> map_sector_to_polygons m s = Panic PIndex).
Proof.
  intros m s. unfold map_sector_to_polygons, map_polygons_traced.
  pose proof (m_collect_spec m s (g_lines m) [] [] indexed_nil) as H. pose proof (all_ok_exist m s) as Hae.
  destruct (ofold _ _ _) as [[edges vm]| |p]; cbn [obind]; [|contradiction|].
  2: { destruct H as (-> & H). split; [tauto|reflexivity]. }
  destruct H as (Hok & Hix & bl & new & E & Hsel & Hnew). cbn [app] in E. subst new. split; [|tauto]. intros _.
  destruct (selected_positions _ _ _ Hsel) as (ps & Hpnd & Hps & _).
  assert (Hbd : forall l, In l bl -> m_borders m s l) by (intros l Hl; apply (selected_in _ _ _ Hsel), Hl).
  destruct (starts_spec m (map mends edges) vm Hix (seq 0 (length edges)) edges []) as (edges' & outs & -> & Hinv).
  { split; [reflexivity|]. split.
    - intros e He. destruct (In_nth_error _ _ He) as (k & Hk). destruct (Forall2_nth _ _ _ _ _ Hnew Hk) as (l & _ & Hl). unfold edge_of in Hl. tauto.
    - split; [intros k []|]. split; constructor. }
  { intros i Hi. apply in_seq in Hi. rewrite map_length. lia. }
  cbn [obind]. destruct Hinv as (He' & Hva & Hdn & Hnd & Hout).
  assert (Hlen : length edges' = length edges) by (rewrite <- (map_length mends), He'; apply map_length).
  assert (Hw : forall x, In x outs -> exists vs, walked m s (fst x) vs (map (line_no ps) (snd x))).
  { intros [o used] Hx. rewrite Forall_forall in Hout. eapply outline_walked; eauto. }
  assert (Hvss : exists vss, length vss = length outs /\ forall k x vs, nth_error outs k = Some x -> nth_error vss k = Some vs ->
             walked m s (fst x) vs (map (line_no ps) (snd x))).
  { clear - Hw. induction outs as [|x outs IH].
    - exists []. split; [reflexivity|]. intros [|k] x vs H; discriminate.
    - destruct IH as (vss & Hl & HI); [intros y Hy; apply Hw; right; exact Hy|]. destruct (Hw x (or_introl eq_refl)) as (vs & Hvs).
      exists (vs :: vss). split; [cbn; congruence|]. intros [|k] y vs' H H'; cbn in *; [congruence|eauto]. }
  destruct Hvss as (vss & Hvl & Hvss).
  exists (map fst outs), vss, (map (fun x => map (line_no ps) (snd x)) outs).
  split; [reflexivity|]. rewrite !map_length. split; [exact Hvl|]. split; [reflexivity|]. split.
  - intros k o vs ls Ho Hvs Hls. rewrite nth_error_map in Ho, Hls. destruct (nth_error outs k) as [x|] eqn:Ex; [|discriminate].
    cbn in Ho, Hls. injection Ho as <-. injection Hls as <-. split; [|eapply Hvss; eauto].
    rewrite Forall_forall in Hout. apply (Hout x). eauto using nth_error_In.
  - replace (concat (map (fun x => map (line_no ps) (snd x)) outs)) with (map (line_no ps) (concat (map snd outs))).
    + eapply map_NoDup; eauto. intros k Hk. apply Hdn in Hk. destruct Hk as (ed & Hed & _). apply nth_error_lt in Hed. lia.
    + rewrite concat_map, map_map. reflexivity.
Qed.


(** ** Sectors bounded by disjoint loops *)

Section Loops.
  Variable m : gmap.
  Variable E : list (Z * Z).
  Variable vm : vmap.
  Hypothesis Hix : indexed E vm.
  Hypothesis Hdeg : forall v, vert E v -> degree2 E v.
  Hypothesis Hnl : forall p, In p E -> fst p <> snd p.
  Hypothesis Hpt : forall u v, vref_at m u -> vref_at m v -> vert E (vr_ix u) -> vert E (vr_ix v) ->
    (point_eqb (vr_pt u) (vr_pt v) = true <-> vr_ix u = vr_ix v).

  Lemma walk_loop : forall fuel i seen0 edges v0 vs used prev next,
    map mends edges = E -> verts_at m edges -> vref_at m next -> (forall v, In v (v0 :: vs) -> vref_at m v) ->
    seen_closed E seen0 -> NoDup (seen0 ++ map vr_ix (v0 :: vs) ++ [vr_ix next]) ->
    (forall v, In v (map vr_ix (v0 :: vs) ++ [vr_ix next]) -> vert E v) ->
    length (v0 :: vs) = length used -> chain E (map vr_ix (v0 :: vs) ++ [vr_ix next]) used ->
    nth_error used 0 = Some i ->
    (forall k, m_done edges k <-> In k used \/ exists p v, nth_error E k = Some p /\ touches p v /\ In v seen0) ->
    (length E < length used + fuel)%nat ->
    exists edges' vs' used', walk fuel vm i edges (map vr_pt (v0 :: vs)) used prev next = Ok (edges', map vr_pt vs', used')
      /\ (forall v, In v vs' -> vref_at m v) /\ closed_chain E (map vr_ix vs') used'
      /\ map strip edges' = map strip edges /\ NoDup (seen0 ++ map vr_ix vs') /\ (forall v, In v (map vr_ix vs') -> vert E v)
      /\ (exists more, used' = used ++ more)
      /\ (forall k, m_done edges' k <-> In k used' \/ exists p v, nth_error E k = Some p /\ touches p v /\ In v seen0).
  Proof.
    induction fuel as [|fuel IH]; intros i seen0 edges v0 vs used prev next He Hva Hnext Hvs Hsc Hnd Hvert Hlen Hch Hi Hdn Hfuel.
    { exfalso. assert (length used <= length E)%nat; [|lia].
      assert (Hinc : incl used (seq 0 (length E))).
      { intros k Hk. apply in_seq. destruct (proj2 (Hdn k) (or_introl Hk)) as (ed & Hed & _). apply nth_error_lt in Hed.
        rewrite <- He, map_length. lia. }
      apply NoDup_app_r in Hnd. pose proof (chain_NoDup _ _ _ Hnd Hch) as Hun.
      pose proof (NoDup_incl_length Hun Hinc) as H. rewrite seq_length in H. exact H. }
    assert (Hvs_nd : NoDup (map vr_ix (v0 :: vs) ++ [vr_ix next])) by (eapply NoDup_app_r; exact Hnd).
    pose proof (chain_NoDup _ _ _ Hvs_nd Hch) as Hun.
    set (w := vr_ix next) in *. set (all := v0 :: vs) in *. set (ix := map vr_ix all) in *.
    assert (Hlx : length ix = length used) by (unfold ix; rewrite map_length; exact Hlen).
    assert (Hwin : In w (ix ++ [w])) by (apply in_or_app; right; left; reflexivity).
    assert (Hw0 : ~ In w seen0).
    { rewrite app_assoc in Hnd. apply NoDup_remove_2 in Hnd. rewrite app_nil_r in Hnd. intros H. apply Hnd. apply in_or_app. auto. }
    assert (Hwix : ~ In w ix).
    { rewrite app_assoc in Hnd. apply NoDup_remove_2 in Hnd. rewrite app_nil_r in Hnd. intros H. apply Hnd. apply in_or_app. auto. }
    assert (Hv0w : vr_ix v0 <> w). { intros H. apply Hwix. rewrite <- H. unfold ix, all. left. reflexivity. }
    assert (Hv0at : vref_at m v0) by (apply Hvs; left; reflexivity).
    assert (Hv0v : vert E (vr_ix v0)) by (apply Hvert; unfold ix, all; left; reflexivity).
    cbn [walk]. unfold all at 1. replace (index_nat (map vr_pt (v0 :: vs)) 0) with (Ok (vr_pt v0)) by reflexivity. cbn [obind].
    assert (Hne : point_eqb (vr_pt next) (vr_pt v0) = false).
    { destruct (point_eqb (vr_pt next) (vr_pt v0)) eqn:Eq; [|reflexivity]. exfalso.
      apply Hpt in Eq; auto. }
    rewrite Hne. fold all.
    (* edges of the chain touching w are only the last one *)
    assert (Hlast : forall j e p, nth_error used j = Some e -> nth_error E e = Some p -> touches p w -> S j = length used).
    { intros j e p Hj Hp Ht. destruct (Hch _ _ Hj) as (a & b & Ha & Hb & Hl).
      assert (Hwn : nth_error (ix ++ [w]) (length ix) = Some w) by (apply nth_error_mid).
      pose proof (nth_error_lt _ _ _ Hj).
      destruct (is_link_other _ _ _ _ _ _ Hl Hp Ht) as [->| ->].
      - pose proof (LoopFacts.NoDup_nth _ _ _ _ Hvs_nd Ha Hwn). lia.
      - pose proof (LoopFacts.NoDup_nth _ _ _ _ Hvs_nd Hb Hwn). lia. }
    destruct (walk_step m E vm Hix i edges next (p_sub (vr_pt next) (vr_pt prev)) He Hva Hnext (Hvert w Hwin)) as (es & c & -> & -> & Hcase).
    cbn [obind]. destruct Hcase as [(_ & Hall)|(e & x & -> & -> & Hei & Hnde & Hlink & Hxv & ed & Hed)].
    { exfalso. fold w in Hall. destruct (Hdeg w (Hvert w Hwin)) as (a & b & Hab & (pa & Hpa & Ta) & (pb & Hpb & Tb) & _).
      assert (D : forall y py, nth_error E y = Some py -> touches py w -> In y used).
      { intros y py Hy Ty. destruct (Nat.eq_dec y i) as [->|Hyi]; [eauto using nth_error_In|].
        pose proof (Hall y py Hy Ty Hyi) as Hd. apply Hdn in Hd. destruct Hd as [Hd|(p & v & Hp & Tv & Hv)]; [exact Hd|].
        exfalso. apply Hw0. eapply Hsc; [exact Hp|exact Tv| |exact Hv]. replace p with py by congruence. exact Ty. }
      destruct (In_nth_error _ _ (D a pa Hpa Ta)) as (ja & Hja). destruct (In_nth_error _ _ (D b pb Hpb Tb)) as (jb & Hjb).
      pose proof (Hlast _ _ _ Hja Hpa Ta). pose proof (Hlast _ _ _ Hjb Hpb Tb). assert (ja = jb) by lia. congruence. }
    destruct (set_done_spec edges e ed Hed) as (edges1 & -> & Hst & Hd1). cbn [obind].
    assert (Heused : ~ In e used) by (intros H; apply Hnde; apply Hdn; auto).
    fold w in Hlink. destruct (is_link_touch _ _ _ _ Hlink) as (p & Hp & Tw & Tx).
    assert (Hxw : vr_ix x <> w).
    { intros H. destruct Hlink as [H'|H']; apply nth_error_In in H'; apply Hnl in H'; cbn in H'; congruence. }
    assert (Hxvert : vert E (vr_ix x)) by (exists p; split; [eauto using nth_error_In|exact Tx]).
    assert (Hx0 : ~ In (vr_ix x) seen0). { intros H. apply Hw0. eapply Hsc; [exact Hp|exact Tx|exact Tw|exact H]. }
    assert (Hd2 : forall k, m_done edges1 k <-> In k (used ++ [e]) \/ exists p v, nth_error E k = Some p /\ touches p v /\ In v seen0).
    { intros k. rewrite Hd1, Hdn, in_app_iff. cbn [In]. intuition. }
    assert (Hvs' : forall v, In v (all ++ [next]) -> vref_at m v).
    { intros v H. apply in_app_or in H. destruct H as [H|[<-|[]]]; auto. }
    assert (Hchx : chain E ((ix ++ [w]) ++ [vr_ix x]) (used ++ [e])).
    { apply chain_snoc; [rewrite app_length; cbn [length]; lia|exact Hch|exact Hlink]. }
    assert (Hux : NoDup (used ++ [e])).
    { apply NoDup_app_intro; [exact Hun|constructor; [intros []|constructor]|]. intros k Hk [<-|[]]. contradiction. }
    destruct (in_dec Z.eq_dec (vr_ix x) ix) as [Hxin|Hxin].
    - (* back at the start *)
      assert (Hx0' : vr_ix x = vr_ix v0).
      { destruct (In_nth_error _ _ Hxin) as (j & Hj). pose proof (nth_error_lt _ _ _ Hj) as Hjl.
        destruct j as [|j]; [unfold ix, all in Hj; cbn in Hj; congruence|]. exfalso.
        destruct (nth_error_ex used (S j) ltac:(lia)) as (e1 & H1). destruct (nth_error_ex used j ltac:(lia)) as (e2 & H2).
        destruct (Hch _ _ H1) as (a & b & Ha & _ & Hl1). destruct (Hch _ _ H2) as (a' & b' & _ & Hb' & Hl2).
        rewrite nth_error_app1 in Ha, Hb' by lia. assert (a = vr_ix x) by congruence. assert (b' = vr_ix x) by congruence. subst a b'.
        destruct (is_link_touch _ _ _ _ Hl1) as (p1 & Hp1 & T1 & _). destruct (is_link_touch _ _ _ _ Hl2) as (p2 & Hp2 & _ & T2).
        assert (Hn12 : e1 <> e2). { intros <-. pose proof (LoopFacts.NoDup_nth _ _ _ _ Hun H1 H2). lia. }
        destruct (degree2_three E (vr_ix x) e1 e2 e p1 p2 p (Hdeg _ Hxvert) Hp1 T1 Hp2 T2 Hp Tx Hn12) as [<-|<-]; apply Heused; eauto using nth_error_In. }
      assert (x = v0) by (eapply vref_eq; eauto). subst x.
      destruct fuel as [|fuel'].
      { exfalso. assert (length (used ++ [e]) <= length E)%nat; [|rewrite app_length in *; cbn in *; lia].
        assert (Hinc : incl (used ++ [e]) (seq 0 (length E))).
        { intros k Hk. apply in_seq. destruct (proj2 (Hd2 k) (or_introl Hk)) as (ed' & Hed' & _). apply nth_error_lt in Hed'.
          rewrite (strip_length _ _ Hst) in Hed'. rewrite <- He, map_length. lia. }
        pose proof (NoDup_incl_length Hux Hinc) as H. rewrite seq_length in H. exact H. }
      cbn [walk]. replace (index_nat (map vr_pt all ++ [vr_pt next]) 0) with (Ok (vr_pt v0)) by reflexivity.
      cbn [obind]. rewrite (proj2 (Hpt v0 v0 Hv0at Hv0at Hv0v Hv0v) eq_refl).
      eexists edges1, (all ++ [next]), _. rewrite map_app. cbn [map]. split; [reflexivity|]. split; [exact Hvs'|].
      assert (Hmi : map vr_ix (all ++ [next]) = ix ++ [w]) by (rewrite map_app; reflexivity).
      rewrite Hmi. split; [|split; [exact Hst|split; [exact Hnd|split; [exact Hvert|split; [eauto|exact Hd2]]]]].
      assert (Hpos : (0 < length ix)%nat) by (unfold ix, all; cbn; lia).
      split; [rewrite !app_length; cbn [length]; lia|]. split; [exact Hux|]. split; [rewrite app_length; cbn [length]; lia|].
      intros j e' Hj. destruct (Hchx _ _ Hj) as (a & b & Ha & Hb & Hl). exists a, b.
      pose proof (nth_error_lt _ _ _ Hj) as Hjl. rewrite app_length in Hjl. cbn [length] in Hjl.
      rewrite nth_error_app1 in Ha by (rewrite app_length; cbn [length]; lia). split; [exact Ha|]. split; [|exact Hl].
      rewrite app_length. cbn [length]. destruct (Nat.eq_dec j (length used)) as [->|Hj'].
      + replace (S (length used)) with (length (ix ++ [w])) in Hb by (rewrite app_length; cbn [length]; lia).
        rewrite nth_error_mid in Hb. injection Hb as <-.
        replace (S (length used)) with (length ix + 1)%nat by lia. rewrite Nat.mod_same by lia. unfold ix, all. cbn. congruence.
      + rewrite Nat.mod_small by lia. rewrite nth_error_app1 in Hb by (rewrite app_length; cbn [length]; lia). exact Hb.
    - destruct (IH i seen0 edges1 v0 (vs ++ [next]) (used ++ [e]) next x) as (edges' & vs' & used' & Hw & R1 & R2 & R3 & R4 & R5 & (more & R6) & R7).
      + rewrite (strip_mends _ _ Hst). exact He.
      + exact (strip_verts _ _ _ Hst Hva).
      + exact Hxv.
      + exact Hvs'.
      + exact Hsc.
      + change (v0 :: vs ++ [next]) with (all ++ [next]). rewrite map_app. cbn [map]. fold ix w.
        rewrite (app_assoc seen0). apply NoDup_app_intro; [exact Hnd|constructor; [intros []|constructor]|].
        intros k Hk [<-|[]]. apply in_app_or in Hk. destruct Hk as [Hk|Hk]; [contradiction|].
        apply in_app_or in Hk. destruct Hk as [Hk|[Hk|[]]]; [contradiction|congruence].
      + change (v0 :: vs ++ [next]) with (all ++ [next]). rewrite map_app. cbn [map]. fold ix w.
        intros v Hv. apply in_app_or in Hv. destruct Hv as [Hv|[<-|[]]]; auto.
      + rewrite app_length. cbn [length] in *. rewrite app_length. cbn [length]. unfold all in Hlen. cbn [length] in Hlen. lia.
      + change (v0 :: vs ++ [next]) with (all ++ [next]). rewrite map_app. cbn [map]. exact Hchx.
      + rewrite nth_error_app1; [exact Hi|]. eapply nth_error_lt; exact Hi.
      + exact Hd2.
      + rewrite app_length. cbn [length]. lia.
      + change (map vr_pt (v0 :: vs ++ [next])) with (map vr_pt (all ++ [next])) in Hw. rewrite map_app in Hw. cbn [map] in Hw.
        rewrite Hw. eexists edges', vs', used'. split; [reflexivity|]. split; [exact R1|]. split; [exact R2|]. split; [congruence|].
        split; [exact R4|]. split; [exact R5|]. split; [|exact R7]. rewrite R6, <- app_assoc. eauto.
  Qed.

  (** The loops finished so far: everything done lies on one of them. *)
  Definition loops_inv (edges : list medge) (outs : list (list point * list nat)) : Prop :=
    exists seen0, seen_closed E seen0 /\ NoDup seen0
      /\ (forall k, m_done edges k <-> exists p v, nth_error E k = Some p /\ touches p v /\ In v seen0)
      /\ (forall x, In x outs -> exists vs, (forall v, In v vs -> vref_at m v) /\ fst x = map vr_pt vs /\ closed_chain E (map vr_ix vs) (snd x))
      /\ (forall k, m_done edges k -> exists vs used, (forall v, In v vs -> vref_at m v) /\ closed_chain E (map vr_ix vs) used /\ In k used
             /\ ((3 <= length vs)%nat -> In (map vr_pt vs, used) outs)).

  Lemma start_loops : forall i edges outs, map mends edges = E -> verts_at m edges -> loops_inv edges outs -> (i < length E)%nat ->
    exists edges' outs', start_edge vm (edges, outs) i = Ok (edges', outs') /\ loops_inv edges' outs' /\ m_done edges' i
      /\ (forall k, m_done edges k -> m_done edges' k).
  Proof.
    intros i edges outs He Hva (seen0 & Hsc & Hnd & Hdn & Hout & Hcov) Hi. unfold start_edge.
    destruct (nth_error_ex edges i) as (ed & Hed); [rewrite <- He, map_length in Hi; exact Hi|].
    unfold index_nat. rewrite Hed. cbn [obind]. destruct (me_done ed) eqn:Edd.
    { eexists _, _. split; [reflexivity|]. split; [|split; [exists ed; auto|auto]]. exists seen0. auto 6. }
    destruct (set_done_spec edges i ed Hed) as (edges1 & -> & Hst & Hd1). cbn [obind].
    destruct (Hva ed (nth_error_In _ _ Hed)) as (Hv0 & Hv1).
    assert (Hnth : nth_error E i = Some (mends ed)) by (rewrite <- He, nth_error_map, Hed; reflexivity).
    assert (Hndi : ~ m_done edges i) by (intros (ed' & H1 & H2); congruence).
    assert (Ha0 : ~ In (vr_ix (me_v0 ed)) seen0).
    { intros H. apply Hndi. apply Hdn. exists (mends ed), (vr_ix (me_v0 ed)). split; [exact Hnth|]. split; [left; reflexivity|exact H]. }
    assert (Hb0 : ~ In (vr_ix (me_v1 ed)) seen0).
    { intros H. apply Hndi. apply Hdn. exists (mends ed), (vr_ix (me_v1 ed)). split; [exact Hnth|]. split; [right; reflexivity|exact H]. }
    assert (Hab : vr_ix (me_v0 ed) <> vr_ix (me_v1 ed)) by (apply (Hnl (mends ed)); eauto using nth_error_In).
    destruct (walk_loop (length edges1 + 1) i seen0 edges1 (me_v0 ed) [] [i] (me_v0 ed) (me_v1 ed))
      as (edges' & vs' & used' & Hw & R1 & R2 & R3 & R4 & R5 & (more & R6) & R7).
    - rewrite (strip_mends _ _ Hst). exact He.
    - exact (strip_verts _ _ _ Hst Hva).
    - exact Hv1.
    - intros v [<-|[]]. exact Hv0.
    - exact Hsc.
    - cbn [map app]. apply NoDup_app_intro; [exact Hnd| |].
      + constructor; [intros [H|[]]; congruence|]. constructor; [intros []|constructor].
      + intros k Hk [<-|[<-|[]]]; contradiction.
    - cbn [map app]. intros v [<-|[<-|[]]]; exists (mends ed); (split; [eauto using nth_error_In|]); [left|right]; reflexivity.
    - reflexivity.
    - intros [|k] e Hk; [|destruct k; discriminate]. injection Hk as <-. exists (vr_ix (me_v0 ed)), (vr_ix (me_v1 ed)).
      split; [reflexivity|]. split; [reflexivity|]. left. exact Hnth.
    - reflexivity.
    - intros k. rewrite Hd1, Hdn. cbn [In]. intuition.
    - rewrite (strip_length _ _ Hst), <- (map_length mends edges), He. cbn. lia.
    - cbn [map] in Hw. rewrite Hw. cbn [obind].
      assert (Hmono : forall k, m_done edges k -> m_done edges' k) by (intros k H; apply R7; right; apply Hdn, H).
      assert (Hdegv : forall v, In v (map vr_ix vs') -> degree2 E v) by auto.
      assert (Hes : forall k p w, In k used' -> nth_error E k = Some p -> touches p w -> In w (map vr_ix vs')).
      { intros k p w Hk Hp Tw. destruct (In_nth_error _ _ Hk) as (j & Hj). pose proof R2 as (_ & _ & _ & Hcc).
        destruct (Hcc _ _ Hj) as (a & b & Ha & Hb & Hl). destruct (is_link_other _ _ _ _ _ _ Hl Hp Tw) as [->| ->]; eauto using nth_error_In. }
      eexists _, _. split; [reflexivity|]. rewrite map_length. split; [|split; [apply R7; left; rewrite R6; left; reflexivity|exact Hmono]].
      exists (seen0 ++ map vr_ix vs'). split; [|split; [exact R4|split; [|split]]].
      + intros k p a b Hp Ta Tb Ha. apply in_app_or in Ha. apply in_or_app. destruct Ha as [Ha|Ha].
        * left. eapply Hsc; [exact Hp|exact Ta|exact Tb|exact Ha].
        * right. pose proof (closed_chain_edges _ _ _ _ _ _ Hdegv R2 Hp Ha Ta) as Hk. eapply Hes; eauto.
      + intros k. rewrite R7. split.
        * intros [Hk|(p & a & Hp & Ta & Ha)].
          -- destruct (In_nth_error _ _ Hk) as (j & Hj). pose proof R2 as (_ & _ & _ & Hcc).
             destruct (Hcc _ _ Hj) as (a & b & Ha & Hb & Hl). destruct (is_link_touch _ _ _ _ Hl) as (p & Hp & Ta & _).
             exists p, a. split; [exact Hp|]. split; [exact Ta|]. apply in_or_app. right. eauto using nth_error_In.
          -- exists p, a. split; [exact Hp|]. split; [exact Ta|]. apply in_or_app. auto.
        * intros (p & a & Hp & Ta & Ha). apply in_app_or in Ha. destruct Ha as [Ha|Ha]; [right; eauto|].
          left. eapply closed_chain_edges; eauto.
      + intros x Hx. destruct (2 <? length vs')%nat; [|auto]. apply in_app_or in Hx. destruct Hx as [Hx|[<-|[]]]; [auto|].
        exists vs'. auto.
      + intros k Hk.
        assert (Hk' : In k used' \/ m_done edges k) by (apply R7 in Hk; destruct Hk; [auto|right; apply Hdn; assumption]).
        destruct Hk' as [Hk'|Hk'].
        * exists vs', used'. split; [exact R1|]. split; [exact R2|]. split; [exact Hk'|]. intros H3.
          replace (2 <? length vs')%nat with true by lia. apply in_or_app. right. left. reflexivity.
        * destruct (Hcov k Hk') as (vs & used & C1 & C2 & C3 & C4). exists vs, used. split; [exact C1|]. split; [exact C2|]. split; [exact C3|].
          intros H3. destruct (2 <? length vs')%nat; [apply in_or_app; left|]; auto.
  Qed.

  Lemma starts_loops : forall is edges outs, starts_inv m E edges outs -> loops_inv edges outs -> (forall i, In i is -> (i < length E)%nat) ->
    exists edges' outs', ofold (start_edge vm) is (edges, outs) = Ok (edges', outs') /\ starts_inv m E edges' outs' /\ loops_inv edges' outs'
      /\ (forall k, m_done edges k \/ In k is -> m_done edges' k).
  Proof.
    induction is as [|i is IH]; intros edges outs Hinv Hl His; cbn [ofold].
    { eexists _, _. split; [reflexivity|]. split; [exact Hinv|]. split; [exact Hl|]. intros k [H|[]]. exact H. }
    pose proof Hinv as (He & Hva & _).
    destruct (start_spec m E vm Hix i edges outs Hinv (His i (or_introl eq_refl))) as (edges1 & outs1 & H1 & Hinv1 & _).
    destruct (start_loops i edges outs He Hva Hl (His i (or_introl eq_refl))) as (edges1' & outs1' & H1' & Hl1 & Hi1 & Hm1).
    rewrite H1 in H1'. injection H1' as <- <-. rewrite H1. cbn [obind].
    destruct (IH edges1 outs1 Hinv1 Hl1 (fun k Hk => His k (or_intror Hk))) as (edges2 & outs2 & H2 & Hinv2 & Hl2 & Hm2).
    exists edges2, outs2. split; [exact H2|]. split; [exact Hinv2|]. split; [exact Hl2|].
    intros k [Hk|[<-|Hk]]; apply Hm2; auto.
  Qed.
End Loops.

Lemma map_sector_loops : forall m s, m_indices_exist m s -> m_simple_border m s ->
  exists outlines vss lss, map_sector_to_polygons m s = Ok outlines
    /\ length vss = length outlines /\ length lss = length outlines
    /\ (forall k o vs ls, nth_error outlines k = Some o -> nth_error vss k = Some vs -> nth_error lss k = Some ls ->
          (3 <= length o)%nat /\ Forall2 (item_at (g_vertices m)) vs o /\ length ls = length vs
          /\ forall i p, nth_error ls i = Some p -> exists a b, nth_error vs i = Some a /\ nth_error vs (S i mod length vs) = Some b /\ m_joins m s p a b)
    /\ NoDup (concat lss)
    /\ (forall p l, nth_error (g_lines m) p = Some l -> m_borders m s l ->
          In p (concat lss) \/ exists p', p' <> p /\ m_joins m s p' (ln_start l) (ln_end l)).
Proof.
  intros m s Hex (Hsb & Hnl & Hptc). unfold map_sector_to_polygons, map_polygons_traced.
  pose proof (m_collect_spec m s (g_lines m) [] [] indexed_nil) as H. pose proof (all_ok_exist m s) as Hae.
  destruct (ofold _ _ _) as [[edges vm]| |p]; cbn [obind]; [|contradiction|tauto].
  destruct H as (Hok & Hix & bl & new & E & Hsel & Hnew). cbn [app] in E. subst new.
  destruct (selected_positions _ _ _ Hsel) as (ps & Hpnd & Hps & Hpc).
  assert (Hbd : forall l, In l bl -> m_borders m s l) by (intros l Hl; apply (selected_in _ _ _ Hsel), Hl).
  assert (Hbl : forall l, In l bl -> In l (g_lines m)) by (intros l Hl; apply (selected_in _ _ _ Hsel), Hl).
  (* ends of edges and lines *)
  assert (Hme : map mends edges = map (fun l => (ln_start l, ln_end l)) bl).
  { clear - Hnew. induction Hnew as [|l e bl edges He Hn IH]; cbn [map]; [reflexivity|]. rewrite IH. f_equal.
    destruct He as (H0 & H1 & _). unfold mends. rewrite H0, H1. reflexivity. }
  assert (Hat : forall v, vert (map mends edges) v -> exists l, In l bl /\ m_at m s v l).
  { intros v (p & Hp & Ht). rewrite Hme in Hp. apply in_map_iff in Hp. destruct Hp as (l & <- & Hl). exists l. split; [exact Hl|].
    split; [apply Hbd, Hl|]. destruct Ht; auto. }
  assert (Hdeg : forall v, vert (map mends edges) v -> degree2 (map mends edges) v).
  { intros v Hv. destruct (Hat v Hv) as (l & Hl & Hla). destruct (Hsb l v (Hbl l Hl) Hla) as (A & l1 & B & l2 & C & Hlines & Hl1 & Hl2 & Hother).
    rewrite Hme. clear - Hlines Hsel Hl1 Hl2 Hother. rewrite Hlines in Hsel.
    apply selected_app in Hsel. destruct Hsel as (a & b & -> & HA & Hsel).
    destruct (selected_cons _ _ _ _ Hsel (proj1 Hl1)) as (b' & -> & Hsel'). clear Hsel. rename Hsel' into Hsel.
    apply selected_app in Hsel. destruct Hsel as (b & c & -> & HB & Hsel).
    destruct (selected_cons _ _ _ _ Hsel (proj1 Hl2)) as (c' & -> & HC).
    assert (Hno : forall l, In l a \/ In l b \/ In l c' -> ~ touches (ln_start l, ln_end l) v).
    { intros l Hl Ht.
      assert (HlABC : (In l A \/ In l B \/ In l C) /\ m_borders m s l).
      { destruct Hl as [Hl|[Hl|Hl]]; [apply (selected_in _ _ _ HA) in Hl|apply (selected_in _ _ _ HB) in Hl|apply (selected_in _ _ _ HC) in Hl]; tauto. }
      destruct HlABC as (HlABC & Hb0). apply (Hother l HlABC). split; [exact Hb0|exact Ht]. }
    exists (length a), (length a + S (length b))%nat. split; [lia|].
    split. { exists (ln_start l1, ln_end l1). split; [|apply Hl1]. rewrite nth_error_map, nth_error_mid. reflexivity. }
    assert (Hnth2 : nth_error (a ++ l1 :: b ++ l2 :: c') (length a + S (length b))%nat = Some l2).
    { rewrite nth_error_app2 by lia. replace (length a + S (length b) - length a)%nat with (S (length b)) by lia. cbn [nth_error]. apply nth_error_mid. }
    split. { exists (ln_start l2, ln_end l2). split; [|apply Hl2]. rewrite nth_error_map, Hnth2. reflexivity. }
    intros k p Hk Htp. rewrite nth_error_map in Hk. destruct (nth_error (a ++ l1 :: b ++ l2 :: c') k) as [l|] eqn:Ek; [|discriminate].
    cbn in Hk. injection Hk as <-.
    destruct (Nat.lt_trichotomy k (length a)) as [Hlt|[Heq|Hgt]]; [|left; exact Heq|].
    { rewrite nth_error_app1 in Ek by exact Hlt. exfalso. apply (Hno l); [left; eauto using nth_error_In|exact Htp]. }
    rewrite nth_error_app2 in Ek by lia. destruct (k - length a)%nat as [|k'] eqn:Ek'; [lia|]. cbn [nth_error] in Ek.
    destruct (Nat.lt_trichotomy k' (length b)) as [Hlt'|[Heq|Hgt']]; [|right; lia|].
    { rewrite nth_error_app1 in Ek by exact Hlt'. exfalso. apply (Hno l); [right; left; eauto using nth_error_In|exact Htp]. }
    rewrite nth_error_app2 in Ek by lia. destruct (k' - length b)%nat as [|k''] eqn:Ek''; [lia|]. cbn [nth_error] in Ek.
    exfalso. apply (Hno l); [right; right; eauto using nth_error_In|exact Htp]. }
  assert (Hnlp : forall p, In p (map mends edges) -> fst p <> snd p).
  { intros p Hp. rewrite Hme in Hp. apply in_map_iff in Hp. destruct Hp as (l & <- & Hl). cbn. apply Hnl; auto. }
  assert (Hptv : forall u v, vref_at m u -> vref_at m v -> vert (map mends edges) (vr_ix u) -> vert (map mends edges) (vr_ix v) ->
    (point_eqb (vr_pt u) (vr_pt v) = true <-> vr_ix u = vr_ix v)).
  { intros u v Hu Hv Eu Ev. destruct (Hat _ Eu) as (lu & Hlu & Hau). destruct (Hat _ Ev) as (lv & Hlv & Hav).
    apply (Hptc lu lv (vr_ix u) (vr_ix v)); auto. }
  destruct (starts_loops m (map mends edges) vm Hix Hdeg Hnlp Hptv (seq 0 (length edges)) edges []) as (edges' & outs & -> & Hinv & Hloops & Hall).
  { split; [reflexivity|]. split.
    - intros e He. destruct (In_nth_error _ _ He) as (k & Hk). destruct (Forall2_nth _ _ _ _ _ Hnew Hk) as (l & _ & Hl). unfold edge_of in Hl. tauto.
    - split; [intros k []|]. split; constructor. }
  { assert (Hnone : forall k, ~ m_done edges k).
    { intros k (ed & Hk & Hd). destruct (Forall2_nth _ _ _ _ _ Hnew Hk) as (l & _ & Hl). unfold edge_of in Hl. destruct Hl as (_ & _ & _ & _ & Hl & _). congruence. }
    exists []. split; [intros k p v w _ _ _ []|]. split; [constructor|]. split; [|split].
    - intros k. split; [intros Hk; exfalso; eapply Hnone; eauto|intros (p & v & _ & _ & [])].
    - intros x [].
    - intros k Hk. exfalso. eapply Hnone; eauto. }
  { intros i Hi. apply in_seq in Hi. rewrite map_length. lia. }
  cbn [obind]. destruct Hinv as (He' & Hva & Hdn & Hnd & Hout).
  assert (Hlen : length edges' = length edges) by (rewrite <- (map_length mends), He'; apply map_length).
  destruct Hloops as (seen0 & _ & _ & _ & Hcl & Hcov).
  assert (Hjoin := fun e a b => link_joins m s edges bl ps Hnew Hps Hbd e a b).
  assert (Hvss : exists vss, length vss = length outs /\ forall k x vs, nth_error outs k = Some x -> nth_error vss k = Some vs ->
             (forall v, In v vs -> vref_at m v) /\ fst x = map vr_pt vs /\ closed_chain (map mends edges) (map vr_ix vs) (snd x)).
  { clear - Hcl. induction outs as [|x outs IH].
    - exists []. split; [reflexivity|]. intros [|k] x vs H; discriminate.
    - destruct IH as (vss & Hl & HI); [intros y Hy; apply Hcl; right; exact Hy|]. destruct (Hcl x (or_introl eq_refl)) as (vs & Hvs).
      exists (vs :: vss). split; [cbn; congruence|]. intros [|k] y vs' H H'; cbn in *; [|eauto].
      injection H as <-. injection H' as <-. exact Hvs. }
  destruct Hvss as (vss & Hvl & Hvss).
  exists (map fst outs), (map (map vr_ix) vss), (map (fun x => map (line_no ps) (snd x)) outs).
  split; [reflexivity|]. rewrite !map_length. split; [exact Hvl|]. split; [reflexivity|].
  assert (Hcc : concat (map (fun x => map (line_no ps) (snd x)) outs) = map (line_no ps) (concat (map snd outs))).
  { rewrite concat_map, map_map. reflexivity. }
  rewrite Hcc. split; [|split].
  - intros k o vs ls Ho Hvs Hls. rewrite nth_error_map in Ho, Hls, Hvs. destruct (nth_error outs k) as [x|] eqn:Ex; [|discriminate].
    destruct (nth_error vss k) as [vr|] eqn:Ev; [|discriminate].
    cbn in Ho, Hls, Hvs. injection Ho as <-. injection Hls as <-. injection Hvs as <-.
    destruct (Hvss k x vr Ex Ev) as (V1 & V2 & V3). rewrite Forall_forall in Hout.
    split; [apply (Hout x); eauto using nth_error_In|]. split.
    { rewrite V2. clear - V1. induction vr as [|v vs IH]; cbn [map]; constructor; [apply V1; left; reflexivity|]. apply IH. intros x Hx. apply V1. right. exact Hx. }
    destruct V3 as (L1 & _ & _ & L2). rewrite map_length. split; [rewrite L1; reflexivity|].
    intros i p Hp. rewrite nth_error_map in Hp. destruct (nth_error (snd x) i) as [e|] eqn:Ee; [|discriminate]. cbn in Hp. injection Hp as <-.
    destruct (L2 _ _ Ee) as (a & b & Ha & Hb & Hl). exists a, b. split; [exact Ha|]. split; [exact Hb|apply Hjoin, Hl].
  - eapply map_NoDup; eauto. intros k Hk. apply Hdn in Hk. destruct Hk as (ed & Hed & _). apply nth_error_lt in Hed. lia.
  - intros p l Hp Hb. pose proof (Hpc p l Hp Hb) as Hin. destruct (In_nth_error _ _ Hin) as (k & Hk).
    pose proof (nth_error_lt _ _ _ Hk) as Hkl. rewrite (Forall2_len _ _ _ Hps), (Forall2_len _ _ _ Hnew) in Hkl.
    assert (Hno : line_no ps k = p) by (unfold line_no; apply nth_error_nth; exact Hk).
    destruct (Hcov k) as (vs & used & V1 & V2 & V3 & V4); [apply Hall; right; apply in_seq; lia|].
    destruct (le_lt_dec 3 (length vs)) as [H3|H3].
    + left. rewrite <- Hno. apply in_map. apply in_concat. exists used. split; [|exact V3].
      apply in_map_iff. exists (map vr_pt vs, used). auto.
    + right. destruct V2 as (L1 & Lnd & L2 & L3). rewrite map_length in *. assert (L : length vs = 2%nat) by lia.
      destruct used as [|e1 [|e2 [|]]]; cbn [length] in L1; try lia.
      destruct vs as [|v1 [|v2 [|]]]; cbn [length] in L; try lia. cbn [map length] in L3.
      destruct (L3 0%nat e1 eq_refl) as (a1 & b1 & Ha1 & Hb1 & Hl1). destruct (L3 1%nat e2 eq_refl) as (a2 & b2 & Ha2 & Hb2 & Hl2).
      cbn in Ha1, Hb1, Ha2, Hb2. injection Ha1 as <-. injection Hb1 as <-. injection Ha2 as <-. injection Hb2 as <-.
      assert (Hsym : forall q a b, m_joins m s q a b -> m_joins m s q b a).
      { intros q a b (l' & J1 & J2 & J3). exists l'. split; [exact J1|]. split; [exact J2|]. tauto. }
      assert (Hother : exists k' , In k' [e1; e2] /\ k' <> k /\ forall a b, m_joins m s p a b -> m_joins m s (line_no ps k') a b).
      { inversion Lnd as [|? ? Hn12]; subst. cbn [In] in Hn12.
        assert (Hends : forall q q' x y, m_joins m s q x y -> m_joins m s q' x y -> forall a b, m_joins m s q a b -> m_joins m s q' a b).
        { intros q q' x y (l1 & Q1 & Q2 & Q3) Hq' a b (l2 & Q4 & Q5 & Q6). assert (l2 = l1) by congruence. subst l2.
          assert (Hxy : (a = x /\ b = y) \/ (a = y /\ b = x)).
          { destruct Q3 as [(<- & <-)|(<- & <-)], Q6 as [(<- & <-)|(<- & <-)]; auto. }
          destruct Hxy as [(-> & ->)|(-> & ->)]; [exact Hq'|apply Hsym; exact Hq']. }
        destruct V3 as [<-|[<-|[]]].
        - exists e2. split; [cbn; auto|]. split; [intros ->; apply Hn12; auto|]. apply (Hends _ _ (vr_ix v1) (vr_ix v2)); [apply Hjoin; exact Hl1|apply Hsym, Hjoin; exact Hl2].
        - exists e1. split; [cbn; auto|]. split; [intros ->; apply Hn12; auto|]. apply (Hends _ _ (vr_ix v1) (vr_ix v2)); [apply Hsym, Hjoin; exact Hl2|apply Hjoin; exact Hl1]. }
      destruct Hother as (k' & Hk' & Hkk & Hj). exists (line_no ps k'). split.
      * intros Heq. rewrite <- Hno in Heq.
        assert (Hk'l : (k' < length edges)%nat).
        { destruct Hk' as [<-|[<-|[]]]; [destruct Hl1 as [Hl|Hl]|destruct Hl2 as [Hl|Hl]]; apply nth_error_lt in Hl; rewrite map_length in Hl; exact Hl. }
        apply Hkk. exact (line_no_inj m s edges bl ps Hnew Hps Hpnd k' k Hk'l Hkl Heq).
      * apply Hj. exists l. split; [exact Hp|]. split; [exact Hb|]. auto.
Qed.
