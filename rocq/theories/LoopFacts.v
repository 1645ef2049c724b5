(** [BareBinaryMap::sector_to_polygons] on sectors bounded by disjoint loops. *)

From Coq Require Import String List ZArith Bool Lia ZifyBool.
From Verif Require Import Base BaseFacts ParseMap SpecLumps Float MapModel SpecMapModel MapFacts SectorPolys SpecSector SectorFacts.
Import ListNotations.
Local Open Scope Z_scope.

Lemma nth_error_mid : forall {A} (a : list A) x b, nth_error (a ++ x :: b) (length a) = Some x.
Proof. intros A a x b. rewrite nth_error_app2, Nat.sub_diag by lia. reflexivity. Qed.

Lemma NoDup_nth : forall {A} (l : list A) i j a, NoDup l -> nth_error l i = Some a -> nth_error l j = Some a -> i = j.
Proof.
  intros A l i j a H Hi Hj. rewrite NoDup_nth_error in H. apply H; [|congruence].
  apply nth_error_Some. congruence.
Qed.

Lemma NoDup_app_r : forall {A} (l r : list A), NoDup (l ++ r) -> NoDup r.
Proof. induction l as [|x l IH]; intros r H; [exact H|]. apply IH. inversion H; assumption. Qed.

Lemma nth_error_lt : forall {A} (l : list A) i a, nth_error l i = Some a -> (i < length l)%nat.
Proof. intros A l i a H. apply nth_error_Some. congruence. Qed.

Lemma nth_error_ex : forall {A} (l : list A) i, (i < length l)%nat -> exists a, nth_error l i = Some a.
Proof. intros A l i H. destruct (nth_error l i) eqn:E; [eauto|]. apply nth_error_None in E. lia. Qed.

(** Exactly two positions of [E] touch [v]. *)
Definition degree2 (E : list (Z * Z)) (v : Z) : Prop :=
  exists i j, i <> j /\ (exists p, nth_error E i = Some p /\ touches p v) /\ (exists p, nth_error E j = Some p /\ touches p v)
    /\ forall k p, nth_error E k = Some p -> touches p v -> k = i \/ k = j.

Lemma degree2_three : forall E v a b c pa pb pc, degree2 E v ->
  nth_error E a = Some pa -> touches pa v -> nth_error E b = Some pb -> touches pb v -> nth_error E c = Some pc -> touches pc v ->
  a <> b -> a = c \/ b = c.
Proof.
  intros E v a b c pa pb pc (i & j & Hij & _ & _ & H) Ha Ta Hb Tb Hc Tc Hab.
  pose proof (H _ _ Ha Ta). pose proof (H _ _ Hb Tb). pose proof (H _ _ Hc Tc). lia.
Qed.

Definition is_link (E : list (Z * Z)) (e : nat) (a b : Z) : Prop :=
  nth_error E e = Some (a, b) \/ nth_error E e = Some (b, a).

Lemma is_link_touch : forall E e a b, is_link E e a b -> exists p, nth_error E e = Some p /\ touches p a /\ touches p b.
Proof. intros E e a b [H|H]; eexists; (split; [exact H|]); unfold touches; cbn; auto. Qed.

Lemma is_link_other : forall E e p a b v, is_link E e a b -> nth_error E e = Some p -> touches p v -> v = a \/ v = b.
Proof. intros E e p a b v [H|H] H' T; rewrite H in H'; injection H' as <-; destruct T as [<-|<-]; cbn; auto. Qed.

Lemma touch_link : forall E e p v, nth_error E e = Some p -> touches p v -> exists w, is_link E e v w /\ touches p w.
Proof.
  intros E e [a b] v H [<-|<-]; cbn [fst snd] in *; [exists b|exists a]; unfold is_link, touches; cbn; auto.
Qed.

(** The done flags. *)
Definition is_done (edges : list edge) (k : nat) : Prop := exists ed, nth_error edges k = Some ed /\ e_done ed = true.

Lemma update_done_nth : forall edges l' e ed, update_nth e (fun x => mk_edge (e_v0 x) (e_v1 x) true) edges = Some l' -> nth_error edges e = Some ed ->
  forall k, nth_error l' k = if Nat.eqb k e then Some (mk_edge (e_v0 ed) (e_v1 ed) true) else nth_error edges k.
Proof.
  induction edges as [|y edges IH]; intros l' e ed El He k; destruct e; cbn in He; try discriminate; cbn [update_nth] in El.
  - injection El as <-. injection He as ->. destruct k; reflexivity.
  - destruct (update_nth e _ edges) eqn:E; [|discriminate]. injection El as <-. destruct k; [reflexivity|]. cbn. eapply IH; eauto.
Qed.

Lemma follow_edge_done : forall es edges seen,
  (forall e, In e es -> exists ed, nth_error edges e = Some ed) ->
  (exists e, In e es /\ ~ is_done edges e) ->
  exists e ed edges', In e es /\ nth_error edges e = Some ed /\ e_done ed = false
    /\ follow_edge es edges seen = Ok (edges', if negb (seen_in seen (e_v0 ed)) then [e_v0 ed]
            else if negb (seen_in seen (e_v1 ed)) then [e_v1 ed] else [])
    /\ map ends edges' = map ends edges /\ (forall k, is_done edges' k <-> is_done edges k \/ k = e).
Proof.
  induction es as [|e es IH]; intros edges seen Hex (x & Hx & Hnd); [contradiction|]. cbn [follow_edge].
  destruct (Hex e (or_introl eq_refl)) as (ed & He). unfold index_nat. rewrite He. cbn [obind].
  destruct (e_done ed) eqn:Ed.
  - destruct (IH edges seen) as (e' & ed' & edges' & H1 & H2).
    { intros e' H. apply Hex. right. exact H. }
    { exists x. split; [|exact Hnd]. destruct Hx as [<-|Hx]; [|exact Hx]. exfalso. apply Hnd. exists ed. auto. }
    exists e', ed', edges'. split; [right; exact H1|exact H2].
  - unfold write_at. rewrite (proj2 (Z.leb_le _ _)), Nat2Z.id by lia.
    destruct (update_nth_map ends (fun x => mk_edge (e_v0 x) (e_v1 x) true) edges e ed (fun a => eq_refl) He) as (l' & El & Em).
    rewrite El. cbn [obind]. exists e, ed, l'. split; [left; reflexivity|]. split; [exact He|]. split; [exact Ed|].
    split; [reflexivity|]. split; [exact Em|].
    clear - El He Ed.
    intros k. unfold is_done. rewrite (update_done_nth _ _ _ _ El He k). destruct (Nat.eqb_spec k e) as [->|Hk].
    + split; [auto|]. intros _. eexists. split; [reflexivity|reflexivity].
    + tauto.
Qed.

(** [es] are the edges along the vertices [vs]. *)
Definition chain (E : list (Z * Z)) (vs : list Z) (es : list nat) : Prop :=
  forall i e, nth_error es i = Some e -> exists a b, nth_error vs i = Some a /\ nth_error vs (S i) = Some b /\ is_link E e a b.

Definition closed_chain (E : list (Z * Z)) (vs : list Z) (es : list nat) : Prop :=
  length es = length vs /\ NoDup es /\ (2 <= length vs)%nat /\
  forall i e, nth_error es i = Some e -> exists a b, nth_error vs i = Some a /\ nth_error vs (S i mod length vs) = Some b /\ is_link E e a b.

Lemma chain_NoDup : forall E vs es, NoDup vs -> chain E vs es -> NoDup es.
Proof.
  intros E vs es Hv Hc. apply NoDup_nth_error. intros i j Hi Hij.
  destruct (nth_error_ex _ _ Hi) as (e & He). rewrite He in Hij. symmetry in Hij.
  destruct (Hc _ _ He) as (a & b & Ha & Hb & Hl). destruct (Hc _ _ Hij) as (a' & b' & Ha' & Hb' & Hl').
  destruct (is_link_touch _ _ _ _ Hl') as (p & Hp & Ta & Tb).
  pose proof (is_link_other _ _ _ _ _ _ Hl Hp Ta) as Ca. pose proof (is_link_other _ _ _ _ _ _ Hl Hp Tb) as Cb.
  assert (forall x i j, nth_error vs i = Some x -> nth_error vs j = Some x -> i = j) as U by (intros; eapply NoDup_nth; eauto).
  destruct Ca as [->| ->]; [eauto|]. destruct Cb as [->| ->].
  - pose proof (U _ _ _ Hb Ha'). pose proof (U _ _ _ Ha Hb'). lia.
  - pose proof (U _ _ _ Hb' Ha'). lia.
Qed.

(** In a closed chain every edge at one of its vertices belongs to it. *)
Lemma closed_chain_edges : forall E vs es k p v, (forall v, In v vs -> degree2 E v) -> closed_chain E vs es ->
  nth_error E k = Some p -> In v vs -> touches p v -> In k es.
Proof.
  intros E vs es k p v Hd (Hl & Hnd & H2 & Hc) Hk Hv Ht.
  destruct (In_nth_error _ _ Hv) as (i & Hi). pose proof (nth_error_lt _ _ _ Hi) as Hlt.
  set (n := length vs) in *.
  set (j := match i with O => (n - 1)%nat | S i' => i' end).
  assert (Hj : (j < n)%nat /\ (S j mod n = i)%nat /\ j <> i).
  { unfold j. destruct i as [|i'].
    - split; [lia|]. split; [|lia]. replace (S (n - 1)) with n by lia. apply Nat.mod_same. lia.
    - split; [lia|]. split; [|lia]. apply Nat.mod_small. lia. }
  destruct Hj as (Hj & Hm & Hji).
  destruct (nth_error_ex es i ltac:(lia)) as (ei & Hei). destruct (nth_error_ex es j ltac:(lia)) as (ej & Hej).
  destruct (Hc _ _ Hei) as (a & b & Ha & Hb & Hl1). destruct (Hc _ _ Hej) as (a' & b' & Ha' & Hb' & Hl2).
  rewrite Hm in Hb'. assert (a = v) by congruence. assert (b' = v) by congruence. subst a b'.
  destruct (is_link_touch _ _ _ _ Hl1) as (p1 & Hp1 & T1 & _). destruct (is_link_touch _ _ _ _ Hl2) as (p2 & Hp2 & _ & T2).
  assert (ei <> ej). { intros <-. apply Hji. eapply NoDup_nth; eauto. }
  destruct (degree2_three E v ei ej k p1 p2 p (Hd v Hv) Hp1 T1 Hp2 T2 Hk Ht H) as [<-|<-]; eauto using nth_error_In.
Qed.

Section Trace.
  Variable E : list (Z * Z).
  Variable vm : vmap.
  Hypothesis Hix : indexed E vm.
  Hypothesis Hdeg : forall v, vert E v -> degree2 E v.
  Hypothesis Hnl : forall p, In p E -> fst p <> snd p.

  Lemma link_neq : forall e a b, is_link E e a b -> a <> b.
  Proof. intros e a b [H|H]; apply nth_error_In in H; apply Hnl in H; cbn in H; auto. Qed.

  Lemma link_vert : forall e a b, is_link E e a b -> vert E a /\ vert E b.
  Proof. intros e a b [H|H]; apply nth_error_In in H; split; eexists; (split; [exact H|]); unfold touches; cbn; auto. Qed.

  (** Everything touching [seen0] lies inside it. *)
  Definition seen_closed (seen0 : list Z) : Prop :=
    forall k p v w, nth_error E k = Some p -> touches p v -> touches p w -> In v seen0 -> In w seen0.

  (** [vs]: the outline so far with the pending vertex. *)
  Definition going (seen0 : list Z) (edges : list edge) (vs : list Z) (es : list nat) : Prop :=
    map ends edges = E /\ NoDup (seen0 ++ vs) /\ (forall v, In v vs -> vert E v) /\ length vs = S (length es)
    /\ chain E vs es
    /\ (forall k, is_done edges k <-> In k es \/ exists p v, nth_error E k = Some p /\ touches p v /\ In v seen0).

  Lemma visit_loop : forall seen0 edges outline w es, seen_closed seen0 ->
    going seen0 edges (outline ++ [w]) es ->
    exists edges' pushed, ofold (visit_vertex vm) [w] (mk_trace edges (seen0 ++ outline) outline [])
        = Ok (mk_trace edges' (seen0 ++ (outline ++ [w])) (outline ++ [w]) pushed)
      /\ ((exists x e, pushed = [x] /\ going seen0 edges' ((outline ++ [w]) ++ [x]) (es ++ [e]))
          \/ (pushed = [] /\ exists e, closed_chain E (outline ++ [w]) (es ++ [e])
                /\ map ends edges' = E
                /\ (forall k, is_done edges' k <-> In k (es ++ [e]) \/ exists p v, nth_error E k = Some p /\ touches p v /\ In v seen0))).
  Proof.
    intros seen0 edges outline w es Hsc (He & Hnd & Hv & Hlen & Hch & Hdone).
    set (vs := outline ++ [w]) in *.
    assert (Hwin : In w vs) by (unfold vs; apply in_or_app; right; left; reflexivity).
    assert (Hw0 : ~ In w seen0).
    { unfold vs in Hnd. rewrite app_assoc in Hnd. apply NoDup_remove_2 in Hnd. rewrite app_nil_r in Hnd.
      intros H. apply Hnd. apply in_or_app. auto. }
    assert (Hwo : ~ In w (seen0 ++ outline)).
    { unfold vs in Hnd. rewrite app_assoc in Hnd. apply NoDup_remove_2 in Hnd. rewrite app_nil_r in Hnd. exact Hnd. }
    cbn [ofold visit_vertex]. rewrite (proj2 (seen_in_false _ _) Hwo). rewrite <- !app_assoc. fold vs.
    destruct (vmap_get vm w) as [ks|] eqn:G.
    2: { exfalso. destruct (Hv w Hwin) as (p & Hpn & Ht). eapply (proj2 Hix); eauto. }
    destruct (proj1 Hix _ _ G) as (_ & Hks).
    assert (Hvs : NoDup vs) by (eapply NoDup_app_r; exact Hnd).
    pose proof (chain_NoDup _ _ _ Hvs Hch) as Hesnd.
    (* edges of the chain touching w are only the last one *)
    assert (Hlast : forall i e p, nth_error es i = Some e -> nth_error E e = Some p -> touches p w -> S (S i) = length vs).
    { intros i e p Hi Hp Ht. destruct (Hch _ _ Hi) as (a & b & Ha & Hb & Hl).
      assert (Hwn : nth_error vs (length outline) = Some w) by (unfold vs; apply nth_error_mid).
      assert (Hlv : length vs = S (length outline)) by (unfold vs; rewrite app_length; cbn; lia).
      pose proof (nth_error_lt _ _ _ Hi).
      destruct (is_link_other _ _ _ _ _ _ Hl Hp Ht) as [->| ->].
      - pose proof (NoDup_nth _ _ _ _ Hvs Ha Hwn). lia.
      - pose proof (NoDup_nth _ _ _ _ Hvs Hb Hwn). lia. }
    destruct (follow_edge_done ks edges (seen0 ++ vs)) as (e & ed & edges' & Hin & Hed & Hud & -> & Hm & Hd').
    { intros e H. apply Hks in H. destruct H as (p & Hp & _). rewrite <- He, nth_error_map in Hp.
      destruct (nth_error edges e); [eauto|discriminate]. }
    { destruct (Hdeg w (Hv w Hwin)) as (i & j & Hij & (pi & Hpi & Ti) & (pj & Hpj & Tj) & Honly).
      assert (Hor : ~ is_done edges i \/ ~ is_done edges j).
      { assert (D : forall x px, nth_error E x = Some px -> touches px w -> ~ In x es -> ~ is_done edges x).
        { intros x px Hx Tx Hnx Hdx. apply Hdone in Hdx. destruct Hdx as [Hdx|(p & v & Hp & Tv & Hv0)]; [contradiction|].
          apply Hw0. eapply Hsc; [exact Hp|exact Tv| |exact Hv0]. replace p with px by congruence. exact Tx. }
        destruct (in_dec Nat.eq_dec i es) as [Hi|Hi]; [|left; eauto].
        right. apply (D j pj); auto. intros Hj.
        destruct (In_nth_error _ _ Hi) as (i' & Hi'). destruct (In_nth_error _ _ Hj) as (j' & Hj').
        pose proof (Hlast _ _ _ Hi' Hpi Ti). pose proof (Hlast _ _ _ Hj' Hpj Tj). assert (i' = j') by lia. congruence. }
      destruct Hor; [exists i|exists j]; (split; [apply Hks; eauto|assumption]). }
    cbn [obind]. apply Hks in Hin. destruct Hin as (p & Hp & Ht).
    assert (p = ends ed). { rewrite <- He, nth_error_map, Hed in Hp. cbn in Hp. congruence. } subst p.
    destruct (touch_link _ _ _ _ Hp Ht) as (x & Hlx & Tx).
    pose proof (link_neq _ _ _ Hlx) as Hxw.
    assert (Hndone : ~ is_done edges e). { intros (ed' & H1 & H2). congruence. }
    assert (Hx0 : ~ In x seen0). { intros H. apply Hw0. eapply Hsc; [exact Hp|exact Tx|exact Ht|exact H]. }
    assert (Hees : ~ In e es). { intros H. apply Hndone. apply Hdone. auto. }
    eexists edges', _. split; [rewrite ?app_nil_r; cbn [app]; reflexivity|].
    assert (Hd2 : forall k, is_done edges' k <-> In k (es ++ [e]) \/ (exists p v, nth_error E k = Some p /\ touches p v /\ In v seen0)).
    { intros k. rewrite Hd', Hdone, in_app_iff. cbn [In]. intuition. }
    assert (Hwi : nth_error vs (length outline) = Some w) by (unfold vs; apply nth_error_mid).
    assert (Hlv : length vs = S (length outline)) by (unfold vs; rewrite app_length; cbn; lia).
    assert (Hpush : (if negb (seen_in (seen0 ++ vs) (e_v0 ed)) then [e_v0 ed]
            else if negb (seen_in (seen0 ++ vs) (e_v1 ed)) then [e_v1 ed] else []) = if seen_in (seen0 ++ vs) x then [] else [x]).
    { assert (Hsw : seen_in (seen0 ++ vs) w = true) by (apply seen_in_spec, in_or_app; auto).
      destruct Tx as [Tx|Tx], Ht as [Ht'|Ht']; cbn [ends fst snd] in Tx, Ht'; try congruence; rewrite Tx, Ht', Hsw.
      - destruct (seen_in (seen0 ++ vs) x); reflexivity.
      - destruct (seen_in (seen0 ++ vs) x); reflexivity. }
    rewrite Hpush. destruct (seen_in (seen0 ++ vs) x) eqn:Sx.
    - right. split; [reflexivity|]. exists e. split; [|split; [congruence|exact Hd2]].
      apply seen_in_spec in Sx. apply in_app_or in Sx. destruct Sx as [Sx|Sx]; [contradiction|].
      destruct (In_nth_error _ _ Sx) as (j & Hj). pose proof (nth_error_lt _ _ _ Hj) as Hjl.
      assert (Hjo : j <> length outline) by (intros ->; congruence).
      assert (Hj0 : j = O).
      { destruct j as [|j]; [reflexivity|]. exfalso.
        destruct (nth_error_ex es (S j) ltac:(lia)) as (e1 & H1). destruct (nth_error_ex es j ltac:(lia)) as (e2 & H2).
        destruct (Hch _ _ H1) as (a & b & Ha & _ & Hl1). destruct (Hch _ _ H2) as (a' & b' & _ & Hb' & Hl2).
        assert (a = x) by congruence. assert (b' = x) by congruence. subst.
        destruct (is_link_touch _ _ _ _ Hl1) as (p1 & Hp1 & T1 & _). destruct (is_link_touch _ _ _ _ Hl2) as (p2 & Hp2 & _ & T2).
        assert (Hne : e1 <> e2). { intros <-. pose proof (NoDup_nth _ _ _ _ Hesnd H1 H2). lia. }
        destruct (degree2_three E x e1 e2 e p1 p2 (ends ed) (Hdeg x (Hv x Sx)) Hp1 T1 Hp2 T2 Hp Tx Hne) as [<-|<-]; apply Hees; eauto using nth_error_In. }
      subst j. split; [rewrite app_length; cbn; lia|]. split.
      { apply NoDup_rev in Hesnd. rewrite <- (rev_involutive (_ ++ [e])). apply NoDup_rev. rewrite rev_app_distr. cbn [rev app].
        constructor; [rewrite <- in_rev; exact Hees|exact Hesnd]. }
      split; [lia|]. intros i e' Hi. pose proof (nth_error_lt _ _ _ Hi) as Hil. rewrite app_length in Hil. cbn [length] in Hil.
      destruct (Nat.eq_dec i (length es)) as [->|Hne].
      + rewrite nth_error_mid in Hi. injection Hi as <-. exists w, x.
        replace (length es) with (length outline) by lia. split; [exact Hwi|]. split; [|exact Hlx].
        rewrite Hlv, Nat.mod_same by lia. exact Hj.
      + rewrite nth_error_app1 in Hi by lia. rewrite Nat.mod_small by lia. apply Hch, Hi.
    - left. apply seen_in_false in Sx. exists x, e. split; [reflexivity|].
      split; [congruence|]. split.
      { rewrite app_assoc. apply NoDup_rev in Hnd. rewrite <- (rev_involutive (_ ++ [x])). apply NoDup_rev. rewrite rev_app_distr. cbn [rev app].
        constructor; [rewrite <- in_rev; exact Sx|exact Hnd]. }
      split. { intros v H. apply in_app_or in H. destruct H as [H|[<-|[]]]; [auto|]. apply (link_vert _ _ _ Hlx). }
      split; [rewrite !app_length; cbn; lia|]. split; [|exact Hd2].
      intros i e' Hi. pose proof (nth_error_lt _ _ _ Hi) as Hil. rewrite app_length in Hil. cbn [length] in Hil.
      destruct (Nat.eq_dec i (length es)) as [->|Hne].
      + rewrite nth_error_mid in Hi. injection Hi as <-. exists w, x.
        replace (length es) with (length outline) by lia. split; [rewrite nth_error_app1 by lia; exact Hwi|]. split; [|exact Hlx].
        rewrite <- Hlv. apply nth_error_mid.
      + rewrite nth_error_app1 in Hi by lia. destruct (Hch _ _ Hi) as (a & b & Ha & Hb & Hl). exists a, b.
        rewrite !nth_error_app1 by lia. auto.
  Qed.

  (** After an outline: a closed chain of finished edges. *)
  Definition finished (seen0 : list Z) (st : trace_state) : Prop :=
    exists es, closed_chain E (t_outline st) es /\ map ends (t_edges st) = E /\ t_seen st = seen0 ++ t_outline st
      /\ NoDup (t_seen st) /\ (forall v, In v (t_outline st) -> vert E v)
      /\ (forall k, is_done (t_edges st) k <-> In k es \/ exists p v, nth_error E k = Some p /\ touches p v /\ In v seen0).

  Lemma trace_loop : forall fuel seen0 edges outline w es, seen_closed seen0 ->
    (forall v, In v seen0 -> vert E v) ->
    going seen0 edges (outline ++ [w]) es ->
    (2 * length E - length (seen0 ++ outline) < fuel)%nat ->
    exists st', trace_outline fuel vm (mk_trace edges (seen0 ++ outline) outline [w]) = Ok st' /\ finished seen0 st'.
  Proof.
    induction fuel as [|fuel IH]; intros seen0 edges outline w es Hsc Hsv Hgo Hf; [lia|].
    cbn [trace_outline t_next t_edges t_seen t_outline].
    destruct (visit_loop _ _ _ _ _ Hsc Hgo) as (edges' & pushed & -> & Hr). cbn [obind].
    destruct Hgo as (He & Hnd & Hv & Hlen & Hch & Hdone).
    destruct Hr as [(x & e & -> & Hgo')|(-> & e & Hcl & Hm & Hd)].
    - apply (IH _ _ _ _ _ Hsc Hsv Hgo'). destruct Hgo' as (_ & Hnd' & Hv' & _).
      assert (HB : (length (seen0 ++ (outline ++ [w]) ++ [x]) <= 2 * length E)%nat).
      { apply vert_bound; [exact Hnd'|]. intros v H. apply in_app_or in H. destruct H; auto. }
      rewrite !app_length in *. cbn [length] in *. lia.
    - destruct fuel; cbn [trace_outline t_next]; (eexists; split; [reflexivity|]); exists (es ++ [e]); cbn [t_edges t_seen t_outline]; auto 6.
  Qed.

  Definition loops_good (edges : list edge) (seen : list Z) (outlines : list (list Z)) : Prop :=
    map ends edges = E /\ NoDup seen /\ (forall v, In v seen -> vert E v) /\ seen = concat outlines /\ seen_closed seen
    /\ (forall k, is_done edges k <-> exists p v, nth_error E k = Some p /\ touches p v /\ In v seen)
    /\ (forall o, In o outlines -> exists es, closed_chain E o es).

  Lemma trace_all_loops : forall fuel inner edges seen outlines,
    loops_good edges seen outlines ->
    (2 * length E - length seen < fuel)%nat -> (2 * length E < inner)%nat ->
    exists outlines', trace_all fuel inner vm edges seen outlines = Ok outlines'
      /\ (forall v, vert E v -> In v (concat outlines'))
      /\ (forall v, In v (concat outlines') -> vert E v)
      /\ (forall o, In o outlines' -> exists es, closed_chain E o es).
  Proof.
    induction fuel as [|fuel IH]; intros inner edges seen outlines Hg Hf Hin; [lia|].
    pose proof Hg as (He & Hnd & Hv & Hc & Hsc & Hd & Ho).
    cbn [trace_all].
    assert (Hdone : (forall v, vert E v -> In v seen) ->
      exists outlines', Ok outlines = Ok outlines'
      /\ (forall v, vert E v -> In v (concat outlines')) /\ (forall v, In v (concat outlines') -> vert E v)
      /\ (forall o, In o outlines' -> exists es, closed_chain E o es)).
    { intros Hall. exists outlines. rewrite <- Hc. auto. }
    pose proof (first_unseen_spec edges seen) as Hu. rewrite He in Hu.
    destruct edges as [|e0 edges0]; [apply Hdone; rewrite <- He; intros v (p & [] & _)|].
    set (edges := e0 :: edges0) in *. clearbody edges.
    destruct (first_unseen edges seen) as [v|]; [|apply Hdone, Hu]. destruct Hu as (Hv1 & Hv2).
    destruct (trace_loop inner seen edges [] v [] Hsc Hv) as (st' & Hst & es & Hcl & Hm & Hs & Hnd' & Hvo & Hd').
    { cbn [app]. split; [exact He|]. split.
      { apply NoDup_rev in Hnd. rewrite <- (rev_involutive (_ ++ [v])). apply NoDup_rev. rewrite rev_app_distr. cbn [rev app].
        constructor; [rewrite <- in_rev; exact Hv2|exact Hnd]. }
      split; [intros x [<-|[]]; exact Hv1|]. split; [reflexivity|]. split; [intros [|i] e' Hi; discriminate|].
      intros k. rewrite Hd. cbn [In]. tauto. }
    { cbn. lia. }
    rewrite app_nil_r in Hst. rewrite Hst. cbn [obind].
    assert (Hdeg' : forall v, In v (t_outline st') -> degree2 E v) by (intros; apply Hdeg; auto).
    assert (Hne : t_outline st' <> []). { destruct Hcl as (_ & _ & H2 & _). intros H0. rewrite H0 in H2. cbn in H2. lia. }
    assert (Hmatch : (match t_outline st' with [] => outlines | o => outlines ++ [o] end) = outlines ++ [t_outline st']).
    { destruct (t_outline st'); [congruence|reflexivity]. }
    rewrite Hmatch. clear Hmatch.
    (* ends of the edges of the chain *)
    assert (Hes : forall k p w, In k es -> nth_error E k = Some p -> touches p w -> In w (t_outline st')).
    { intros k p w Hk Hp Tw. destruct (In_nth_error _ _ Hk) as (i & Hi). destruct Hcl as (_ & _ & _ & Hcc).
      destruct (Hcc _ _ Hi) as (a & b & Ha & Hb & Hl). destruct (is_link_other _ _ _ _ _ _ Hl Hp Tw) as [->| ->]; eauto using nth_error_In. }
    apply IH; [|rewrite Hs, app_length; destruct (t_outline st'); [congruence|]; cbn [length]|exact Hin].
    - split; [exact Hm|]. split; [exact Hnd'|]. split.
      { intros x Hx. rewrite Hs in Hx. apply in_app_or in Hx. destruct Hx; auto. }
      split. { rewrite Hs, concat_app, <- Hc. cbn [concat]. rewrite app_nil_r. reflexivity. }
      split.
      { intros k p a b Hp Ta Tb Ha. rewrite Hs in *. apply in_app_or in Ha. apply in_or_app. destruct Ha as [Ha|Ha].
        - left. eapply Hsc; [exact Hp|exact Ta|exact Tb|exact Ha].
        - right. pose proof (closed_chain_edges _ _ _ _ _ _ Hdeg' Hcl Hp Ha Ta) as Hk. eapply Hes; eauto. }
      split.
      { intros k. rewrite Hd', Hs. split.
        - intros [Hk|(p & a & Hp & Ta & Ha)].
          + destruct (In_nth_error _ _ Hk) as (i & Hi). pose proof Hcl as (_ & _ & _ & Hcc).
            destruct (Hcc _ _ Hi) as (a & b & Ha & Hb & Hl). destruct (is_link_touch _ _ _ _ Hl) as (p & Hp & Ta & _).
            exists p, a. split; [exact Hp|]. split; [exact Ta|]. apply in_or_app. right. eauto using nth_error_In.
          + exists p, a. split; [exact Hp|]. split; [exact Ta|]. apply in_or_app. auto.
        - intros (p & a & Hp & Ta & Ha). apply in_app_or in Ha. destruct Ha as [Ha|Ha]; [right; eauto|].
          left. eapply closed_chain_edges; eauto. }
      intros o H. apply in_app_or in H. destruct H as [H|[<-|[]]]; [auto|]. exists es. exact Hcl.
    - assert (HB : (length (t_seen st') <= 2 * length E)%nat).
      { apply vert_bound; [exact Hnd'|]. intros x Hx. rewrite Hs in Hx. apply in_app_or in Hx. destruct Hx; auto. }
      rewrite Hs, app_length in HB. cbn [length] in HB. lia.
  Qed.
End Trace.

Lemma selected_app : forall {L} (P : L -> Prop) (A B bl : list L), selected P (A ++ B) bl ->
  exists a b, bl = a ++ b /\ selected P A a /\ selected P B b.
Proof.
  induction A as [|x A IH]; intros B bl H; cbn [app] in H.
  - exists [], bl. split; [reflexivity|]. split; [constructor|exact H].
  - inversion H as [|? ? bl' Hp Hs|? ? bl' Hp Hs]; subst; destruct (IH _ _ Hs) as (a & b & -> & Ha & Hb).
    + exists (x :: a), b. split; [reflexivity|]. split; [constructor; assumption|exact Hb].
    + exists a, b. split; [reflexivity|]. split; [constructor; assumption|exact Hb].
Qed.

Lemma selected_cons : forall {L} (P : L -> Prop) (x : L) B bl, selected P (x :: B) bl -> P x ->
  exists b, bl = x :: b /\ selected P B b.
Proof. intros L P x B bl H Hx. inversion H; subst; [eauto|contradiction]. Qed.

Lemma bare_sector_loops : forall {L T} (ops : line_ops L) (m : binary_map L T) s,
  0 <= s < 2 ^ 64 -> i16_indices ops m -> indices_exist ops m s -> simple_border ops m s ->
  exists outlines, bare_sector_to_polygons ops m s = Ok outlines
    /\ (forall o a b, In o outlines -> loop_next o a b -> joined ops m s a b)
    /\ (forall o, In o outlines -> (2 <= length o)%nat)
    /\ (forall l, borders ops m s l -> exists o, In o outlines /\
          (loop_next o (fst (lo_vertices ops l)) (snd (lo_vertices ops l))
           \/ loop_next o (snd (lo_vertices ops l)) (fst (lo_vertices ops l)))).
Proof.
  intros L T ops m s Hs Hm Hex (Hsb & Hnl). unfold bare_sector_to_polygons.
  pose proof (collect_spec ops m s Hs Hm (m_lines m) [] [] (fun x H => H) indexed_nil) as H.
  assert (Hex' : 
    (forall l, In l (m_lines m) -> ref_ok (m_sides m) (fst (lo_sides ops l)) /\ ref_ok (m_sides m) (snd (lo_sides ops l))
                                 /\ (borders0 ops m s l -> verts_ok ops m l))).
  { destruct Hex as (H1 & H2). unfold border_vertex, borders, borders0, verts_ok, ref_ok in *.
    intros l Hl. split; [apply (H1 l); auto|]. split; [apply (H1 l); auto|].
      intros Hb. split; apply H2; exists l; auto. }
  destruct (ofold _ _ _) as [[edges vm]| |p]; cbn [obind]; [|contradiction|tauto].
  destruct H as (Hok & Hix & bl & E & Hsel). cbn [app] in E.
  assert (Hn := collect_in ops m s bl Hsel). rewrite <- E in Hn.
  assert (Hends : forall l, ends (line_edge ops l) = lo_vertices ops l).
  { intros l. unfold ends, line_edge. cbn. destruct (lo_vertices ops l); reflexivity. }
  assert (Hbv : forall v, vert (map ends edges) v -> border_vertex ops m s v).
  { intros v (p & Hp & Ht). apply Hn in Hp. destruct Hp as (l & Hl & Hb & ->). exists l. split; [split; assumption|]. destruct Ht; auto. }
  assert (Hdeg : forall v, vert (map ends edges) v -> degree2 (map ends edges) v).
  { intros v Hv. destruct (Hsb v (Hbv v Hv)) as (A & l1 & B & l2 & C & Hlines & Hl1 & Hl2 & Hother).
    pose proof (proj2 (proj1 Hl1)) as Hl1'. pose proof (proj2 (proj1 Hl2)) as Hl2'.
    rewrite Hlines in Hsel. apply selected_app in Hsel. destruct Hsel as (a & b & -> & HA & Hsel).
    destruct (selected_cons _ _ _ _ Hsel Hl1') as (b' & -> & Hsel'). clear Hsel. rename Hsel' into Hsel.
    apply selected_app in Hsel. destruct Hsel as (b & c & -> & HB & Hsel).
    destruct (selected_cons _ _ _ _ Hsel Hl2') as (c' & -> & HC).
    subst edges. rewrite map_map, (map_ext _ _ Hends).
    assert (Hno : forall l, In l a \/ In l b \/ In l c' -> ~ touches (lo_vertices ops l) v).
    { intros l Hl Ht. 
      assert (HlABC : (In l A \/ In l B \/ In l C) /\ borders0 ops m s l).
      { destruct Hl as [Hl|[Hl|Hl]]; [apply (selected_in _ _ _ HA) in Hl|apply (selected_in _ _ _ HB) in Hl|apply (selected_in _ _ _ HC) in Hl]; tauto. }
      destruct HlABC as (HlABC & Hb0). apply (Hother l HlABC). split; [split; [|exact Hb0]|destruct Ht; auto].
      rewrite Hlines. rewrite in_app_iff. cbn [In]. rewrite in_app_iff. cbn [In]. tauto. }
    exists (length a), (length a + S (length b))%nat. split; [lia|].
    assert (Ht : forall l, borders_at ops m s v l -> touches (lo_vertices ops l) v) by (intros l (_ & [->| ->]); [left|right]; reflexivity).
    split. { exists (lo_vertices ops l1). split; [|apply Ht, Hl1]. rewrite nth_error_map, nth_error_mid. reflexivity. }
    assert (Hnth2 : nth_error (a ++ l1 :: b ++ l2 :: c') (length a + S (length b))%nat = Some l2).
    { rewrite nth_error_app2 by lia. replace (length a + S (length b) - length a)%nat with (S (length b)) by lia. cbn [nth_error]. apply nth_error_mid. }
    split. { exists (lo_vertices ops l2). split; [|apply Ht, Hl2]. rewrite nth_error_map, Hnth2. reflexivity. }
    intros k p Hk Htp. rewrite nth_error_map in Hk. destruct (nth_error (a ++ l1 :: b ++ l2 :: c') k) as [l|] eqn:Ek; [|discriminate].
    cbn in Hk. injection Hk as <-.
    destruct (Nat.lt_trichotomy k (length a)) as [Hlt|[Heq|Hgt]]; [|left; exact Heq|].
    { rewrite nth_error_app1 in Ek by exact Hlt. exfalso. apply (Hno l); [left; eauto using nth_error_In|exact Htp]. }
    rewrite nth_error_app2 in Ek by lia. destruct (k - length a)%nat as [|k'] eqn:Ek'; [lia|]. cbn [nth_error] in Ek.
    destruct (Nat.lt_trichotomy k' (length b)) as [Hlt'|[Heq|Hgt']]; [|right; lia|].
    { rewrite nth_error_app1 in Ek by exact Hlt'. exfalso. apply (Hno l); [right; left; eauto using nth_error_In|exact Htp]. }
    rewrite nth_error_app2 in Ek by lia. destruct (k' - length b)%nat as [|k''] eqn:Ek''; [lia|]. cbn [nth_error] in Ek.
    exfalso. apply (Hno l); [right; right; eauto using nth_error_In|exact Htp]. }
  destruct (trace_all_loops (map ends edges) vm Hix) with (fuel := (2 * length edges + 2)%nat) (inner := (2 * length edges + 2)%nat)
    (edges := edges) (seen := @nil Z) (outlines := @nil (list Z)) as (outlines & -> & H1 & H2 & H3).
  - exact Hdeg.
  - intros p Hp. apply Hn in Hp. destruct Hp as (l & Hl & Hb & ->). apply Hnl. split; assumption.
  - split; [reflexivity|]. split; [constructor|]. split; [intros v []|]. split; [reflexivity|]. split; [intros k p v w _ _ _ []|].
    split; [|intros o []]. intros k. split.
    + intros (ed & He & Hd). exfalso. apply nth_error_In in He. rewrite E, in_map_iff in He. destruct He as (l & <- & _). discriminate.
    + intros (p & v & _ & _ & []).
  - rewrite map_length. cbn [length]. lia.
  - rewrite map_length. cbn [length]. lia.
  - assert (Hjoin : forall e a b, is_link (map ends edges) e a b -> joined ops m s a b).
    { intros e a b Hl.
      assert (Hin : In (a, b) (map ends edges) \/ In (b, a) (map ends edges)) by (destruct Hl as [Hl|Hl]; eauto using nth_error_In).
      destruct Hin as [Hin|Hin]; apply Hn in Hin; destruct Hin as (l & Hl' & Hb & Hp); exists l; (split; [split; assumption|]); rewrite <- Hp; cbn; auto. }
    exists outlines. split; [reflexivity|]. split; [|split].
    + intros o a b Ho (i & Ha & Hb). destruct (H3 o Ho) as (es & Hlen & _ & _ & Hc).
      destruct (nth_error_ex es i) as (e & He); [rewrite Hlen; eapply nth_error_lt; exact Ha|].
      destruct (Hc _ _ He) as (a' & b' & Ha' & Hb' & Hl). assert (a' = a) by congruence. assert (b' = b) by congruence. subst.
      eapply Hjoin; exact Hl.
    + intros o Ho. destruct (H3 o Ho) as (es & _ & _ & H & _). exact H.
    + intros l Hb. assert (Hin : In (lo_vertices ops l) (map ends edges)).
      { apply Hn. exists l. destruct Hb as (Hl & Hb). split; [exact Hl|]. split; [exact Hb|reflexivity]. }
      destruct (In_nth_error _ _ Hin) as (k & Hk).
      assert (Hv0 : vert (map ends edges) (fst (lo_vertices ops l))) by (exists (lo_vertices ops l); split; [exact Hin|left; reflexivity]).
      apply H1 in Hv0. apply in_concat in Hv0. destruct Hv0 as (o & Ho & Hvo). exists o. split; [exact Ho|].
      destruct (H3 o Ho) as (es & Hcl).
      assert (Hke : In k es).
      { eapply closed_chain_edges; [|exact Hcl|exact Hk|exact Hvo|left; reflexivity]. intros v Hv. apply Hdeg, H2.
        apply in_concat. eauto. }
      destruct (In_nth_error _ _ Hke) as (i & Hi). destruct Hcl as (_ & _ & _ & Hc). destruct (Hc _ _ Hi) as (a & b & Ha & Hb' & Hl).
      destruct Hl as [Hl|Hl]; rewrite Hl in Hk; injection Hk as Hk; rewrite <- Hk; cbn [fst snd].
      * left. exists i. auto.
      * right. exists i. auto.
Qed.
