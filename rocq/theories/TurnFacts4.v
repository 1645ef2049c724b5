(** The walk around a sector takes the leftmost edge. *)

From Coq Require Import List ZArith Bool Lia.
From Verif Require Import Base BaseFacts Float SpecFloat64 FloatFacts FloatOrder MapFacts Geometry MapModel Sweep Compute SectorPolys SpecSector SectorFacts MapSectorFacts
  SpecShape ShapeFacts SpecOrder OrderFacts SpecIntersect SpecTurn IntersectFacts TurnFacts TurnFacts2 TurnFacts3.
Import ListNotations.
Local Open Scope Z_scope.

(** The state of an edge after walking along [walked]. *)
Definition after (walked : list nat) (e : nat) (ed : medge) : medge :=
  mk_medge (me_line ed) (me_front ed) (me_v0 ed) (me_v1 ed) (me_done ed || existsb (Nat.eqb e) walked).
Definition state_of (edges0 : list medge) (walked : list nat) (edges : list medge) : Prop :=
  forall e, nth_error edges e = option_map (after walked e) (nth_error edges0 e).

Lemma existsb_in : forall e l, existsb (Nat.eqb e) l = true <-> In e l.
Proof.
  intros e l. rewrite existsb_exists. split.
  - intros (x & H & E). apply Nat.eqb_eq in E. now subst.
  - intros H. exists e. split; [assumption|apply Nat.eqb_refl].
Qed.

Lemma update_nth_nth : forall {A} (f : A -> A) l e l', update_nth e f l = Some l' ->
  forall k, nth_error l' k = if Nat.eqb k e then option_map f (nth_error l k) else nth_error l k.
Proof.
  induction l as [|x l IH]; intros e l' H k; destruct e; cbn [update_nth] in H; try discriminate.
  - injection H as <-. destruct k; reflexivity.
  - destruct (update_nth e f l) eqn:E; [|discriminate]. injection H as <-. destruct k; [reflexivity|]. cbn. now apply IH.
Qed.

Lemma set_done_state : forall edges0 walked edges e edges', state_of edges0 walked edges -> set_done edges e = Ok edges' ->
  state_of edges0 (walked ++ [e]) edges'.
Proof.
  intros edges0 walked edges e edges' S H k. unfold set_done, write_at in H.
  rewrite (proj2 (Z.leb_le _ _)), Nat2Z.id in H by lia. destruct (update_nth e _ edges) eqn:E; [|discriminate]. injection H as <-.
  rewrite (update_nth_nth _ _ _ _ E k), (S k). destruct (nth_error edges0 k) as [ed|]; cbn [option_map].
  - unfold after. rewrite existsb_app. cbn [existsb]. rewrite orb_false_r.
    destruct (Nat.eqb_spec k e); cbn [me_line me_front me_v0 me_v1 me_done].
    + now rewrite !orb_true_r.
    + now rewrite orb_false_r.
  - now destruct (Nat.eqb k e).
Qed.

(** The end of an edge other than vertex [ix]. *)
Definition far_end (ed : medge) (ix : Z) : vref := if vr_ix (me_v0 ed) =? ix then me_v1 ed else me_v0 ed.

(** *** One step *)
Section Step.
Variables (i : nat) (edges : list medge) (next : vref) (u : point).

Definition edge_vec (c : nat * medge) : point := p_sub (vr_pt (far_end (snd c) (vr_ix next))) (vr_pt next).
Definition hold (c : nat * medge) : closest :=
  mk_closest (cosine u (edge_vec c)) (Some (fst c)) (Some (far_end (snd c) (vr_ix next))) (f64_gt (v_cross u (edge_vec c)) f64_zero).

Lemma consider_first : forall e ed d, e <> i -> nth_error edges e = Some ed -> me_done ed = false ->
  consider_edge i edges next u (mk_closest d None None false) e = Ok (hold (e, ed)).
Proof using.
  intros e ed d N H D. unfold consider_edge. destruct (Nat.eqb_spec i e); [congruence|].
  unfold index_nat. rewrite H. cbn [obind]. rewrite D. fold (far_end ed (vr_ix next)). fold (edge_vec (e, ed)).
  fold (cosine u (edge_vec (e, ed))). unfold hold. cbn [fst snd cl_ccw cl_edge is_some negb orb].
  change (p_sub (vr_pt (far_end ed (vr_ix next))) (vr_pt next)) with (edge_vec (e, ed)).
  fold (cosine u (edge_vec (e, ed))).
  destruct (f64_gt (v_cross u (edge_vec (e, ed))) f64_zero); reflexivity.
Qed.

Lemma consider_next : forall c e ed, e <> i -> nth_error edges e = Some ed -> me_done ed = false ->
  consider_edge i edges next u (hold c) e = Ok (hold (next_best edge_vec u c (e, ed))).
Proof using.
  intros c e ed N H D. unfold consider_edge. destruct (Nat.eqb_spec i e); [congruence|].
  unfold index_nat. rewrite H. cbn [obind]. rewrite D. fold (far_end ed (vr_ix next)).
  change (p_sub (vr_pt (far_end ed (vr_ix next))) (vr_pt next)) with (edge_vec (e, ed)).
  fold (cosine u (edge_vec (e, ed))). unfold next_best, replaces. set (x := (e, ed)).
  change (cl_ccw (hold c)) with (f64_gt (v_cross u (edge_vec c)) f64_zero).
  change (cl_dot (hold c)) with (cosine u (edge_vec c)). change (cl_edge (hold c)) with (Some (fst c)). cbn [is_some negb orb].
  set (lt := f64_lt (cosine u (edge_vec x)) (cosine u (edge_vec c))). set (gt := f64_gt (cosine u (edge_vec x)) (cosine u (edge_vec c))).
  destruct (f64_gt (v_cross u (edge_vec x)) f64_zero) eqn:X, (f64_gt (v_cross u (edge_vec c)) f64_zero) eqn:V, lt, gt;
    cbn [andb orb negb]; unfold hold; rewrite ?X, ?V; reflexivity.
Qed.

Lemma consider_skip : forall c e ed, nth_error edges e = Some ed -> e = i \/ me_done ed = true -> consider_edge i edges next u c e = Ok c.
Proof using.
  intros c e ed H D. unfold consider_edge. destruct (Nat.eqb_spec i e); [reflexivity|].
  unfold index_nat. rewrite H. cbn [obind]. destruct D as [-> | ->]; [congruence|reflexivity].
Qed.

Definition eligible (es : list nat) (c : nat * medge) : Prop :=
  In (fst c) es /\ fst c <> i /\ nth_error edges (fst c) = Some (snd c) /\ me_done (snd c) = false.

Lemma eligible_cons : forall e ed es c, nth_error edges e = Some ed -> e = i \/ me_done ed = true -> (eligible (e :: es) c <-> eligible es c).
Proof using.
  intros e ed es [e' ed'] H D. unfold eligible. cbn [fst snd In]. split; [|tauto].
  intros ([-> |A] & B & C & E); [|tauto]. rewrite H in C. injection C as ->. destruct D; congruence.
Qed.

Lemma consider_more : forall es c, (forall e, In e es -> exists ed, nth_error edges e = Some ed) ->
  exists cs, ofold (consider_edge i edges next u) es (hold c) = Ok (hold (fold_left (next_best edge_vec u) cs c))
    /\ forall x, In x cs <-> eligible es x.
Proof using.
  induction es as [|e es IH]; intros c H; cbn [ofold].
  - exists []. split; [reflexivity|]. intros x. unfold eligible. cbn. tauto.
  - destruct (H e (or_introl eq_refl)) as (ed & E). assert (H' : forall e, In e es -> exists ed, nth_error edges e = Some ed) by (intros; apply H; now right).
    destruct (Nat.eq_dec e i) as [N|N]; [|destruct (me_done ed) eqn:D].
    + rewrite (consider_skip _ _ _ E) by auto. cbn [obind]. destruct (IH c H') as (cs & A & B). exists cs. split; [assumption|].
      intros x. rewrite B. symmetry. eapply eligible_cons; eauto.
    + rewrite (consider_skip _ _ _ E) by auto. cbn [obind]. destruct (IH c H') as (cs & A & B). exists cs. split; [assumption|].
      intros x. rewrite B. symmetry. eapply eligible_cons; eauto.
    + rewrite (consider_next _ _ _ N E D). cbn [obind]. destruct (IH (next_best edge_vec u c (e, ed)) H') as (cs & A & B).
      exists ((e, ed) :: cs). split; [assumption|]. intros x. cbn [In]. rewrite B. unfold eligible. cbn [In].
      destruct x as [e' ed']. cbn [fst snd]. split.
      * intros [X|X]; [injection X as <- <-; tauto|tauto].
      * intros ([-> |X] & Y & Z & W); [left; congruence|tauto].
Qed.

Lemma consider_all : forall es d, (forall e, In e es -> exists ed, nth_error edges e = Some ed) ->
  (ofold (consider_edge i edges next u) es (mk_closest d None None false) = Ok (mk_closest d None None false)
   /\ forall x, ~ eligible es x)
  \/ exists c cs, ofold (consider_edge i edges next u) es (mk_closest d None None false) = Ok (hold (fold_left (next_best edge_vec u) cs c))
       /\ forall x, In x (c :: cs) <-> eligible es x.
Proof using.
  induction es as [|e es IH]; intros d H; cbn [ofold].
  - left. split; [reflexivity|]. intros x (? & _). contradiction.
  - destruct (H e (or_introl eq_refl)) as (ed & E). assert (H' : forall e, In e es -> exists ed, nth_error edges e = Some ed) by (intros; apply H; now right).
    destruct (Nat.eq_dec e i) as [N|N]; [|destruct (me_done ed) eqn:D].
    1,2: assert (D' : e = i \/ me_done ed = true) by auto;
      rewrite (consider_skip _ _ _ E D'); cbn [obind];
      destruct (IH d H') as [(A & B)|(c & cs & A & B)];
      [left; split; [exact A|]; intros x X; apply (B x); now apply (eligible_cons e ed es x E D')
      |right; exists c, cs; split; [exact A|]; intros x; rewrite B; symmetry; now apply (eligible_cons e ed es x E D')].
    right. rewrite (consider_first _ _ _ N E D). cbn [obind]. destruct (consider_more es (e, ed) H') as (cs & A & B).
    exists (e, ed), cs. split; [assumption|]. intros x. cbn [In]. rewrite B. unfold eligible. cbn [In].
    destruct x as [e' ed']. cbn [fst snd]. split.
    + intros [X|X]; [injection X as <- <-; tauto|tauto].
    + intros ([-> |X] & Y & Z & W); [left; congruence|tauto].
Qed.
End Step.

