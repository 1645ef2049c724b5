(** The sides kept of tidy polygons form closed walks. *)

From Coq Require Import List ZArith Bool Lia Arith Permutation Sorted.
From Verif Require Import Base Float Sweep Compute SpecShape SpecOrder SpecIntersect SpecTurn SpecHandle SpecTidy SpecCompute
  OrderFacts TurnFacts3 TurnSamples TidyGeo TidyParity TidySetup TidyLine TidySweep TidyFacts TidyCorner TidyPair TidyNext.
Import ListNotations.
Local Open Scope Z_scope.

Lemma injected : forall A (R : A -> A -> Prop) (l m : list A), NoDup l -> (forall x, In x l -> exists y, In y m /\ R x y) ->
  (forall x x' y, In x l -> In x' l -> R x y -> R x' y -> x = x') -> (length l <= length m)%nat.
Proof.
  intros A R l. induction l as [|x l IH]; intros m ND Ex Inj; [cbn; lia|]. inversion ND as [|? ? NI ND']; subst.
  destruct (Ex x (or_introl eq_refl)) as (y & Hy & Ry). apply in_split in Hy. destruct Hy as (m1 & m2 & ->).
  rewrite app_length. cbn [length]. specialize (IH (m1 ++ m2) ND'). rewrite app_length in IH.
  enough (length l <= length m1 + length m2)%nat by lia. apply IH.
  - intros z Hz. destruct (Ex z (or_intror Hz)) as (w & Hw & Rw). exists w. split; [|exact Rw].
    rewrite in_app_iff in Hw |- *. cbn in Hw. destruct Hw as [Hw|[<-|Hw]]; auto.
    exfalso. apply NI. rewrite (Inj x z y); [exact Hz|now left|now right|exact Ry|exact Rw].
  - intros z z' w Hz Hz'. apply Inj; now right.
Qed.

Lemma nodup_filter : forall A (f : A -> bool) l, NoDup l -> NoDup (filter f l).
Proof. intros. now apply NoDup_filter. Qed.

Lemma filter_map_length : forall A B (f : A -> B) (p : B -> bool) l, length (filter (fun x => p (f x)) l) = length (filter p (map f l)).
Proof. intros A B f p l. induction l as [|x l IH]; [reflexivity|]. cbn. destruct (p (f x)); cbn; now rewrite IH. Qed.

Lemma filter_perm : forall A (p : A -> bool) l m, Permutation l m -> length (filter p l) = length (filter p m).
Proof.
  intros A p l m H. induction H; cbn; auto; [destruct (p x); cbn; auto| |congruence]. destruct (p x), (p y); reflexivity.
Qed.

Lemma last_cons : forall A (l : list A) x d, last (x :: l) d = last l x.
Proof. intros A l. induction l as [|y l IH]; intros x d; [reflexivity|]. change (last (x :: y :: l) d) with (last (y :: l) d). now rewrite !IH. Qed.

Section Walk.
Variables (zs : list corners) (modes : list polygon_mode) (S : list bseg) (ks : list packet) (act sw : list bseg) (I : list bend).
Notation n := (length modes).
Notation E := (edges zs).
Notation eg := (eg (edges zs)).
Hypothesis (D : drawn E S) (V : inv zs S modes [] ks act sw) (Polys : forall s, In s S -> (e_poly (eg s) < n)%nat).
Hypothesis (PI : Permutation (flat_map (sides_of modes ks) sw) I) (II : increasing endpoint_cmp I).
Hypothesis (NE : covered modes zs).

Notation src := (src zs).
Notation dst := (dst zs).
Notation face := (face zs).
Notation next := (next zs S I).

Fixpoint chain (d : bend) (l : list bend) : Prop :=
  match l with
  | [] => True
  | e :: l' => next d e /\ chain e l'
  end.

Lemma chain_app : forall l d e, chain d l -> next (last l d) e -> chain d (l ++ [e]).
Proof using.
  induction l as [|x l IH]; intros d e H N; cbn [app chain] in *; [auto|]. destruct H as [H1 H2]. split; [exact H1|].
  apply IH; [exact H2|]. now rewrite last_cons in N.
Qed.

Lemma chain_in : forall l d e, chain d l -> In e l -> In e I.
Proof using.
  induction l as [|x l IH]; intros d e H He; [destruct He|]. destruct H as [H1 H2]. destruct He as [<-|He]; [apply H1|eauto].
Qed.

(** Whatever is not first follows something that is not last. *)
Lemma chain_prev : forall l d e, chain d l -> In e l -> exists m, In m (removelast (d :: l)) /\ next m e.
Proof using.
  induction l as [|x l IH]; intros d e H He; [destruct He|]. destruct H as [H1 H2]. cbn [removelast].
  destruct He as [<-|He]; [exists d; split; [now left|exact H1]|]. destruct (IH x e H2 He) as (m & M1 & M2). exists m. split; [now right|exact M2].
Qed.

Lemma chain_face : forall l d e i, chain d l -> In e l -> face e i = face d i.
Proof using.
  induction l as [|x l IH]; intros d e i H He; [destruct He|]. destruct H as [H1 H2].
  assert (Q : face x i = face d i) by apply H1. destruct He as [<-|He]; [exact Q|]. rewrite <- Q. eauto.
Qed.

Lemma chain_dst : forall l d, chain d l -> map dst (d :: l) = map src l ++ [dst (last l d)].
Proof using.
  induction l as [|x l IH]; intros d H; [reflexivity|]. destruct H as [H1 H2]. cbn [map app]. f_equal.
  - symmetry. apply H1.
  - rewrite last_cons. exact (IH x H2).
Qed.

(** A closed walk along kept sides; it comes back to where it started only once. *)
Definition walk (T : list bend) : Prop :=
  exists e l, T = e :: l /\ snd e = LeftEnd /\ In e I /\ chain e l /\ dst (last l e) = src e
    /\ forall m, In m (removelast T) -> dst m <> src e.

Lemma walk_in : forall T d, walk T -> In d T -> In d I.
Proof using.
  intros T d (e & l & -> & _ & He & C & _) [<-|Hd]; [exact He|]. eapply chain_in; eassumption.
Qed.

Lemma walk_face : forall T d e i, walk T -> In d T -> In e T -> face d i = face e i.
Proof using.
  intros T d e i (x & l & -> & _ & _ & C & _) Hd He.
  assert (H : forall y, In y (x :: l) -> face y i = face x i) by (intros y [<-|Hy]; [reflexivity|eapply chain_face; eassumption]).
  rewrite (H d Hd), (H e He). reflexivity.
Qed.

Lemma walk_dst : forall T, walk T -> Permutation (map dst T) (map src T).
Proof using.
  intros T (e & l & -> & _ & _ & C & Q & _). rewrite (chain_dst l e C), Q. cbn [map]. symmetry. apply Permutation_cons_append.
Qed.

Lemma walk_prev : forall T d, walk T -> In d T -> (exists l, T = d :: l) \/ exists m, In m T /\ next m d.
Proof using.
  intros T d (e & l & -> & _ & _ & C & _) [<-|Hd]; [left; eauto|right]. destruct (chain_prev l e d C Hd) as (m & M1 & M2).
  exists m. split; [|exact M2]. pose proof (app_removelast_last e (l := e :: l) ltac:(discriminate)) as Q. rewrite Q. apply in_or_app. now left.
Qed.

Lemma walks_in : forall Ts d, Forall walk Ts -> In d (concat Ts) -> In d I.
Proof using.
  intros Ts d H Hd. apply in_concat in Hd. destruct Hd as (T & HT & Hd). rewrite Forall_forall in H. eapply walk_in; eauto.
Qed.

Lemma walks_dst : forall Ts, Forall walk Ts -> Permutation (map dst (concat Ts)) (map src (concat Ts)).
Proof using.
  intros Ts H. induction H as [|T Ts HT H IH]; [constructor|]. cbn [concat]. rewrite !map_app. apply Permutation_app; [now apply walk_dst|exact IH].
Qed.

(** *** Where all sides that leave are done, so are those that arrive *)

Lemma balanced : forall C v, NoDup C -> (forall d, In d C -> In d I) -> Permutation (map dst C) (map src C) ->
  (forall d, In d I -> src d = v -> In d C) -> forall d, In d I -> dst d = v -> In d C.
Proof using D V Polys PI NE.
  intros C v ND CI PC Out d Hd Q.
  set (A := filter (fun e => same_z (src e) v) I). set (B := filter (fun e => same_z (dst e) v) I).
  set (CA := filter (fun e => same_z (src e) v) C). set (CB := filter (fun e => same_z (dst e) v) C).
  assert (NI : NoDup I) by exact (I_once zs modes S ks act sw I D V PI).
  assert (L1 : (length B <= length A)%nat).
  { apply (injected _ next).
    - now apply NoDup_filter.
    - intros x Hx. apply filter_In in Hx. destruct Hx as [Hx Qx]. apply same_z_iff in Qx.
      destruct (next_exists zs modes S ks act sw I D V Polys PI NE x Hx) as (y & Hy). exists y. split; [|exact Hy].
      apply filter_In. split; [apply Hy|]. apply same_z_iff. rewrite <- Qx. apply Hy.
    - intros x x' y Hx Hx'. apply filter_In in Hx, Hx'. apply (next_once zs modes S ks act sw I D V Polys PI NE); tauto. }
  assert (L2 : (length A <= length CA)%nat).
  { apply NoDup_incl_length; [now apply NoDup_filter|]. intros x Hx. apply filter_In in Hx. destruct Hx as [Hx Qx].
    apply filter_In. split; [|exact Qx]. apply Out; [exact Hx|]. now apply same_z_iff. }
  assert (L3 : length CA = length CB).
  { unfold CA, CB. rewrite (filter_map_length _ _ src (fun p => same_z p v)), (filter_map_length _ _ dst (fun p => same_z p v)).
    symmetry. now apply filter_perm. }
  assert (Inc : incl CB B).
  { intros x Hx. apply filter_In in Hx. apply filter_In. split; [apply CI|]; apply Hx. }
  assert (Inc' : incl B CB).
  { apply NoDup_length_incl; [now apply NoDup_filter|lia|exact Inc]. }
  assert (H : In d B) by (apply filter_In; split; [exact Hd|now apply same_z_iff]). apply Inc' in H. now apply filter_In in H.
Qed.

(** *** The sides up to one of them *)

Section Prefix.
Variables (pre post : list bend) (e : bend) (Ts : list (list bend)).
Hypothesis (Cut : I = pre ++ e :: post) (Walks : Forall walk Ts) (Once : NoDup (concat Ts))
  (Done : forall d, In d pre -> In d (concat Ts)) (Heads : forall h l, In (h :: l) Ts -> In h pre).

Lemma before : forall d, In d I -> lex_z (src d) (src e) = Lt -> In d pre.
Proof using D V Polys PI II NE Cut.
  clear Done Heads. intros d Hd L. rewrite Cut in Hd. apply in_app_or in Hd. destruct Hd as [Hd|Hd]; [exact Hd|exfalso].
  destruct (In_nth_error _ _ Hd) as (j & Hj).
  apply (I_lex zs modes S ks act sw I D V Polys PI II NE (length pre) (length pre + j) e d); [| |lia|].
  - rewrite Cut, nth_error_app2 by lia. now rewrite Nat.sub_diag.
  - rewrite Cut, nth_error_app2 by lia. rewrite <- Hj. f_equal. lia.
  - apply lex_gt. exact L.
Qed.

Lemma not_after : forall d, In d pre -> lex_z (src d) (src e) <> Gt.
Proof using D V Polys PI II NE Cut.
  clear Done Heads. intros d Hd. destruct (In_nth_error _ _ Hd) as (j & Hj). assert (L : (j < length pre)%nat) by (apply nth_error_Some; congruence).
  apply (I_lex zs modes S ks act sw I D V Polys PI II NE j (length pre) d e); [| |lia].
  - rewrite Cut, nth_error_app1 by exact L. exact Hj.
  - rewrite Cut, nth_error_app2 by lia. now rewrite Nat.sub_diag.
Qed.

Lemma arrived : forall v, lex_z v (src e) = Lt -> forall d, In d I -> dst d = v -> In d (concat Ts).
Proof using D V Polys PI II NE Cut Walks Once Done.
  intros v L. apply balanced; [exact Once|intros d; now apply walks_in|now apply walks_dst|].
  intros d Hd Q. apply Done, before; [exact Hd|]. now rewrite Q.
Qed.

Lemma heads_done : forall h l d, In (h :: l) Ts -> In d I -> dst d = src h -> In d (concat Ts) \/ src h = src e.
Proof using D V Polys PI II NE Cut Walks Once Done Heads.
  intros h l d Hh Hd Q. destruct (lex_z (src h) (src e)) eqn:C; [right; now apply lex_eq|left|].
  - apply (arrived (src h)); assumption.
  - exfalso. apply Heads in Hh. now apply (not_after h Hh).
Qed.

Lemma first_left : ~ In e (concat Ts) -> snd e = LeftEnd.
Proof using D V Polys PI II NE Cut Walks Once Done.
  intros N. destruct (snd e) eqn:Q; [reflexivity|exfalso]. apply N.
  assert (He : In e I) by (rewrite Cut; apply in_or_app; right; now left).
  apply (arrived (dst e)); [|exact He|reflexivity]. unfold TidyNext.dst, TidyNext.src. rewrite Q. cbn [other_z end_z].
  apply (seg_spec _ _ D). now apply (kept_seg zs modes S ks act sw I D V Polys PI NE).
Qed.
End Prefix.
End Walk.
