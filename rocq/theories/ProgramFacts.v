(** Facts about the program. *)

From Coq Require Import String List ZArith Bool Lia.
From Coq Require Import Strings.Byte.
From Verif Require Import SpecBytes SpecWad Base BaseFacts ParseWad WadFacts Contours Info Chart RouteDraw Demo Flip Samples Program SpecProgram.
Import ListNotations.
Local Open Scope Z_scope.

Lemma read_input_iff : forall o f d, read_input o f = Some d <-> input o f d.
Proof.
  intros o f d. unfold read_input. destruct (bytes_eqb f (bs "-")) eqn:E.
  - apply bytes_eqb_eq in E. subst f. split; intro H.
    + inversion H. apply in_stdin.
    + inversion H; [reflexivity|]. exfalso. auto.
  - apply bytes_eqb_neq in E. split; intro H.
    + destruct (file_bytes o f) as [[|b l]|] eqn:F; try discriminate. inversion H; subst.
      apply in_file; [exact E|exact F|discriminate].
    + inversion H; subst; [exfalso; apply E; reflexivity|].
      match goal with H : file_bytes o f = Some d |- _ => rewrite H end.
      destruct d; [contradiction|reflexivity].
Qed.

Lemma arity_iff : forall c n, command_arity c = Some n <->
  (c = bs "info" /\ n = 0%nat) \/ (c = bs "chart" /\ n = 1%nat) \/ (c = bs "shapeops" /\ n = 0%nat) \/ (c = bs "route" /\ n = 1%nat).
Proof.
  intros c n. unfold command_arity, commands. cbn [find fst snd].
  destruct (bytes_eqb (bs "info") c) eqn:E1; [apply bytes_eqb_eq in E1; subst c|apply bytes_eqb_neq in E1].
  { split; intro H.
    - inversion H. auto.
    - destruct H as [[_ ->]|[[H _]|[[H _]|[H _]]]]; try discriminate H. reflexivity. }
  destruct (bytes_eqb (bs "chart") c) eqn:E2; [apply bytes_eqb_eq in E2; subst c|apply bytes_eqb_neq in E2].
  { split; intro H.
    - inversion H. auto.
    - destruct H as [[H _]|[[_ ->]|[[H _]|[H _]]]]; try discriminate H. reflexivity. }
  destruct (bytes_eqb (bs "shapeops") c) eqn:E3; [apply bytes_eqb_eq in E3; subst c|apply bytes_eqb_neq in E3].
  { split; intro H.
    - inversion H. auto.
    - destruct H as [[H _]|[[H _]|[[_ ->]|[H _]]]]; try discriminate H. reflexivity. }
  destruct (bytes_eqb (bs "route") c) eqn:E4; [apply bytes_eqb_eq in E4; subst c|apply bytes_eqb_neq in E4].
  { split; intro H.
    - inversion H. auto 6.
    - destruct H as [[H _]|[[H _]|[[H _]|[_ ->]]]]; try discriminate H. reflexivity. }
  split; [discriminate|]. intros [[H _]|[[H _]|[[H _]|[H _]]]]; subst; contradiction.
Qed.

Lemma arity_none : forall c, command_arity c = None <-> ~ In c command_names.
Proof.
  intro c. split.
  - intros H I. unfold command_names in I. cbn [In] in I.
    destruct I as [<-|[<-|[<-|[<-|[]]]]]; vm_compute in H; discriminate H.
  - intro H. destruct (command_arity c) as [n|] eqn:E; [|reflexivity]. exfalso. apply H.
    apply arity_iff in E. unfold command_names. cbn [In]. intuition auto.
Qed.

(** What clap passes on about a call. *)
Definition sub_of (c : call) : option (bytes * list bytes) :=
  match c with
  | CBare _ => None
  | CInfo _ => Some (bs "info", [])
  | CChart _ out => Some (bs "chart", [out])
  | CShapeops _ => Some (bs "shapeops", [])
  | CRoute _ out => Some (bs "route", [out])
  end.

Lemma clap_called : forall args c, called args c -> clap args = Some (call_file c, sub_of c).
Proof.
  intros args c [-> N]. apply arity_none in N.
  destruct c; cbn [call_file] in N; cbn [call_words clap call_file sub_of]; rewrite N; reflexivity.
Qed.
Lemma clap_some : forall args f s, clap args = Some (f, s) -> exists c, called args c /\ f = call_file c /\ s = sub_of c.
Proof.
  intros [|a l] f s H; [discriminate H|]. cbn [clap] in H.
  destruct (command_arity a) as [n|] eqn:A; [discriminate H|]. apply arity_none in A.
  destruct l as [|c params].
  - inversion H; subst. exists (CBare f). repeat split. exact A.
  - destruct (command_arity c) as [n|] eqn:C; [|discriminate H].
    destruct (length params =? n)%nat eqn:L; [|discriminate H]. apply Nat.eqb_eq in L. inversion H; subst.
    apply arity_iff in C.
    destruct C as [[-> L]|[[-> L]|[[-> L]|[-> L]]]]; destruct params as [|p [|q r]]; cbn [length] in L; try discriminate L.
    + exists (CInfo f). repeat split. exact A.
    + exists (CChart f p). repeat split. exact A.
    + exists (CShapeops f). repeat split. exact A.
    + exists (CRoute f p). repeat split. exact A.
Qed.

Section Runs.
  Variable order : list bytes -> list bytes.
  Variable std : std_impl.
  Variable fuel : nat.
  Variable mode : build.

  Definition finish (x : list effect * result) : list effect * Z :=
    match snd x with
    | RDone => (fst x, 0)
    | RFailed e => (fst x ++ [EError e], 0)
    | RPanicked _ => (fst x, 101)
    end.

  Lemma main_called : forall o args c, called args c ->
    main order std fuel mode o args = finish (run order std fuel mode o (call_file c) (sub_of c)).
  Proof.
    intros o args c H. unfold main. rewrite (clap_called _ _ H).
    destruct (run order std fuel mode o (call_file c) (sub_of c)) as [es r]. reflexivity.
  Qed.

  Lemma dispatch_run : forall o w c es z,
    finish (dispatch order std fuel mode o w (sub_of c)) = (es, z) <-> command_run order std fuel mode o w c es z.
  Proof.
    assert (S : forall o w c, command_run order std fuel mode o w c
               (fst (finish (dispatch order std fuel mode o w (sub_of c)))) (snd (finish (dispatch order std fuel mode o w (sub_of c))))).
    { intros o w c. destruct c as [f|f|f out|f|f out]; cbn [sub_of dispatch].
      - apply cr_bare.
      - change (bytes_eqb (bs "info") (bs "info")) with true. cbv iota.
        destruct (do_info order w) as [ts [[]|e|p]] eqn:E; unfold finish; cbn [fst snd result_of].
        + apply cr_info. exact E.
        + eapply cr_info_ended; [exact E|constructor].
        + rewrite <- (app_nil_r (map EPrint ts)). eapply cr_info_ended; [exact E|constructor].
      - change (bytes_eqb (bs "chart") (bs "info")) with false. change (bytes_eqb (bs "chart") (bs "chart")) with true. cbv iota.
        cbn [hd_error]. unfold and_write, omap_opt, write_file.
        destruct (do_chart mode w) as [[d|]|e|p] eqn:E; cbn [obind].
        + destruct (writable o out) eqn:W; unfold finish; cbn [fst snd unwrapped].
          * eapply cr_chart; eassumption.
          * eapply cr_chart_unwritable; eassumption.
        + apply cr_no_chart. exact E.
        + apply cr_chart_ended. rewrite E. constructor.
        + apply cr_chart_ended. rewrite E. constructor.
      - change (bytes_eqb (bs "shapeops") (bs "info")) with false. change (bytes_eqb (bs "shapeops") (bs "chart")) with false.
        change (bytes_eqb (bs "shapeops") (bs "flip")) with false. change (bytes_eqb (bs "shapeops") (bs "shapeops")) with true. cbv iota.
        unfold and_write, write_file.
        destruct (do_shapeops std fuel) as [d|e|p] eqn:E; cbn [obind].
        + destruct (writable o (bs "idchoppers-shapeops.svg")) eqn:W; unfold finish; cbn [fst snd passed_on app].
          * eapply cr_shapeops; eassumption.
          * eapply cr_shapeops_unwritable; eassumption.
        + apply cr_shapeops_ended. rewrite E. constructor.
        + apply cr_shapeops_ended. rewrite E. constructor.
      - change (bytes_eqb (bs "route") (bs "info")) with false. change (bytes_eqb (bs "route") (bs "chart")) with false.
        change (bytes_eqb (bs "route") (bs "flip")) with false. change (bytes_eqb (bs "route") (bs "shapeops")) with false.
        change (bytes_eqb (bs "route") (bs "route")) with true. cbv iota.
        cbn [hd_error]. unfold and_write, omap_opt, write_file.
        destruct (do_route std fuel mode w) as [[d|]|e|p] eqn:E; cbn [obind].
        + destruct (writable o out) eqn:W; unfold finish; cbn [fst snd unwrapped].
          * eapply cr_route; eassumption.
          * eapply cr_route_unwritable; eassumption.
        + apply cr_no_route. exact E.
        + apply cr_route_ended. rewrite E. constructor.
        + apply cr_route_ended. rewrite E. constructor. }
    intros o w c es z. split; intro H.
    - specialize (S o w c). rewrite H in S. exact S.
    - clear S. assert (E : forall A (x : outcome A) es z, ended x es z ->
        (exists e, x = Err e /\ es = [EError (FError e)] /\ z = 0) \/ (exists p, x = Panic p /\ es = [] /\ z = 101)).
      { intros A x es' z' [e|p]; [left; exists e|right; exists p]; auto. }
      destruct H as [f|f ts H|f ts r es z H J|f out H|f out x H W|f out x H W|f out es z J|f out H|f out x H W|f out x H W|f out es z J
                    |f x H W|f x H W|f es z J];
        cbn [sub_of dispatch];
        try (apply E in J; destruct J as [[e [J [-> ->]]]|[p [J [-> ->]]]]);
        try subst r;
        repeat match goal with |- context [bytes_eqb (bs ?a) (bs ?b)] =>
                 let v := eval vm_compute in (bytes_eqb (bs a) (bs b)) in change (bytes_eqb (bs a) (bs b)) with v end;
        cbv iota; cbn [hd_error]; unfold and_write, omap_opt, write_file, finish;
        try rewrite H; try rewrite J; cbn [obind fst snd result_of app]; try rewrite W; cbn [fst snd app]; try rewrite app_nil_r; reflexivity.
  Qed.

  Theorem main_run : forall o args c es z, called args c ->
    (main order std fuel mode o args = (es, z) <-> program_run order std fuel mode o c es z).
  Proof.
    intros o args c es z C. rewrite (main_called _ _ _ C). unfold run.
    destruct (read_input o (call_file c)) as [d|] eqn:R.
    - apply read_input_iff in R.
      assert (U : forall d', input o (call_file c) d' -> d' = d).
      { intros d' H. apply read_input_iff in H. apply read_input_iff in R. congruence. }
      destruct (parse_wad d) as [w|e|p] eqn:P.
      + assert (L : wad_layout d w) by (apply (parse_wad_ok_iff true); exact P).
        rewrite dispatch_run. split; intro H.
        * eapply pr_command; eassumption.
        * inversion H; subst.
          -- exfalso. match goal with H : forall d, ~ input o _ d |- _ => exact (H _ R) end.
          -- match goal with H : input o _ ?d' |- _ => is_var d'; rewrite (U _ H) in * end. congruence.
          -- match goal with H : input o _ ?d', L' : wad_layout ?d' ?w' |- _ => rewrite (U _ H) in L'; rewrite (wad_layout_unique _ _ _ L L') in * end. assumption.
      + assert (L : forall w, ~ wad_layout d w).
        { intros w L. pose proof (proj2 (parse_wad_ok_iff true d w) L) as L'. assert (Q : parse_wad d = Ok w) by exact L'. rewrite Q in P. discriminate P. }
        split; intro H.
        * unfold finish in H. cbn [fst snd app] in H. inversion H; subst. eapply pr_invalid; eassumption.
        * inversion H; subst.
          -- exfalso. match goal with H : forall d, ~ input o _ d |- _ => exact (H _ R) end.
          -- match goal with H : input o _ ?d', P' : parse_wad ?d' = _ |- _ => rewrite (U _ H), P in P'; inversion P'; subst end. reflexivity.
          -- exfalso. match goal with H : input o _ ?d', L' : wad_layout ?d' ?w' |- _ => rewrite (U _ H) in L'; apply (L _ L') end.
      + exfalso. exact (parse_wad_no_panic true _ _ P).
    - assert (N : forall d, ~ input o (call_file c) d).
      { intros d H. apply read_input_iff in H. congruence. }
      split; intro H.
      + inversion H; subst. apply pr_unreadable. exact N.
      + inversion H; subst; [reflexivity| |]; exfalso; eapply N; eassumption.
  Qed.

  Theorem main_usage : forall o args, (forall c, ~ called args c) -> main order std fuel mode o args = ([EUsage], 1).
  Proof.
    intros o args H. unfold main. destruct (clap args) as [[f s]|] eqn:E; [|reflexivity].
    destruct (clap_some _ _ _ E) as [c [C _]]. exfalso. exact (H c C).
  Qed.

  Lemma print_save : forall ts f d, ~ In (ESave f d) (map EPrint ts).
  Proof. intros ts f d H. apply in_map_iff in H. destruct H as [t [E _]]. discriminate E. Qed.
  Lemma ended_save : forall A (x : outcome A) es z f d, ended x es z -> ~ In (ESave f d) es.
  Proof. intros A x es z f d [e|p]; cbn [In]; intuition discriminate. Qed.

  Lemma called_or_not : forall args, (exists c, called args c) \/ forall c, ~ called args c.
  Proof.
    intro args. destruct (clap args) as [[f s]|] eqn:E.
    - destruct (clap_some _ _ _ E) as [c [C _]]. left. exists c. exact C.
    - right. intros c C. rewrite (clap_called _ _ C) in E. discriminate E.
  Qed.

  Lemma command_saves : forall o w c es z f d, command_run order std fuel mode o w c es z -> In (ESave f d) es ->
    es = [ESave f d] /\ z = 0 /\ writable o f = true /\ call_writes c f /\ forall b, d <> SFlip b.
  Proof.
    intros o w c es z f d R I.
    destruct R as [g|g ts H|g ts r es z H J|g out H|g out x H W|g out x H W|g out es z J|g out H|g out x H W|g out x H W|g out es z J
                  |g x H W|g x H W|g es z J].
    - destruct I as [I|[]]. discriminate I.
    - exfalso. exact (print_save _ _ _ I).
    - exfalso. apply in_app_or in I. destruct I as [I|I]; [exact (print_save _ _ _ I)|exact (ended_save _ _ _ _ _ _ J I)].
    - destruct I.
    - destruct I as [I|[]]. inversion I as [[E1 E2]]. subst f d. repeat split; [exact W|]. intros b B. discriminate B.
    - destruct I.
    - exfalso. exact (ended_save _ _ _ _ _ _ J I).
    - destruct I.
    - destruct I as [I|[]]. inversion I as [[E1 E2]]. subst f d. repeat split; [exact W|]. intros b B. discriminate B.
    - destruct I.
    - exfalso. exact (ended_save _ _ _ _ _ _ J I).
    - destruct I as [I|[]]. assert (E : f = bs "idchoppers-shapeops.svg" /\ d = SDemo x) by (split; congruence). destruct E as [-> ->].
      split; [reflexivity|]. split; [reflexivity|]. split; [exact W|]. split; [reflexivity|]. intros b B. discriminate B.
    - destruct I as [I|[]]. discriminate I.
    - exfalso. exact (ended_save _ _ _ _ _ _ J I).
  Qed.

  Lemma called_saves : forall o c es z f d, program_run order std fuel mode o c es z -> In (ESave f d) es ->
    es = [ESave f d] /\ z = 0 /\ writable o f = true /\ call_writes c f /\ forall b, d <> SFlip b.
  Proof.
    intros o c es z f d M I. destruct M as [N|b e J N P|b w es z J L R].
    - destruct I as [I|[]]. discriminate I.
    - destruct I as [I|[]]. discriminate I.
    - exact (command_saves _ _ _ _ _ _ _ R I).
  Qed.

  (** Only the file a call names is written, once, and only by a run that ends well. *)
  Theorem main_saves : forall o args es z f d, main order std fuel mode o args = (es, z) -> In (ESave f d) es ->
    es = [ESave f d] /\ z = 0 /\ writable o f = true /\ exists c, called args c /\ call_writes c f.
  Proof.
    intros o args es z f d M I. destruct (called_or_not args) as [[c C]|N].
    - apply (main_run _ _ c _ _ C) in M. destruct (called_saves _ _ _ _ _ _ M I) as [A [B [W [D _]]]].
      repeat split; auto. exists c. auto.
    - rewrite (main_usage _ _ N) in M. inversion M; subst. destruct I as [I|[]]. discriminate I.
  Qed.

  Theorem main_error : forall o args es z e, main order std fuel mode o args = (es, z) -> In (EError e) es -> z = 0.
  Proof.
    intros o args es z e M I. destruct (called_or_not args) as [[c C]|N].
    - apply (main_run _ _ c _ _ C) in M. destruct M as [N|b e' J N P|b w es z J L R]; [reflexivity..|].
      assert (E : forall A (x : outcome A) es z, ended x es z -> In (EError e) es -> z = 0).
      { intros A x es' z' [e'|p] K; [reflexivity|destruct K]. }
      destruct R as [g|g ts H|g ts r es z H K|g out H|g out x H W|g out x H W|g out es z K|g out H|g out x H W|g out x H W|g out es z K
                    |g x H W|g x H W|g es z K]; try reflexivity; try (destruct I; fail); try exact (E _ _ _ _ K I).
      apply in_app_or in I. destruct I as [I|I]; [|exact (E _ _ _ _ K I)].
      apply in_map_iff in I. destruct I as [t [I _]]. discriminate I.
    - rewrite (main_usage _ _ N) in M. inversion M; subst. destruct I as [I|[]]. discriminate I.
  Qed.

  (** flip *)
  Theorem flip_unknown : forall o f params, main order std fuel mode o (f :: bs "flip" :: params) = ([EUsage], 1).
  Proof.
    intros o f params. apply main_usage. intros c [E _]. destruct c; inversion E.
  Qed.
  Theorem never_flips : forall o args f b, ~ In (ESave f (SFlip b)) (fst (main order std fuel mode o args)).
  Proof.
    intros o args f b I. destruct (main order std fuel mode o args) as [es z] eqn:M. cbn [fst] in I.
    destruct (called_or_not args) as [[c C]|N].
    - apply (main_run _ _ c _ _ C) in M. destruct (called_saves _ _ _ _ _ _ M I) as [_ [_ [_ [_ D]]]]. exact (D b eq_refl).
    - rewrite (main_usage _ _ N) in M. inversion M; subst. destruct I as [I|[]]. discriminate I.
  Qed.
End Runs.

(** A world with one file, in which only [ok] can be written. *)
Definition one_file (f d ok : bytes) : world :=
  mk_world (fun g => if bytes_eqb g f then Some d else None) [] (fun g => bytes_eqb g ok).

Lemma status_zero : exists o args es e, forall order std fuel mode,
  main order std fuel mode o args = (es, 0) /\ In (EError e) es.
Proof.
  exists (one_file (bs "a.wad") (bs "IWAD") (bs "out")), [bs "a.wad"; bs "info"], [EError (FError (TruncatedData "wad header"))], (FError (TruncatedData "wad header")).
  intros. split; [vm_compute; reflexivity|left; reflexivity].
Qed.

Lemma flip_lost : exists o f d w b, input o f d /\ wad_layout d w /\ do_flip Checked w = Ok b /\ writable o (bs "flipped.wad") = true
  /\ forall order std fuel mode params, main order std fuel mode o (f :: bs "flip" :: params) = ([EUsage], 1).
Proof.
  exists (one_file (bs "a.wad") (buffer full_wad) (bs "flipped.wad")), (bs "a.wad"), (buffer full_wad), full_wad.
  eexists. repeat match goal with |- _ /\ _ => split end.
  - apply read_input_iff. vm_compute. reflexivity.
  - apply (parse_wad_ok_iff true). vm_compute. reflexivity.
  - vm_compute. reflexivity.
  - vm_compute. reflexivity.
  - intros. apply flip_unknown.
Qed.

Theorem unwritable_panics : forall order std fuel mode o c f out d w, c = CChart f out \/ c = CRoute f out ->
  ~ In f command_names -> input o f d -> wad_layout d w -> writable o out = false ->
  (c = CChart f out -> exists x, do_chart mode w = Ok (Some x)) ->
  (c = CRoute f out -> exists x, do_route std fuel mode w = Ok (Some x)) ->
  main order std fuel mode o (call_words c) = ([], 101).
Proof.
  intros order std fuel mode o c f out d w C N I L W HC HR.
  apply (main_run order std fuel mode o (call_words c) c); [split; [reflexivity|destruct C; subst c; exact N]|].
  eapply pr_command; [destruct C; subst c; exact I|exact L|].
  destruct C as [->| ->].
  - destruct (HC eq_refl) as [x X]. eapply cr_chart_unwritable; eassumption.
  - destruct (HR eq_refl) as [x X]. eapply cr_route_unwritable; eassumption.
Qed.

Lemma unwritable_unreported : exists o f out d w x, input o f d /\ wad_layout d w /\ do_chart Checked w = Ok (Some x)
  /\ writable o out = false
  /\ forall order std fuel, main order std fuel Checked o [f; bs "chart"; out] = ([], 101).
Proof.
  exists (one_file (bs "a.wad") (buffer full_wad) (bs "b.svg")), (bs "a.wad"), (bs "missing/b.svg"), (buffer full_wad), full_wad.
  eexists. repeat match goal with |- _ /\ _ => split end.
  - apply read_input_iff. vm_compute. reflexivity.
  - apply (parse_wad_ok_iff true). vm_compute. reflexivity.
  - vm_compute. reflexivity.
  - vm_compute. reflexivity.
  - intros. eapply (unwritable_panics order std fuel Checked _ (CChart (bs "a.wad") (bs "missing/b.svg"))).
    + left. reflexivity.
    + apply arity_none. reflexivity.
    + apply read_input_iff. vm_compute. reflexivity.
    + apply (parse_wad_ok_iff true). instantiate (1 := full_wad). vm_compute. reflexivity.
    + vm_compute. reflexivity.
    + intros _. eexists. vm_compute. reflexivity.
    + intro H. discriminate H.
Qed.
