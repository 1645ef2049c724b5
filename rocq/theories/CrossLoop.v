(** The whole sweep over polygons whose edges cross, next to the sweep over the cut polygons. *)

From Coq Require Import List ZArith QArith Bool Arith Lia Permutation.
From Verif Require Import Base Float SpecFloat64 SpecShape SpecOrder SpecIntersect SpecHandle SpecTidy SpecContainers Geometry Sweep
  Contours Compute FloatFacts MapFacts ShapeFacts OrderFacts ContainerFacts HandleFacts TidyGeo TidyParity TidySetup TidyLine TidyPackets TidySweep TidyFacts
  CrossGeo CrossPieces CrossMeet CrossCore CrossSplit CrossResolve CrossPair CrossLeft CrossStep CrossRight CrossNext SpecCross.
Import ListNotations.

Section Loop.
Variables (zs : list corners) (S : list bseg) (modes : list polygon_mode).
Notation E := (edges zs).
Notation n := (length modes).
Notation eg := (eg (edges zs)).
Notation L s := (e_left (eg s)).
Notation R s := (e_right (eg s)).
Notation poly s := (e_poly (eg s)).
Notation mode_at := (mode_at modes).
Notation together := (together (edges zs)).
Notation reach := (reach (edges zs)).
Hypothesis (D : drawn E S) (Polys : forall s, In s S -> (poly s < n)%nat).
Variable cs : list (list bseg).
Notation sub := (sub cs).
Notation chain := (chain (edges zs) S).
Notation span := (span (edges zs)).
Notation fine := (fine (edges zs) cs).
Notation p_span := (p_span (edges zs)).
Notation calm := (calm zs).
Notation late := (late zs).
Notation core := (core zs S modes cs).
Notation inv := (inv zs S modes).
Hypothesis Chain : forall k b tl, sub k b tl -> chain b tl.
Hypothesis Fit : forall k k' b tl b' tl', sub k b tl -> sub k' b' tl' -> k <> k' -> fit (span b tl) (span b' tl').
Hypothesis Canon : forall s, In s S -> s_left s = int_point (L s) /\ s_right s = int_point (R s).
Hypothesis Arrive : forall k b c tl, sub k b (c :: tl) -> exists t, In t S /\ t <> b /\ R t = R b.

Lemma back_tail : forall x y, shrunk y x -> p_tail x <> [] -> p_head x = p_head y /\ p_tail y <> [].
Proof using. clear. intros x y (_ & H & t & Q) N. split; [exact H|]. rewrite Q. intros X. apply app_eq_nil in X. now apply N. Qed.

Lemma loop_sim : forall fuelA w ks U T W st q fuelB wB, core w ks U T W st -> calm T -> late T W -> inv q ks (map p_head T) (map p_head W) ->
  (todo U T st <= fuelA)%nat -> sweep_loop fuelB n (mk_sweep S ks q (map p_head T) (map p_head W)) = Ok wB ->
  exists w' W', sweep_loop fuelA n w = Ok w' /\ core w' (w_packets wB) [] [] W' [] /\ w_segs wB = S /\ w_swept wB = map p_head W' /\ inv [] (w_packets wB) [] (map p_head W').
Proof using D Polys Chain Fit Canon Arrive.
  destruct (endpoint_lawful unit) as (H1 & H2 & H3).
  induction fuelA as [|fuelA IH]; intros w ks U T W st q fuelB wB C Cm Lt_ V Td HB.
  all: pose proof (pop_spec int_event endpoint_cmp cmp_of H1 H2 H3 (w_queue w) (core_events zs S modes D cs Chain _ _ _ _ _ _ C) (c_heap _ _ _ _ _ _ _ _ _ _ C)) as Po.
  all: destruct (w_queue w) as [|x0 q0] eqn:Qw.
  all: try (assert (Nil : U = [] /\ T = [] /\ st = []) by
    (pose proof (c_queue _ _ _ _ _ _ _ _ _ _ C) as X; rewrite Qw in X; apply Permutation_nil in X; unfold events in X; apply app_eq_nil in X; destruct X as [X1 X2]; apply app_eq_nil in X2; destruct X2 as [X2 X3];
     destruct U; [|discriminate X1]; destruct T; [|discriminate X2]; destruct st; [|discriminate X3]; auto);
    destruct Nil as (-> & -> & ->);
    assert (Qn : q = []) by
     (destruct q as [|d q']; [reflexivity|exfalso]; assert (Id : In (fst d) S) by (apply (v_in _ _ _ _ _ _ _ V); now left);
      pose proof Id as Id'; apply (Permutation_in _ (Permutation_sym (c_parts _ _ _ _ _ _ _ _ _ _ C))) in Id'; apply in_flat_map in Id'; destruct Id' as (y & Hy & Hd); cbn [app] in Hy;
      assert (Hs : In (fst d) (map p_head W)) by (apply in_map_iff; exists y; split; [|exact Hy]; destruct Hd as [Hd|Hd]; [exact Hd|rewrite (c_done _ _ _ _ _ _ _ _ _ _ C y Hy) in Hd; destruct Hd]);
      apply (v_swept _ _ _ _ _ _ _ V) in Hs; destruct Hs as [_ Hs]; destruct d as [s []]; cbn [fst] in *;
      [apply Hs; apply (ends_later zs S modes D Polys _ _ _ _ _ V); now left|apply Hs; now left]);
    subst q; exists w, W; split;
    [cbn [sweep_loop]; rewrite Qw; refine (obind_ok _ _ _ _ Po _); reflexivity|];
    assert (QB : wB = mk_sweep S ks [] [] (map p_head W)) by (destruct fuelB; cbn in HB; injection HB as <-; reflexivity);
    rewrite QB; cbn [w_packets w_segs w_swept]; split; [exact C|]; split; [reflexivity|]; split; [reflexivity|exact V]).
  - exfalso. unfold todo in Td. destruct U; [|cbn in Td; lia]. destruct T; [|cbn in Td; lia]. destruct st; [|cbn in Td; lia].
    pose proof (c_queue _ _ _ _ _ _ _ _ _ _ C) as X. rewrite Qw in X. symmetry in X. apply Permutation_nil in X. discriminate.
  - destruct Po as ([s e] & q' & Po & HH & Pm & Min). rewrite <- Qw in Po, Pm, Min.
    assert (He : In (s, e) (events U T st)).
    { apply (Permutation_in _ (c_queue _ _ _ _ _ _ _ _ _ _ C)), (Permutation_in _ (Permutation_sym Pm)). now left. }
    unfold events in He. rewrite !in_app_iff in He. cbn [sweep_loop].
    assert (Step : forall w1, match e with RightEnd => sweep_right n (mk_sweep (w_segs w) (w_packets w) q' (w_active w) (w_swept w)) s | LeftEnd => sweep_left n (mk_sweep (w_segs w) (w_packets w) q' (w_active w) (w_swept w)) s end = Ok w1 ->
      (exists w' W', sweep_loop fuelA n w1 = Ok w' /\ core w' (w_packets wB) [] [] W' [] /\ w_segs wB = S /\ w_swept wB = map p_head W' /\ inv [] (w_packets wB) [] (map p_head W')) ->
      exists w' W', obind (heap_pop endpoint_cmp (w_queue w)) (fun next => match next with
        | None => Ok w
        | Some (segment, end_, q) => let w := mk_sweep (w_segs w) (w_packets w) q (w_active w) (w_swept w) in
            obind (match end_ with RightEnd => sweep_right n w segment | LeftEnd => sweep_left n w segment end) (fun w => sweep_loop fuelA n w) end) = Ok w'
        /\ core w' (w_packets wB) [] [] W' [] /\ w_segs wB = S /\ w_swept wB = map p_head W' /\ inv [] (w_packets wB) [] (map p_head W')).
    { intros w1 E1 (w' & W' & G1 & G2). exists w', W'. split; [|exact G2]. refine (obind_ok _ _ _ _ Po _). cbn beta iota zeta. refine (obind_ok _ _ _ _ E1 _). exact G1. }
    assert (Stale : In (s, e) (map right_end st) -> e = RightEnd /\ exists w1 sa sb, sweep_right n (mk_sweep (w_segs w) (w_packets w) q' (w_active w) (w_swept w)) s = Ok w1 /\ core w1 ks U T W (sa ++ sb)
       /\ (todo U T (sa ++ sb) + 1 = todo U T st)%nat).
    { intros X. apply in_map_iff in X. destruct X as (t & X & Ht). unfold right_end in X. injection X as -> <-. split; [reflexivity|].
      apply in_split in Ht. destruct Ht as (sa & sb & ->). destruct (stale_sim zs S modes D cs Chain w ks U T W sa s sb q' C Pm HH) as (w1 & G1 & G2 & G3). eauto 6. }
    (* the event of a piece *)
    assert (First : forall p, s = p_seg p -> match e with LeftEnd => In p U | RightEnd => In p T end -> In (p_head p, e) q ->
      exists fuelB' q1, fuelB = Datatypes.S fuelB' /\ heap cmp_of q1 /\ Permutation q ((p_head p, e) :: q1) /\ (forall b, In b q -> cmp_of (p_head p, e) b <> Gt) /\
        obind (match e with RightEnd => sweep_right n (mk_sweep S ks q1 (map p_head T) (map p_head W)) (p_head p) | LeftEnd => sweep_left n (mk_sweep S ks q1 (map p_head T) (map p_head W)) (p_head p) end)
          (fun w => sweep_loop fuelB' n w) = Ok wB).
    { intros p -> Hp Hq. pose proof (pop_first zs S modes D Polys cs Chain Fit Arrive w ks U T W st C Cm Lt_ p e Min Hp q V) as PF.
      assert (HP : Forall int_event q). { apply Forall_forall. intros d Hd. apply (v_in _ _ _ _ _ _ _ V) in Hd. eexists _, _. now apply (seg_spec _ _ D). }
      pose proof (pop_spec int_event endpoint_cmp cmp_of H1 H2 H3 q HP (v_heap _ _ _ _ _ _ _ V)) as PB.
      destruct q as [|y0 qr] eqn:Qq; [destruct Hq|]. rewrite <- Qq in *. destruct PB as ([sB eB] & q1 & PB & HHB & PmB & MinB).
      assert (Hb : In (sB, eB) q) by (apply (Permutation_in _ (Permutation_sym PmB)); now left).
      assert (Q : (p_head p, e) = (sB, eB)).
      { apply (ends_strict zs S D); [apply (v_in _ _ _ _ _ _ _ V _ Hq)|apply (v_in _ _ _ _ _ _ _ V _ Hb)|].
        pose proof (PF _ Hb) as X1. pose proof (MinB _ Hq) as X2. rewrite Forall_forall in HP.
        rewrite (H2 _ _ (HP _ Hq) (HP _ Hb)) in X2. destruct (cmp_of (p_head p, e) (sB, eB)); [reflexivity|exfalso; now apply X2|exfalso; now apply X1]. }
      injection Q as <- <-. destruct fuelB as [|fuelB']; cbn [sweep_loop w_queue] in HB.
      - exfalso. match type of HB with obind ?m _ = _ => replace m with (@Ok (option (bend * list bend)) (Some (p_head p, e, q1))) in HB by (symmetry; exact PB) end. discriminate HB.
      - exists fuelB', q1. split; [reflexivity|]. split; [exact HHB|]. split; [exact PmB|]. split; [exact PF|].
        match type of HB with obind ?m _ = _ => replace m with (@Ok (option (bend * list bend)) (Some (p_head p, e, q1))) in HB by (symmetry; exact PB) end. exact HB. }
    destruct He as [He|[He|He]].
    + apply in_flat_map in He. destruct He as (p & Hp & He). assert (Hp' : In p (U ++ T ++ W)) by (apply in_or_app; now left).
      pose proof (c_fine _ _ _ _ _ _ _ _ _ _ C p Hp') as Fp. pose proof (fine_head E S cs Chain p Fp) as Ip.
      destruct He as [He|[He|[]]]; injection He as <- <-.
      2:{ exfalso. assert (X : In (p_seg p, LeftEnd) (w_queue w)).
          { apply (Permutation_in _ (Permutation_sym (c_queue _ _ _ _ _ _ _ _ _ _ C))). apply in_or_app. left. apply in_flat_map. exists p. split; [exact Hp|now left]. }
          apply (Min _ X). enough (Q : @cmp_of unit (p_seg p, RightEnd) (p_seg p, LeftEnd) = Gt) by exact Q. unfold cmp_of. pose proof (piece_z E S D cs Chain p Fp) as Zp. rewrite (endpoint_cmp_int unit (p_seg p, RightEnd) (p_seg p, LeftEnd) _ _ _ _ Zp Zp).
          cbn [fst snd end_z]. unfold event_before_z. destruct Zp as (_ & _ & Zp & _). apply lex_gt in Zp. now rewrite Zp. }
      assert (Away : forall y, In y (T ++ W) -> p_head y <> p_head p).
      { intros y Hy Q. assert (y = p) by (apply (core_head zs S modes D cs Chain _ _ _ _ _ _ C); [apply in_or_app; now right|exact Hp'|now rewrite Q]). subst y.
        pose proof (c_index _ _ _ _ _ _ _ _ _ _ C) as ND. apply in_split in Hp. destruct Hp as (ua & ub & ->). rewrite map_app in ND. rewrite map_app in ND. cbn [map] in ND. rewrite <- app_assoc in ND.
        apply NoDup_remove_2 in ND. apply ND. rewrite !in_app_iff. right. right. now apply (in_map (fun q => s_index (p_seg q))). }
      assert (NA : ~ In (p_head p) (map p_head T)) by (intros X; apply in_map_iff in X; destruct X as (y & Q & Hy); apply (Away y); [apply in_or_app; now left|exact Q]).
      assert (NW : ~ In (p_head p) (map p_head W)) by (intros X; apply in_map_iff in X; destruct X as (y & Q & Hy); apply (Away y); [apply in_or_app; now right|exact Q]).
      assert (Hq : In (p_head p, LeftEnd) q).
      { destruct (in_or zs S modes D Polys (p_head p, LeftEnd) q Ip (v_in _ _ _ _ _ _ _ V)) as [X|X]; [exact X|exfalso].
        destruct (in_or zs S modes D Polys (p_head p, RightEnd) q Ip (v_in _ _ _ _ _ _ _ V)) as [Y|Y].
        - apply NA. apply (v_act _ _ _ _ _ _ _ V). auto.
        - apply NW. apply (v_swept _ _ _ _ _ _ _ V). auto. }
      destruct (First p eq_refl Hp Hq) as (fuelB' & q1 & -> & HHB & PmB & MinB & HB'). clear First.
      destruct (left_step zs S modes D Polys _ _ _ _ _ _ V PmB HHB MinB) as (ks' & act' & E1 & V').
      match type of HB' with obind ?m _ = _ => replace m with (Ok (mk_sweep S ks' q1 act' (map p_head W))) in HB' by (symmetry; exact E1) end. cbn [obind] in HB'.
      assert (Tg : forall x, In x T -> together (p_head p) (p_head x)).
      { intros x Hx. destruct (left_al zs S modes D Polys _ _ _ _ _ _ V PmB MinB (p_head x)) as ((A1 & A2 & A3) & _); [now apply in_map|].
        split; [exact A3|]. apply (lex_le_trans _ (L (p_head p))); [exact A2|]. now apply (seg_lr _ _ D). }
      assert (Ins : exists bl ab act1, sl_insert_neighbors segment_cmp (map p_head T) (p_head p) = Ok (bl, ab, act1) /\ strictly_sorted sc act1 /\ In (p_head p) act1).
      { destruct (left_line zs S modes D Polys _ _ _ _ _ _ V PmB MinB) as (bl & ab & act1 & L1 & L2 & L3 & _). exists bl, ab, act1. split; [exact L1|]. split; [exact L2|]. apply L3. now left. }
      pose proof (in_split _ _ Hp) as (Ua & Ub & EU). subst U.
      destruct (left_sim zs S modes D cs Chain Fit Canon w ks Ua p Ub T W st q' q1 (map p_head W) ks' act' C Cm Pm HH (v_new _ _ _ _ _ _ _ V _ Ip Hq) NA Tg Ins E1)
        as (w1 & A1 & U' & T' & st' & C' & -> & Cm' & Td' & Bk).
      apply (Step w1 A1). apply (IH w1 ks' U' T' W st' q1 fuelB' wB C' Cm'); [|exact V'|lia|exact HB'].
      intros x y Hx Tx Hy. destruct (Bk x Hx) as (x' & [<-|Hx'] & Sh); destruct (back_tail _ _ Sh Tx) as [-> Tx']; [|now apply Lt_].
      apply (lex_le_trans _ (L (p_head p))); [|now apply (seg_lr _ _ D)]. intros X. apply lex_gt in X.
      assert (Hs : In (p_head y) (map p_head W)) by (now apply in_map). apply (v_swept _ _ _ _ _ _ _ V) in Hs. destruct Hs as [Hs1 Hs2].
      apply (ev_rl zs S modes D Polys (p_head y) (p_head p) Hs1 Ip); [|exact X]. apply (v_order _ _ _ _ _ _ _ V); auto.
    + rewrite map_map in He. apply in_map_iff in He. destruct He as (p & He & Hp). unfold right_end in He. injection He as <- <-.
      assert (Hq : In (p_head p, RightEnd) q) by (assert (X : In (p_head p) (map p_head T)) by (now apply in_map); apply (v_act _ _ _ _ _ _ _ V) in X; apply X).
      destruct (First p eq_refl Hp Hq) as (fuelB' & q1 & -> & HHB & PmB & MinB & HB'). clear First.
      pose proof (pop_right zs S modes D cs Chain Fit Arrive w ks U T W st C Cm Lt_ p RightEnd Min Hp eq_refl) as Tp.
      pose proof (pop_break zs S modes D cs Chain Fit Arrive w ks U T W st C Cm Lt_ p RightEnd Min Hp) as Brk. cbn [end_z] in Brk. rewrite Tp in Brk.
      destruct (right_step zs S modes D Polys _ _ _ _ _ _ V PmB HHB MinB) as (act' & E1 & V').
      match type of HB' with obind ?m _ = _ => replace m with (Ok (mk_sweep S ks q1 act' (map p_head W ++ [p_head p]))) in HB' by (symmetry; exact E1) end. cbn [obind] in HB'.
      pose proof (in_split _ _ Hp) as (T1 & T2 & ET). rewrite ET in *.
      destruct (right_sim zs S modes D cs Chain Fit Canon w ks U T1 p T2 W st q' q1 ks act' _ C Tp Cm Pm HH E1) as (w1 & A1 & U' & T' & st' & C' & -> & Sw & Cm' & Td' & Bk).
      rewrite Sw in V'. match type of HB' with sweep_loop _ _ (mk_sweep _ _ _ _ ?x) = _ => replace x with (map p_head (W ++ [p])) in HB' by (symmetry; exact Sw) end. apply (Step w1 A1). apply (IH w1 ks U' T' (W ++ [p]) st' q1 fuelB' wB C' Cm'); [|exact V'|lia|exact HB'].
      intros x y Hx Tx Hy. destruct (Bk x Hx) as (x' & Hx' & Sh). destruct (back_tail _ _ Sh Tx) as [-> Tx']. apply in_app_iff in Hy. destruct Hy as [Hy|[<-|[]]]; [now apply Lt_|].
      now apply Brk.
    + destruct (Stale He) as (-> & w1 & sa & sb & A1 & C' & Td'). apply (Step w1 A1). apply (IH w1 ks U T W (sa ++ sb) q fuelB wB C' Cm Lt_ V); [lia|exact HB].
Qed.
End Loop.
