(* A sweep over any correct containers does what the sweep over lists does. *)
From Coq Require Import QArith Qcanon List Bool ZArith Lia Permutation.
From Verif Require Import Scalar Base Ground MLinear MSweep MCompound Planar Spec Geom RayParity SegProofs
  SweepStore SweepDetect SweepSteps Termination SweepSafe SweepTime SweepOrder SweepMoves SweepAdvance SweepLoop SweepEmit SweepRun
  MContainers SpecContainers QueueOrder AnyDetect.
Import ListNotations.
Open Scope Qc_scope.

Lemma last_of_opt {A} (l : list A) : last_of l = last_opt l.
Proof.
  induction l as [|x l IH]; [reflexivity|]. cbn [last_of]. rewrite IH. destruct l as [|y l]; [reflexivity|].
  change (last_opt (x :: y :: l)) with (last_opt (y :: l)). destruct (last_opt (y :: l)) eqn:E; [reflexivity|].
  apply last_opt_none in E. discriminate.
Qed.
Lemma min_least s m l : forall best, orders (queue_lt s) (best :: l) -> In m (best :: l) ->
  (forall f, In f (best :: l) -> f <> m -> queue_lt s m f = true) -> q_min_from s best l = m.
Proof.
  induction l as [|e l IH]; intros best Or I M; cbn [q_min_from].
  - destruct I as [I|[]]. exact I.
  - assert (Sub : forall b, b = e \/ b = best -> orders (queue_lt s) (b :: l)).
    { intros b Hb. assert (X : forall x, In x (b :: l) -> In x (best :: e :: l)).
      { intros x [<-|Ix]; [destruct Hb as [->| ->]; cbn; auto|cbn; auto]. }
      destruct Or as [O1 O2]. constructor; [intros; apply O1; auto|intros x y z Ix Iy Iz; apply (O2 x y z); auto]. }
    destruct (queue_lt s e best) eqn:Q.
    + apply IH; [apply Sub; auto| |].
      * destruct I as [I|I]; [|exact I]. subst m. destruct (eref_eq_dec e best) as [->|N]; [left; reflexivity|].
        exfalso. pose proof (M e (or_intror (or_introl eq_refl)) N) as Z.
        rewrite (or_total _ _ Or best e) in Z; [|left; reflexivity|right; left; reflexivity|congruence]. rewrite Q in Z. discriminate.
      * intros f If Nf. apply M; [right; exact If|exact Nf].
    + apply IH; [apply Sub; auto| |].
      * destruct I as [I|[I|I]]; [left; exact I| |right; exact I]. subst m.
        destruct (eref_eq_dec e best) as [->|N]; [left; reflexivity|].
        exfalso. pose proof (M best (or_introl eq_refl) (not_eq_sym N)) as Z. congruence.
      * intros f [<-|If] Nf; apply M; cbn; auto.
Qed.
Lemma remove_perm e l : In e l -> Permutation l (e :: q_remove e l).
Proof.
  induction l as [|x l IH]; [intros []|]. cbn [q_remove]. destruct (eref_eqb_spec e x) as [->|N]; [reflexivity|].
  intros [E|I]; [congruence|]. eapply perm_trans; [apply perm_skip, IH, I|apply perm_swap].
Qed.
Lemma orders_perm {A} (lt : A -> A -> bool) l l' : Permutation l l' -> orders lt l -> orders lt l'.
Proof.
  intros P [O1 O2]. assert (X : forall x, In x l' -> In x l) by (intros x; apply Permutation_in; symmetry; exact P).
  constructor; [intros; apply O1; auto|intros x y z Ix Iy Iz; apply (O2 x y z); auto].
Qed.
Lemma orders_sub {A} (lt : A -> A -> bool) l l' : (forall x, In x l' -> In x l) -> orders lt l -> orders lt l'.
Proof. intros X [O1 O2]. constructor; [intros; apply O1; auto|intros x y z Ix Iy Iz; apply (O2 x y z); auto]. Qed.

Section Any.
  Variable (Q : pq_impl) (T : set_impl) (KQ : pq_correct Q) (KT : set_correct T).
  Notation holds := (pq_holds Q KQ).
  Notation sholds := (set_holds T KT).

  Definition sim (g : cstate Q) (q : qstate) : Prop :=
    c_store Q g = q_store q /\ holds (queue_lt (q_store q)) (c_heap Q g) (q_queue q).
  Definition okq (inp : list item) (q : qstate) : Prop :=
    pieces inp (q_store q) /\ partitioned (q_store q) /\ queue_ok q.

  Lemma sim_geo g q s' : sim g q -> queue_ok q -> same_geo (q_store q) s' ->
    sim (CQ Q s' (c_heap Q g)) (QS s' (q_queue q)).
  Proof using Type.
    intros [_ H] [_ N] G. split; [reflexivity|]. cbn [c_heap q_store q_queue].
    apply (pqc_stable _ KQ (queue_lt (q_store q))); [exact N| |exact H]. intros. apply (geo_queue_lt G).
  Qed.
  Lemma okq_geo inp q s' : okq inp q -> same_geo (q_store q) s' -> okq inp (QS s' (q_queue q)).
  Proof using Type.
    intros (P & Pa & [V N]) G. split; [exact (same_geo_pieces _ _ _ G P)|]. split.
    - eapply same_geo_partitioned; eassumption.
    - constructor; [|exact N]. cbn [q_queue q_store]. intros e I. apply (valid_ref_geo _ _ _ G), V, I.
  Qed.

  Section Orders.
    Variable inp : list item.
    Hypothesis (IO : items_ok inp) (AP : apart inp).
    Lemma okq_orders q : okq inp q -> orders (queue_lt (q_store q)) (q_queue q).
    Proof using IO AP. intros (P & Pa & [V N]). exact (queue_orders inp (q_store q) IO AP P Pa _ V). Qed.

    Lemma push2 lt s' h q i j : okq inp (QS s' (q ++ [EL i; ER j])) -> holds lt h q ->
      (forall x y, In x q -> In y q -> x <> y -> queue_lt s' x y = lt x y) ->
      holds (queue_lt s') (c_push2 Q s' h i j) (q ++ [EL i; ER j]).
    Proof using IO AP.
      intros Ok H St. pose proof (okq_orders _ Ok) as Or. destruct Ok as (_ & _ & [_ N]). cbn [q_store q_queue] in *.
      assert (Pm : Permutation (ER j :: EL i :: q) (q ++ [EL i; ER j])).
      { eapply perm_trans; [apply perm_swap|]. exact (Permutation_app_comm [EL i; ER j] q). }
      apply (pqc_bag _ KQ _ _ _ _ Pm). apply (Permutation_NoDup (Permutation_sym Pm)) in N.
      apply (orders_perm _ _ _ (Permutation_sym Pm)) in Or.
      assert (N1 : NoDup (EL i :: q)) by (inversion N; assumption).
      unfold c_push2. apply (pqc_push _ KQ); [exact N|exact Or|].
      apply (pqc_push _ KQ); [exact N1|refine (orders_sub _ _ _ _ Or); intros x Ix; right; exact Ix|].
      apply (pqc_stable _ KQ lt); [inversion N1; assumption|exact St|exact H].
    Qed.

    Lemma sim_div g q i p : sim g q -> okq inp q -> (i < nl (q_store q))%nat -> splits (q_store q) i p -> In p (candidates inp) ->
      sim (c_divide Q g i p) (divide_segment q i p) /\ okq inp (divide_segment q i p).
    Proof using IO AP.
      intros [E H] (P & Pa & Qk) Hi Sp Kp.
      assert (Ok' : okq inp (divide_segment q i p)).
      { split; [rewrite divide_segment_store; apply divide_pieces; assumption|].
        split; [rewrite divide_segment_store; eapply divide_partitioned; eassumption|apply queue_ok_div, Qk]. }
      split; [|exact Ok']. pose proof (proj1 Ok') as P'. rewrite divide_segment_store in P'.
      assert (KL : forall x y, In x (q_queue q) -> In y (q_queue q) -> x <> y ->
        queue_lt (fst (fst (divide (q_store q) i p))) x y = queue_lt (q_store q) x y).
      { intros x y Ix Iy _. apply (qo_valid _ Qk) in Ix, Iy.
        destruct (ekey_div inp (q_store q) i p x P Hi Ix) as [A1 A2]. destruct (ekey_div inp (q_store q) i p y P Hi Iy) as [B1 B2].
        apply (queue_lt_keep inp inp _ _ x y IO IO P P'); try assumption; apply valid_ref_div; assumption. }
      revert Ok' KL. unfold sim, c_divide, divide_segment. rewrite E. destruct (divide (q_store q) i p) as [[s' k] m] eqn:D.
      cbn [fst snd c_store c_heap q_store q_queue]. intros Ok' KL. split; [reflexivity|]. exact (push2 _ s' _ _ _ _ Ok' H KL).
    Qed.
    Lemma sim_divs l : forall g q, sim g q -> okq inp q -> split_seq inp q l ->
      sim (c_divs Q g l) (divs q l) /\ okq inp (divs q l).
    Proof using IO AP.
      induction l as [|[i p] l IH]; intros g q S Ok H; cbn [c_divs divs split_seq] in *; [split; assumption|].
      destruct H as (H1 & H2 & H3 & H4). destruct (sim_div g q i p S Ok H1 H2 H3) as [S' Ok']. apply IH; assumption.
    Qed.
    Lemma sim_detect mark g q b e r : sim g q -> okq inp q -> (b < nl (q_store q))%nat -> (e < nl (q_store q))%nat ->
      detect_intersection mark q b e = Ok r ->
      exists g', c_detect_intersection Q mark g b e = Ok (g', snd r) /\ sim g' (fst r) /\ okq inp (fst r).
    Proof using IO AP.
      intros S Ok Hb He D. rewrite detect_plan in D. rewrite c_detect_plan, (proj1 S).
      destruct (plan mark (q_store q) b e) as [[[s0 l] flag]|] eqn:Pl; [|discriminate]. cbn [bind fst snd] in D |- *. injection D as <-.
      cbn [fst snd]. eexists. split; [reflexivity|].
      destruct (plan_proper inp mark q b e (proj1 Ok) Hb He s0 l flag Pl) as [G Sq].
      apply sim_divs; [|exact (okq_geo _ _ _ Ok G)|exact Sq]. apply (sim_geo g q s0 S (proj2 (proj2 Ok)) G).
    Qed.
    Definition cpos (linear : bool) (g : cstate Q) (o : option nat) (i : nat) : cstate Q :=
      if linear then g else c_compute_position Q g o i.
    Lemma sim_pos linear g q o i : sim g q -> okq inp q -> sim (cpos linear g o i) (pos linear q o i) /\ okq inp (pos linear q o i).
    Proof using Type.
      intros S Ok. destruct linear; cbn [cpos pos]; [split; assumption|].
      destruct o as [b|]; cbn [c_compute_position compute_position]; [|split; assumption].
      rewrite (proj1 S). split.
      - apply sim_geo; [exact S|apply Ok|apply set_other_geo].
      - apply okq_geo; [exact Ok|apply set_other_geo].
    Qed.
    Lemma sim_peek g q : sim g q -> okq inp q -> pq_peek Q (c_heap Q g) = q_peek (q_store q) (q_queue q).
    Proof using IO AP.
      intros [_ H] Ok. pose proof (okq_orders _ Ok) as Or. destruct Ok as (_ & _ & [_ N]).
      destruct (pq_peek Q (c_heap Q g)) as [e|] eqn:Pk.
      - destruct (pqc_peek _ KQ _ _ _ e H N Or Pk) as [I M]. destruct (q_queue q) as [|x l]; [destruct I|].
        cbn [q_peek]. f_equal. symmetry. apply min_least; assumption.
      - rewrite (pqc_none _ KQ _ _ _ H N Or Pk). reflexivity.
    Qed.
    Lemma sim_pop g q e : sim g q -> okq inp q -> q_peek (q_store q) (q_queue q) = Some e ->
      sim (CQ Q (c_store Q g) (pq_pop Q (queue_lt (c_store Q g)) (c_heap Q g))) (QS (q_store q) (q_remove e (q_queue q))).
    Proof using IO AP.
      intros S Ok Pk. pose proof (sim_peek g q S Ok) as Pk'. rewrite Pk in Pk'.
      pose proof (okq_orders _ Ok) as Or. destruct Ok as (_ & _ & [_ N]). destruct S as [E H].
      pose proof (remove_perm e _ (q_peek_in _ _ _ Pk)) as Pm.
      split; [exact E|]. cbn [c_heap q_store q_queue]. rewrite E. apply (pqc_pop _ KQ _ _ _ e).
      - exact (Permutation_NoDup Pm N). - exact (orders_perm _ _ _ Pm Or). - exact (pqc_bag _ KQ _ _ _ _ Pm H). - exact Pk'.
    Qed.
  End Orders.

  Section Run.
    Variable (eps : Qc) (inp : list item).
    Hypothesis (O : ordered eps (candidates inp)) (IO : items_ok inp) (AP : apart inp).

    Lemma swept_okq c q L : swept eps inp c q L -> okq inp q.
    Proof using Type. intros S. split; [exact (sp_pieces _ _ _ _ _ S)|]. split; [exact (sp_part _ _ _ _ _ S)|exact (sp_qok _ _ _ _ _ S)]. Qed.
    Lemma swept_listed c q L : swept eps inp c q L -> listed (sweep_lt (q_store q)) L.
    Proof using O IO.
      intros S. split; [intros x; apply sweep_lt_irrefl|].
      assert (F : forall l, (forall x, In x l -> In x L) -> ForallOrdPairs (lord eps (q_store q)) l ->
        ForallOrdPairs (fun x y => sweep_lt (q_store q) x y = true /\ sweep_lt (q_store q) y x = false) l).
      { intros l Sub H. induction H as [|x l F H IH]; constructor.
        - rewrite Forall_forall in *. intros y Iy. apply (line_cmp eps inp O IO c q L S); [apply Sub; left; reflexivity|apply Sub; right; exact Iy|apply F, Iy].
        - apply IH. intros y Iy. apply Sub. right. exact Iy. }
      apply F; [auto|]. exact (sp_sorted _ _ _ _ _ S).
    Qed.
    Lemma listed_below s A b B : listed (sweep_lt s) (A ++ b :: B) -> sl_below s b (A ++ b :: B) = last_opt A.
    Proof using Type.
      intros [_ F]. apply sl_find. intros a Ia. apply and_comm. apply fop_app_iff in F. apply F; [exact Ia|left; reflexivity].
    Qed.

    Lemma sim_event linear c s queue L g t start same e w' : stage eps inp c (QS s queue) L -> In e queue -> estart s e = c ->
      (is_left e = true -> no_right c (QS s queue)) -> sim g (QS s (q_remove e queue)) -> sholds t L ->
      sw_event linear (SW (QS s (q_remove e queue)) L start same) e = Ok w' ->
      exists g' t', c_event Q T linear (CS Q T g t start same) e = Ok (CS Q T g' t' start same)
                    /\ sim g' (sw_q w') /\ sholds t' (sw_line w').
    Proof using O IO AP.
      intros St Ie Ee NR Si Ht H. pose proof St as (S & G & Ph & SY). pose proof (proj1 Si) as Es. cbn [q_store] in Es.
      destruct e as [i|j]; cbn [is_left] in NR.
      - specialize (NR eq_refl). pose proof (qo_valid _ (sp_qok _ _ _ _ _ S) _ Ie) as Hi. cbn [valid_ref q_store] in Hi.
        destruct (event_left _ _ _ _ H) as (q2 & Ha & Hb & El & _ & _). cbn [sw_q sw_line sw_start sw_same q_store] in *.
        destruct (insert_swept eps inp O IO AP c (QS s queue) L i S G NR Hi Ie Ee) as (A & B & EL_ & EA & Eab & Ebe & S1).
        cbn [q_store q_queue] in *. rewrite EA, Eab, Ebe in Ha. rewrite EA, Ebe in Hb. rewrite El, EA.
        pose proof (swept_listed c _ _ S1) as Li. cbn [q_store] in Li. set (L' := A ++ i :: B) in *.
        assert (Ht1 : sholds (set_add T (sweep_lt s) i t) L') by (apply (sc_add _ KT); [rewrite <- EL_; exact Ht|exact Li]).
        pose proof (sc_next _ KT _ _ _ _ _ Ht1 Li) as Nx. pose proof (sc_prev _ KT _ _ _ _ _ Ht1 Li) as Pv. rewrite last_of_opt in Pv.
        cbn [c_event cs_q cs_line cs_start cs_same]. rewrite Es, Nx, Pv.
        generalize dependent (set_add T (sweep_lt s) i t). intros t1 Ht1 Nx Pv.
        fold (cpos linear g (last_opt A) i).
        destruct (sim_pos inp linear g _ (last_opt A) i Si (swept_okq _ _ _ S1)) as [Si0 Ok0].
        set (q1 := QS s (q_remove (EL i) queue)) in *.
        pose proof (pos_quiet linear q1 (last_opt A) i) as Q0. set (q0 := pos linear q1 (last_opt A) i) in *.
        set (g0 := cpos linear g (last_opt A) i) in *. clearbody g0.
        assert (S0 : swept eps inp c q0 L') by exact (swept_geo eps inp c q1 q0 L' (quiet_geo _ _ Q0) S1). clearbody q0.
        assert (Ii : In i L') by (apply in_app_iff; right; left; reflexivity).
        assert (First : exists g2, (match hd_error B with
            | Some a => do r <- c_detect_intersection Q (negb linear) g0 i a;
                        Ok (if snd r then cpos linear (fst r) (Some i) a else fst r)
            | None => Ok g0 end) = Ok g2 /\ sim g2 q2 /\ swept eps inp c q2 L').
        { destruct (hd_error B) as [a|] eqn:EB; cbn [above_step] in Ha.
          - apply hd_in in EB. assert (Ia : In a L') by (apply in_app_iff; right; right; exact EB).
            destruct Ha as ([qr fl] & D & E2). cbn [fst snd] in E2.
            destruct (sim_detect inp IO AP _ _ _ i a _ Si0 Ok0 (sp_valid _ _ _ _ _ S0 i Ii) (sp_valid _ _ _ _ _ S0 a Ia) D) as (gr_ & Dc & Sr & Okr).
            cbn [fst snd] in *. rewrite Dc. cbn [bind fst snd].
            destruct (detect_moves eps inp O IO c q0 L' S0 _ i a qr fl Ii Ia D) as (_ & Ev & _).
            pose proof (evo_swept eps inp O IO c L' q0 qr Ev S0) as Sw. eexists. split; [reflexivity|].
            subst q2. destruct fl; [|split; assumption].
            split; [apply (sim_pos inp); assumption|]. exact (swept_geo eps inp c _ _ L' (quiet_geo _ _ (pos_quiet _ _ _ _)) Sw).
          - subst q2. exists g0. auto. }
        destruct First as (g2 & E2 & Si2 & S2). unfold cpos in E2. rewrite E2. cbn [bind].
        destruct (last_opt A) as [b|] eqn:EB; cbn [below_step] in Hb.
        + pose proof (last_in _ _ EB) as Ib0. assert (Ib : In b L') by (apply in_app_iff; left; exact Ib0).
          destruct Hb as ([qr fl] & D & E3). cbn [fst snd] in E3.
          destruct (sim_detect inp IO AP _ _ _ b i _ Si2 (swept_okq _ _ _ S2) (sp_valid _ _ _ _ _ S2 b Ib) (sp_valid _ _ _ _ _ S2 i Ii) D) as (gr_ & Dc & Sr & Okr).
          cbn [fst snd] in *. rewrite Dc. cbn [bind fst snd].
          destruct (detect_moves eps inp O IO c q2 L' S2 _ b i qr fl Ib Ii D) as (_ & Ev & _).
          pose proof (evo_swept eps inp O IO c L' q2 qr Ev S2) as Sw. pose proof (swept_listed c _ _ Sw) as Lw.
          destruct (last_opt_some _ _ EB) as (A' & EA'). assert (EL' : L' = A' ++ b :: i :: B) by (unfold L'; rewrite EA', <- app_assoc; reflexivity).
          eexists _, t1. split; [reflexivity|]. split; [|exact Ht1]. rewrite E3. destruct fl; [|exact Sr].
          assert (Pb : set_prev T (sweep_lt (c_store Q gr_)) b t1 = sl_below (q_store qr) b L').
          { rewrite (proj1 Sr). rewrite EL' in Ht1, Lw |- *. rewrite (sc_prev _ KT _ _ _ _ _ Ht1 Lw), (listed_below _ _ _ _ Lw). apply last_of_opt. }
          rewrite Pb. apply (sim_pos inp linear gr_ qr _ b Sr (swept_okq _ _ _ Sw)).
        + eexists _, t1. split; [reflexivity|]. split; [|exact Ht1]. rewrite Hb. exact Si2.
      - destruct (event_right _ _ _ _ H) as (Hm & _ & _). cbn [sw_q sw_line sw_start sw_same q_store] in *.
        destruct (remove_swept eps inp O IO c (QS s queue) L j S Ie Ee) as (A & B & EL_ & Em1 & Er & Ea & Eb & S1).
        cbn [q_store q_queue] in *. rewrite Em1, Ea, Eb in Hm. destruct Hm as [Hb El]. rewrite Er in El. rewrite El.
        pose proof (swept_listed c _ _ S) as Li. cbn [q_store] in Li. set (i := r_left (gr s j)) in *.
        cbn [c_event cs_q cs_line cs_start cs_same]. rewrite Es. fold i.
        rewrite EL_ in Ht, Li.
        rewrite (sc_mem _ KT _ _ _ _ _ Ht Li), (sc_next _ KT _ _ _ _ _ Ht Li), (sc_prev _ KT _ _ _ _ _ Ht Li), last_of_opt.
        pose proof (sc_remove _ KT _ _ _ _ _ Ht Li) as Ht'. generalize dependent (set_remove T (sweep_lt s) i t). intros t' Ht'.
        destruct (hd_error B) as [a|] eqn:EB, (last_opt A) as [b|] eqn:EA; cbn [between_step bind] in Hb |- *;
          try (eexists _, t'; split; [reflexivity|]; split; [rewrite Hb; exact Si|exact Ht']).
        apply hd_in in EB. apply last_in in EA.
        assert (Ia : In a (A ++ B)) by (apply in_app_iff; right; exact EB). assert (Ib : In b (A ++ B)) by (apply in_app_iff; left; exact EA).
        destruct Hb as (r & D & E3).
        destruct (sim_detect inp IO AP _ _ _ b a _ Si (swept_okq _ _ _ S1) (sp_valid _ _ _ _ _ S1 b Ib) (sp_valid _ _ _ _ _ S1 a Ia) D) as (gr_ & Dc & Sr & Okr).
        rewrite Dc. cbn [bind fst]. eexists _, t'. split; [reflexivity|]. split; [rewrite E3; exact Sr|exact Ht'].
    Qed.

    Lemma sim_loop linear stop : forall fuel c q L same g t outs q', stage eps inp c q L -> group c q same ->
      sim g q -> sholds t L -> sw_loop linear fuel stop (SW q L (Some c) same) = (outs, Ok q') ->
      exists g', c_loop Q T linear fuel stop (CS Q T g t (Some c) same) = (outs, Ok g') /\ sim g' q' /\ okq inp q'.
    Proof using O IO AP.
      induction fuel as [|fuel IH]; intros c q L same g t outs q' St Gr Si Ht H; [discriminate|].
      pose proof (swept_okq _ _ _ (proj1 St)) as Okq. pose proof (sim_peek inp IO AP g q Si Okq) as Pk'.
      cbn [sw_loop sw_q sw_line sw_start sw_same c_loop cs_q cs_line cs_start cs_same] in H |- *. cbv zeta in H |- *.
      pose proof (proj1 Si) as Es. rewrite Pk', Es.
      fold (leave linear (q_store q) same) in H |- *.
      destruct q as [s queue]. cbn [q_store q_queue] in *.
      assert (Fl : forall o q1, (let (s, outs) := leave linear s same in (outs, Ok (QS s queue))) = (o, Ok q1) ->
        exists g', (let (s, outs) := leave linear s same in (outs, Ok (CQ Q s (c_heap Q g)))) = (o, Ok g') /\ sim g' q1 /\ okq inp q1).
      { intros o q1 K. destruct (leave linear s same) as [s' o'] eqn:Lv. injection K as <- <-. eexists. split; [reflexivity|].
        destruct (group_lefts eps inp c (QS s queue) L same (proj1 St) Gr) as [N1 N2].
        destruct (leave_spec linear s same s' o' Lv N1 N2) as (Ro & _). pose proof (ro_geo _ _ Ro) as Ge.
        split; [exact (sim_geo g _ s' Si (proj2 (proj2 Okq)) Ge)|exact (okq_geo _ _ _ Okq Ge)]. }
      destruct (q_peek s queue) as [e|] eqn:Pk; [|apply Fl; exact H].
      destruct (qltb stop (px (estart s e))); [apply Fl; exact H|].
      pose proof (q_peek_in _ _ _ Pk) as Ie. pose proof (sim_pop inp IO AP g _ e Si Okq Pk) as Sp. rewrite Es in Sp. cbn [q_store q_queue] in Sp.
      cbn [popped sw_q q_store q_queue sw_line sw_start sw_same] in H.
      unfold sw_group in H. unfold c_group. cbn [sw_q q_store q_queue sw_line sw_start sw_same] in H.
      cbn [cs_q c_store c_heap cs_line cs_start cs_same].
      set (gp := CQ Q s (pq_pop Q (queue_lt s) (c_heap Q g))) in *.
      destruct (pt_eqb_spec (estart s e) c) as [Ec|Nc].
      - destruct (sw_event linear _ e) as [w'|] eqn:Ev; [|discriminate].
        assert (NR : is_left e = true -> no_right c (QS s queue)) by (intros Le; rewrite <- Ec; apply peek_no_right; assumption).
        destruct (stage_event eps inp O IO AP linear c s queue L (Some c) (same ++ [e]) e w' St Ie Ec NR Ev) as (St' & E1 & E2 & D).
        destruct (sim_event linear c s queue L gp t (Some c) (same ++ [e]) e w' St Ie Ec NR Sp Ht Ev) as (g' & t' & Ce & Sg & St1).
        pose proof (group_event eps inp c s queue same e (sw_q w') L (proj1 St) Ie Ec Gr D) as Gr'.
        destruct (sw_loop linear fuel stop w') as [outs' r] eqn:Lp. injection H as <- ->.
        destruct w' as [qw Lw sw smw]. cbn [sw_q sw_line sw_start sw_same] in *. subst sw smw.
        destruct (IH c qw Lw (same ++ [e]) g' t' outs' q' St' Gr' Sg St1 Lp) as (gf & X1 & X2 & X3).
        exists gf. rewrite Ce, X1. split; [reflexivity|split; assumption].
      - fold (leave linear s same) in H |- *.
        destruct (leave linear s same) as [s1 o] eqn:Lv. cbv zeta in H |- *.
        destruct (group_lefts eps inp c (QS s queue) L same (proj1 St) Gr) as [N1 N2].
        destruct (leave_spec linear s same s1 o Lv N1 N2) as (Ro & _). pose proof (ro_geo _ _ Ro) as Ge.
        rewrite (geo_estart Ge) in H |- *. set (c' := estart s e) in *.
        assert (Lt : plt c c').
        { destruct (sp_queue _ _ _ _ _ (proj1 St) e Ie) as [K|K]; [exact K|]. exfalso. apply Nc. symmetry. exact K. }
        assert (AQ : forall f, In f queue -> ple c' (estart s f)) by (intros f If; apply key_le_ple; eapply q_peek_key; eassumption).
        assert (Kc : In c' (candidates inp)).
        { pose proof (sp_pieces _ _ _ _ _ (proj1 St)) as P. pose proof (pc_wf _ _ P) as W. cbn [q_store] in *.
          pose proof (qo_valid _ (sp_qok _ _ _ _ _ (proj1 St)) e Ie) as V. cbn [q_store] in V. unfold c'.
          destruct e as [i|j]; cbn [valid_ref estart] in *; [exact (pc_start_in _ _ P i V)|].
          destruct (wf_l _ W j V) as [R1 R2]. pose proof (pc_end_in _ _ P _ R1) as Z. unfold lend in Z. rewrite R2 in Z. exact Z. }
        assert (Gq : geoq (QS s queue) (QS s1 queue)) by (exists s1; split; [exact Ge|reflexivity]).
        assert (St1 : stage eps inp c' (QS s1 queue) L) by (apply (stage_geo _ _ _ _ _ _ Gq); apply (stage_advance eps inp O IO AP c); assumption).
        pose proof (group_geo c' s s1 queue [] Ge (group_advance eps inp c c' _ L same St Lt Gr)) as Gr1.
        destruct (sw_event linear _ e) as [w'|] eqn:Ev; [|discriminate].
        assert (Ec1 : estart s1 e = c') by (rewrite (geo_estart Ge); reflexivity).
        assert (Pk1 : q_peek s1 queue = Some e) by (rewrite <- Pk; apply q_peek_geo; exact Ge).
        assert (NR : is_left e = true -> no_right c' (QS s1 queue)) by (intros Le; rewrite <- Ec1; apply peek_no_right; assumption).
        destruct (stage_event eps inp O IO AP linear c' s1 queue L (Some c') [e] e w' St1 Ie Ec1 NR Ev) as (St' & E1 & E2 & D).
        assert (Sp1 : sim (CQ Q s1 (c_heap Q gp)) (QS s1 (q_remove e queue))).
        { apply (sim_geo gp (QS s (q_remove e queue)) s1 Sp); [|exact Ge]. destruct (proj2 (proj2 Okq)) as [V N]. cbn [q_store q_queue] in *. constructor; cbn [q_store q_queue].
          - intros f If. apply V. apply q_remove_in in If. exact If.
          - apply (Permutation_NoDup (remove_perm e queue Ie)) in N. inversion N. assumption. }
        destruct (sim_event linear c' s1 queue L _ t (Some c') [e] e w' St1 Ie Ec1 NR Sp1 Ht Ev) as (g' & t' & Ce & Sg & Stt).
        pose proof (group_event eps inp c' s1 queue [] e (sw_q w') L (proj1 St1) Ie Ec1 Gr1 D) as Gr'.
        destruct (sw_loop linear fuel stop w') as [outs' r] eqn:Lp. injection H as <- ->.
        destruct w' as [qw Lw sw smw]. cbn [sw_q sw_line sw_start sw_same] in *. subst sw smw.
        destruct (IH c' qw Lw [e] g' t' outs' q' St' Gr' Sg Stt Lp) as (gf & X1 & X2 & X3).
        change (c_heap Q gp) with (pq_pop Q (queue_lt s) (c_heap Q g)) in Ce.
        exists gf. rewrite Ce, X1. split; [reflexivity|split; assumption].
    Qed.
  End Run.
End Any.
