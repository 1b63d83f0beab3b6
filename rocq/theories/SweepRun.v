(* Induction over the loop of the sweep: the events of one point are processed
   one after another, then the point is left for the next one. *)
From Coq Require Import QArith Qcanon List Bool ZArith Lia Permutation.
From Verif Require Import Scalar Base Ground MLinear MSweep MCompound Planar Spec Geom RayParity SegProofs
  SweepStore SweepDetect SweepSteps Termination SweepSafe SweepTime SweepOrder SweepMoves SweepAdvance SweepLoop SweepEmit.
Import ListNotations.
Open Scope Qc_scope.

Lemma eref_eq_dec (e f : eref) : {e = f} + {e <> f}.
Proof. decide equality; apply Nat.eq_dec. Qed.
Lemma nodup_snoc {A} (l : list A) x : NoDup l -> ~ In x l -> NoDup (l ++ [x]).
Proof.
  intros N H. induction N as [|a l I N IH]; cbn [app]; [repeat constructor; intros []|].
  constructor.
  - rewrite in_app_iff. intros [K|[->|[]]]; [contradiction|]. apply H. left. reflexivity.
  - apply IH. intros K. apply H. right. exact K.
Qed.
Lemma q_peek_geo s s' l : same_geo s s' -> q_peek s' l = q_peek s l.
Proof.
  intros G. destruct l as [|e l]; [reflexivity|]. cbn [q_peek]. f_equal. revert e.
  induction l as [|f l IH]; intros e; [reflexivity|]. cbn [q_min_from]. rewrite (geo_queue_lt G). apply IH.
Qed.

Section Run.
  Variable (eps : Qc) (inp : list item).
  Hypothesis (O : ordered eps (candidates inp)) (IO : items_ok inp) (AP : apart inp).

  (* The processed events of the current point. *)
  Definition group (c : point) (q : qstate) (same : list eref) : Prop :=
    NoDup same /\ forall e, In e same <-> valid_ref (q_store q) e /\ estart (q_store q) e = c /\ ~ In e (q_queue q).

  Lemma group_lefts c q L same : swept eps inp c q L -> group c q same ->
    NoDup (map (left_of (q_store q)) same) /\ forall f, In f same -> (left_of (q_store q) f < nl (q_store q))%nat.
  Proof using Type.
    intros S [N G]. pose proof (sp_pieces _ _ _ _ _ S) as P. pose proof (pc_wf _ _ P) as W. set (s := q_store q) in *.
    assert (V : forall f, In f same -> (left_of s f < nl s)%nat).
    { intros f I. apply G in I. destruct I as [I _]. destruct f as [i|j]; cbn [left_of valid_ref] in *; [exact I|apply (wf_l _ W j I)]. }
    split; [|exact V].
    assert (Inj : forall e f, In e same -> In f same -> left_of s e = left_of s f -> e = f).
    { intros e f Ie If E. pose proof (V e Ie) as Ve. apply G in Ie, If. destruct Ie as (Ie & Ce & _), If as (If & Cf & _).
      destruct e as [i|i], f as [k|k]; cbn [left_of valid_ref estart] in *.
      - congruence.
      - exfalso. pose proof (pc_lt _ _ P i Ie) as Z. unfold lend in Z. subst i. destruct (wf_l _ W k If) as [_ R].
        rewrite R, Cf, <- Ce in Z. exact (plt_irrefl _ Z).
      - exfalso. pose proof (pc_lt _ _ P k If) as Z. unfold lend in Z. subst k. destruct (wf_l _ W i Ie) as [_ R].
        rewrite R, Ce, <- Cf in Z. exact (plt_irrefl _ Z).
      - destruct (wf_l _ W i Ie) as [_ R1], (wf_l _ W k If) as [_ R2]. rewrite E in R1. congruence. }
    clear - N Inj. induction N as [|e l I N IH]; cbn [map]; constructor.
    - intros K. apply in_map_iff in K. destruct K as (f & E & K). apply I.
      rewrite <- (Inj f e); [exact K|right; exact K|left; reflexivity|exact E].
    - apply IH. intros a b A B. apply Inj; right; assumption.
  Qed.

  Lemma peek_no_right s queue e : q_peek s queue = Some e -> is_left e = true -> no_right (estart s e) (QS s queue).
  Proof using Type.
    intros Pk Le j I E. cbn [q_store q_queue] in *. destruct (q_peek_key _ _ _ Pk _ I) as [H|[_ H]].
    - cbn [estart] in H. rewrite E in H. exact (plt_irrefl _ H).
    - specialize (H Le). discriminate.
  Qed.
  Lemma stage_geo c q q' L : geoq q q' -> stage eps inp c q L -> stage eps inp c q' L.
  Proof using Type.
    intros Gq (S & G & Ph & Sy). split; [exact (swept_geo eps inp c q q' L Gq S)|].
    destruct Gq as (s' & Ge & ->). cbn [q_store]. split; [|split].
    - intros b a A. exact (good_geo eps _ _ b a Ge (G b a A)).
    - destruct Ph as [H|H]; [left|right].
      + intros x y Ix Iy. rewrite !(geo_lstart Ge). apply H; assumption.
      + intros x Ix. unfold on_left. rewrite (geo_lend Ge), !(geo_lstart Ge). apply H, Ix.
    - intros x y A Tw. rewrite (geo_lstart Ge), !(geo_lend Ge). apply Sy; [exact A|].
      exact (twin_geo eps _ _ x y (same_geo_sym _ _ Ge) Tw).
  Qed.
  Lemma stage_advance c c' q L : stage eps inp c q L -> In c' (candidates inp) -> plt c c' ->
    (forall e, In e (q_queue q) -> ple c' (estart (q_store q) e)) -> stage eps inp c' q L.
  Proof.
    intros (S & G & Ph & Sy) Kc Lt AQ.
    assert (St : forall x, In x L -> lstart (q_store q) x <> c').
    { intros x Ix E. apply (plt_irrefl c). eapply plt_ple_trans; [exact Lt|]. rewrite <- E. exact (line_start eps inp c q L S x Ix). }
    split; [exact (advance eps inp O IO AP c c' q L S G Kc Lt AQ)|]. split; [exact G|]. split.
    - left. intros x y Ix _ E. exfalso. exact (St x Ix E).
    - intros x y A _ E. exfalso. exact (St x (proj1 (adj_in _ _ _ A)) E).
  Qed.
  Lemma group_advance c c' q L same : stage eps inp c q L -> plt c c' -> group c q same -> group c' q [].
  Proof using Type.
    intros (S & _) Lt _. split; [constructor|]. intros e. split; [intros []|]. intros (V & E & N).
    pose proof (sp_pieces _ _ _ _ _ S) as P. pose proof (pc_wf _ _ P) as W. apply (plt_irrefl c). apply (plt_ple_trans _ c'); [exact Lt|].
    rewrite <- E. destruct e as [i|j]; cbn [valid_ref estart] in *.
    - exact (sp_left _ _ _ _ _ S i V N).
    - destruct (wf_l _ W j V) as [R1 R2]. pose proof (sp_right _ _ _ _ _ S _ R1) as Z. unfold lend in Z. rewrite R2 in Z. exact (Z N).
  Qed.
  Lemma group_geo c s s' queue same : same_geo s s' -> group c (QS s queue) same -> group c (QS s' queue) same.
  Proof using Type.
    intros G [N H]. split; [exact N|]. intros e. rewrite H. cbn [q_store q_queue]. rewrite (geo_estart G).
    split; intros (A & B & D); (split; [|split; assumption]); [exact (valid_ref_geo _ _ _ G A)|exact (valid_ref_geo _ _ _ (same_geo_sym _ _ G) A)].
  Qed.
  Lemma group_event c s queue same e q' L : swept eps inp c (QS s queue) L -> In e queue -> estart s e = c -> group c (QS s queue) same ->
    derived c (QS s (q_remove e queue)) q' -> group c q' (same ++ [e]).
  Proof using Type.
    intros S Ie Ce [N H] D. cbn [q_store q_queue] in *. pose proof (sp_qok _ _ _ _ _ S) as [QV QN]. cbn [q_store q_queue] in *.
    assert (Ne : ~ In e same) by (intros K; apply H in K; tauto).
    split.
    - apply nodup_snoc; assumption.
    - intros f. rewrite in_app_iff. destruct (valid_dec s f) as [V|V].
      + destruct (de_ref _ _ _ D f V) as (X1 & X2 & X3). cbn [q_store q_queue] in *. rewrite X1, X3, (q_remove_iff _ _ _ QN), H.
        pose proof (de_valid _ _ _ D f V). split.
        * intros [(A & B & C)|[<-|[]]]; [|tauto]. split; [assumption|]. split; [exact B|]. tauto.
        * intros (A & B & C). destruct (eref_eq_dec f e) as [->|NE]; [right; left; reflexivity|left]. tauto.
      + split.
        * intros [K|[<-|[]]]; [apply H in K; tauto|]. exfalso. apply V. apply QV, Ie.
        * intros (A & B & C). exfalso. apply C. exact (proj2 (de_refn _ _ _ D f A V)).
  Qed.

  (* The beginning of the sweep. *)
  Lemma init_in_queue e : valid_ref (q_store (init_state inp)) e -> In e (q_queue (init_state inp)).
  Proof using Type.
    intros V. cbn [init_state q_queue]. apply refs_from_in.
    destruct e as [i|i]; cbn [valid_ref] in V; rewrite ?init_nl, ?init_nr in V; exists i; split; auto; lia.
  Qed.
  Lemma stage_init e : q_peek (q_store (init_state inp)) (q_queue (init_state inp)) = Some e ->
    stage eps inp (estart (q_store (init_state inp)) e) (init_state inp) [].
  Proof.
    intros Pk. set (s := q_store (init_state inp)) in *. pose proof (init_pieces inp IO) as P. fold s in P. pose proof (pc_wf _ _ P) as W.
    assert (QI : forall i, (i < nl s)%nat -> In (EL i) (q_queue (init_state inp)) /\ In (ER (l_right (gl s i))) (q_queue (init_state inp))).
    { intros i V. split; apply init_in_queue; [exact V|]. apply (wf_r _ W i V). }
    assert (Kc : In (estart s e) (candidates inp)).
    { apply q_peek_in in Pk. pose proof (qo_valid _ (init_queue inp) e Pk) as V. fold s in V.
      destruct e as [i|j]; cbn [valid_ref estart] in *; [exact (pc_start_in _ _ P i V)|].
      destruct (wf_l _ W j V) as [R1 R2]. pose proof (pc_end_in _ _ P _ R1) as Z. unfold lend in Z. rewrite R2 in Z. exact Z. }
    split; [|split; [|split]].
    - constructor; fold s.
      + exact P.
      + apply init_partitioned. apply apart_nodup; assumption.
      + apply init_queue.
      + constructor.
      + intros i [].
      + exact Kc.
      + intros f If. apply key_le_ple. eapply q_peek_key; eassumption.
      + intros i V N. exfalso. apply N. apply QI, V.
      + intros i V N. exfalso. apply N. apply QI, V.
      + intros i V. split; [intros []|]. intros [N _]. apply N. apply QI, V.
      + constructor.
      + constructor.
      + intros i k [].
      + intros k i _ _ [].
      + intros i k p Vi Vk N Oi Ok Tp. exfalso.
        pose proof (proj1 (on_left_time eps inp s O P IO i p Vi) Oi) as (T0 & _). unfold t0 in T0.
        assert (Z : tm eps (estart s e) <= tm eps (lstart s i)).
        { apply (tm_le eps _ O); [exact Kc|exact (pc_start_in _ _ P i Vi)|].
          change (ple (estart s e) (estart s (EL i))). apply key_le_ple. eapply q_peek_key; [exact Pk|]. apply QI, Vi. }
        qlra.
    - intros b a (l & r & E). destruct l; discriminate.
    - left. intros x y [].
    - intros x y (l & r & E). destruct l; discriminate.
  Qed.
  Lemma group_init c : group c (init_state inp) [].
  Proof using Type.
    split; [constructor|]. intros e. split; [intros []|]. intros (V & _ & N). apply N, init_in_queue, V.
  Qed.

  Variable linear : bool.
  Variable I : point -> qstate -> list nat -> list eref -> list levent -> Prop.
  Hypothesis I_event : forall c s queue L start same0 same e w' acc,
    stage eps inp c (QS s queue) L -> group c (QS s queue) same -> q_peek s queue = Some e -> estart s e = c ->
    I c (QS s queue) L same acc ->
    sw_event linear (SW (QS s (q_remove e queue)) L start same0) e = Ok w' ->
    stage eps inp c (sw_q w') (sw_line w') -> derived c (QS s (q_remove e queue)) (sw_q w') ->
    I c (sw_q w') (sw_line w') (same ++ [e]) acc.
  Hypothesis I_leave : forall c c' s queue L same acc s' outs,
    stage eps inp c (QS s queue) L -> group c (QS s queue) same ->
    plt c c' -> (forall f, In f queue -> ple c' (estart s f)) -> (exists f, In f queue /\ estart s f = c') ->
    leave linear s same = (s', outs) -> stage eps inp c' (QS s' queue) L ->
    I c (QS s queue) L same acc -> I c' (QS s' queue) L [] (acc ++ outs).

  Record finished (stop : Qc) (outs : list levent) (q' : qstate) (c : point) (s : store) (L : list nat)
         (same : list eref) (acc o : list levent) : Prop := {
    fin_stage : stage eps inp c (QS s (q_queue q')) L;
    fin_group : group c (QS s (q_queue q')) same;
    fin_I : I c (QS s (q_queue q')) L same acc;
    fin_leave : leave linear s same = (q_store q', o);
    fin_outs : outs = acc ++ o;
    fin_x : px c <= stop;
    fin_stop : q_queue q' = [] \/ exists e, q_peek s (q_queue q') = Some e /\ stop < px (estart s e)
  }.

  Theorem run_loop stop : forall fuel c q L same acc outs q', stage eps inp c q L -> group c q same -> I c q L same acc ->
    px c <= stop -> sw_loop linear fuel stop (SW q L (Some c) same) = (outs, Ok q') -> 
    exists c s L same acc' o, finished stop (acc ++ outs) q' c s L same acc' o.
  Proof.
    induction fuel as [|fuel IH]; intros c q L same acc outs q' St Gr Iv Px H; [discriminate|].
    cbn [sw_loop sw_q sw_line sw_start sw_same] in H. cbv zeta in H.
    fold (leave linear (q_store q) same) in H.
    destruct q as [s queue]. cbn [q_store q_queue] in H.
    destruct (q_peek s queue) as [e|] eqn:Pk.
    2:{ destruct (leave linear s same) as [s' o] eqn:Lv. injection H as <- <-. cbn [q_queue].
        assert (queue = []) by (destruct queue; [reflexivity|discriminate]). exists c, s, L, same, acc, o.
        constructor; cbn [q_queue q_store]; try assumption; try reflexivity. left. assumption. }
    destruct (qltb_spec stop (px (estart s e))) as [Sx|Sx].
    { destruct (leave linear s same) as [s' o] eqn:Lv. injection H as <- <-.
      exists c, s, L, same, acc, o.
      constructor; cbn [q_queue q_store]; try assumption; try reflexivity.
      right. exists e. split; [exact Pk|]. exact Sx. }
    assert (Px' : px (estart s e) <= stop) by (apply Qcnot_lt_le; exact Sx).
    pose proof (q_peek_in _ _ _ Pk) as Ie. cbn [popped sw_q q_store q_queue sw_line sw_start sw_same] in H.
    unfold sw_group in H. cbn [sw_q q_store q_queue sw_line sw_start sw_same] in H.
    destruct (pt_eqb_spec (estart s e) c) as [Ec|Nc].
    - (* the same point *)
      destruct (sw_event linear _ e) as [w'|] eqn:Ev; [|discriminate].
      assert (NR : is_left e = true -> no_right c (QS s queue)) by (intros Le; rewrite <- Ec; apply peek_no_right; assumption).
      destruct (stage_event eps inp O IO AP linear c s queue L (Some c) (same ++ [e]) e w' St Ie Ec NR Ev) as (St' & E1 & E2 & D).
      pose proof (I_event c s queue L _ _ same e w' acc St Gr Pk Ec Iv Ev St' D) as Iv'.
      pose proof (group_event c s queue same e (sw_q w') L (proj1 St) Ie Ec Gr D) as Gr'.
      destruct (sw_loop linear fuel stop w') as [outs' r] eqn:Lp. injection H as <- ->. cbn [app].
      destruct w' as [qw Lw sw smw]. cbn [sw_q sw_line sw_start sw_same] in *. subst sw smw.
      exact (IH c qw Lw (same ++ [e]) acc outs' q' St' Gr' Iv' Px Lp).
    - (* the next point *)
      fold (leave linear s same) in H.
      destruct (leave linear s same) as [s1 o] eqn:Lv. cbv zeta in H.
      destruct (group_lefts c (QS s queue) L same (proj1 St) Gr) as [N1 N2].
      destruct (leave_spec linear s same s1 o Lv N1 N2) as (Ro & _). pose proof (ro_geo _ _ Ro) as Ge.
      rewrite (geo_estart Ge) in H. set (c' := estart s e) in *.
      assert (Lt : plt c c').
      { destruct (sp_queue _ _ _ _ _ (proj1 St) e Ie) as [K|K]; [exact K|]. exfalso. apply Nc. symmetry. exact K. }
      assert (AQ : forall f, In f queue -> ple c' (estart s f)) by (intros f If; apply key_le_ple; eapply q_peek_key; eassumption).
      assert (Kc : In c' (candidates inp)).
      { pose proof (sp_pieces _ _ _ _ _ (proj1 St)) as P. pose proof (pc_wf _ _ P) as W. cbn [q_store] in *.
        pose proof (qo_valid _ (sp_qok _ _ _ _ _ (proj1 St)) e Ie) as V. cbn [q_store] in V. unfold c'.
        destruct e as [i|j]; cbn [valid_ref estart] in *; [exact (pc_start_in _ _ P i V)|].
        destruct (wf_l _ W j V) as [R1 R2]. pose proof (pc_end_in _ _ P _ R1) as Z. unfold lend in Z. rewrite R2 in Z. exact Z. }
      assert (Gq : geoq (QS s queue) (QS s1 queue)) by (exists s1; split; [exact Ge|reflexivity]).
      assert (St1 : stage eps inp c' (QS s1 queue) L) by (apply (stage_geo _ _ _ _ Gq); apply (stage_advance c); assumption).
      pose proof (group_geo c' s s1 queue [] Ge (group_advance c c' _ L same St Lt Gr)) as Gr1.
      pose proof (I_leave c c' s queue L same acc s1 o St Gr Lt AQ (ex_intro _ e (conj Ie eq_refl)) Lv St1 Iv) as Iv1.
      destruct (sw_event linear _ e) as [w'|] eqn:Ev; [|discriminate].
      assert (Ec1 : estart s1 e = c') by (rewrite (geo_estart Ge); reflexivity).
      assert (Pk1 : q_peek s1 queue = Some e) by (rewrite <- Pk; apply q_peek_geo; exact Ge).
      assert (NR : is_left e = true -> no_right c' (QS s1 queue)) by (intros Le; rewrite <- Ec1; apply peek_no_right; assumption).
      destruct (stage_event eps inp O IO AP linear c' s1 queue L (Some c') [e] e w' St1 Ie Ec1 NR Ev) as (St' & E1 & E2 & D).
      pose proof (I_event c' s1 queue L _ _ [] e w' (acc ++ o) St1 Gr1 Pk1 Ec1 Iv1 Ev St' D) as Iv'.
      pose proof (group_event c' s1 queue [] e (sw_q w') L (proj1 St1) Ie Ec1 Gr1 D) as Gr'.
      destruct (sw_loop linear fuel stop w') as [outs' r] eqn:Lp. injection H as <- ->. rewrite app_assoc.
      destruct w' as [qw Lw sw smw]. cbn [sw_q sw_line sw_start sw_same] in *. subst sw smw.
      exact (IH c' qw Lw [e] (acc ++ o) outs' q' St' Gr' Iv' Px' Lp).
  Qed.

  Theorem run_sweep stop fuel outs q' : inp <> [] ->
    (forall e, q_peek (q_store (init_state inp)) (q_queue (init_state inp)) = Some e ->
       px (estart (q_store (init_state inp)) e) <= stop /\ I (estart (q_store (init_state inp)) e) (init_state inp) [] [] []) ->
    sweep linear fuel stop (init_state inp) = (outs, Ok q') ->
    exists c s L same acc o, finished stop outs q' c s L same acc o.
  Proof.
    intros Ne I0 H. unfold sweep in H. destruct (q_peek _ _) as [e|] eqn:Pk.
    - destruct (I0 e eq_refl) as [Px Iv].
      exact (run_loop stop fuel _ _ [] [] [] outs q' (stage_init e Pk) (group_init _) Iv Px H).
    - exfalso. destruct inp as [|x l]; [congruence|]. discriminate.
  Qed.
End Run.
