(* What a yielded event that crosses tells: a common point at which neither side
   ends.  This covers the test of the angles. *)
From Coq Require Import QArith Qcanon List Bool ZArith Lia Permutation.
From Verif Require Import Scalar Base Ground MLinear MSweep MCompound Planar Spec Geom RayParity SegProofs
  SweepStore SweepDetect SweepSteps Termination SweepSafe SweepTime SweepOrder SweepMoves SweepAdvance SweepLoop SweepEmit SweepRun SweepFound.
Import ListNotations.
Open Scope Qc_scope.

Lemma two_of {A} (l : list A) : NoDup l -> (1 < length l)%nat -> exists x y, In x l /\ In y l /\ x <> y.
Proof.
  destruct l as [|x [|y l]]; cbn [length]; try lia. intros N _. exists x, y. inversion N as [|? ? H _]; subst. split; [left; reflexivity|].
  split; [right; left; reflexivity|]. intros ->. apply H. left. reflexivity.
Qed.
Lemma filter_len {A} (f : A -> bool) l : (length (filter f l) + length (filter (fun x => negb (f x)) l) = length l)%nat.
Proof. induction l as [|x l IH]; cbn; [reflexivity|]. destruct (f x); cbn; lia. Qed.
Lemma crossing_many s l : NoDup l -> (forall e, In e l -> (left_of s e < nl s)%nat) -> forall k,
  rv (detect_crossing_angles s l) k = rv s k
  \/ forall b : bool, exists e f, In e l /\ In f l /\ e <> f /\ efrom_test s e = b /\ efrom_test s f = b.
Proof.
  intros Nd V k. unfold detect_crossing_angles. cbv zeta.
  destruct (Nat.ltb (length l) 4 || _) eqn:C; [left; reflexivity|].
  destruct l as [|e0 l']; [left; reflexivity|].
  destruct (filter (fun e => negb (efrom_test s e)) (e0 :: l')) as [|g0 gs] eqn:Eg; [left; reflexivity|]. clear Eg.
  destruct (negb (all_equal _)); [|left; reflexivity]. right. set (l := e0 :: l') in *.
  apply orb_false_iff in C. destruct C as [_ C]. apply negb_false_iff, andb_true_iff in C. destruct C as [C1 C2].
  apply Nat.ltb_lt in C1, C2. pose proof (filter_len (efrom_test s) l) as Ln. intros b.
  assert (K : forall f, (1 < length (filter f l))%nat -> exists e e', In e l /\ In e' l /\ e <> e' /\ f e = true /\ f e' = true).
  { intros f Lt. destruct (two_of (filter f l) (NoDup_filter f Nd) Lt) as (e & e' & I & I' & N). apply filter_In in I, I'. exists e, e'. tauto. }
  destruct b.
  - destruct (K (efrom_test s) C1) as (e & f & H). exists e, f. exact H.
  - destruct (K (fun e => negb (efrom_test s e))) as (e & f & A1 & A2 & A3 & A4 & A5); [fold l in Ln; lia|]. exists e, f.
    apply negb_true_iff in A4, A5. auto.
Qed.
Lemma leave_cross linear s l s' outs : leave linear s l = (s', outs) -> NoDup l ->
  NoDup (map (left_of s) l) -> (forall f, In f l -> (left_of s f < nl s)%nat) ->
  forall e, In e l -> rl s' (left_of s e) = SCROSS ->
  rl s (left_of s e) = SCROSS \/ (exists f, In f l /\ f <> e /\ pair_rel s e f = SCROSS)
  \/ forall b : bool, exists e f, In e l /\ In f l /\ e <> f /\ efrom_test s e = b /\ efrom_test s f = b.
Proof.
  intros H Nd N V e Ie R. destruct (leave_spec linear s l s' outs H N V) as (_ & _ & _ & H3 & _). unfold leave in H.
  assert (X1 : relonly s (if linear then detect_crossing_angles s l else s)) by (destruct linear; [apply (crossing_spec s l V)|apply relonly_refl]).
  assert (X2 : forall k, rv (if linear then detect_crossing_angles s l else s) k = rv s k
    \/ forall b : bool, exists e f, In e l /\ In f l /\ e <> f /\ efrom_test s e = b /\ efrom_test s f = b) by (destruct linear; [apply crossing_many; assumption|auto]).
  set (s1 := if linear then detect_crossing_angles s l else s) in *. pose proof (ro_geo _ _ X1) as G.
  assert (Lo : forall g, left_of s1 g = left_of s g) by (intros g; apply (geo_left_of G)).
  destruct (complete_spec l s1 s' outs H) as (_ & _ & _ & Y4).
  { rewrite (map_ext _ _ Lo). exact N. }
  { intros g I. rewrite Lo, (sg_len _ _ G). apply V, I. }
  assert (Z : (2 <= rv s' (left_of s1 e))%nat) by (rewrite Lo; unfold rv; rewrite R; cbn; lia).
  apply (Y4 e 2%nat Ie) in Z. rewrite Lo in Z.
  assert (NO : rl s' (left_of s e) <> SOVERLAP) by congruence.
  destruct Z as [Z|(f & If & Nf & Z)].
  - destruct (X2 (left_of s e)) as [E|E]; [left|right; right; exact E]. rewrite E in Z. unfold rv in Z.
    destruct (rl s (left_of s e)) eqn:Q; cbn in Z; try lia; [reflexivity|]. exfalso. apply NO, (H3 e Ie). left. exact Q.
  - right. left. exists f. split; [exact If|]. split; [exact Nf|]. rewrite (pair_rel_geo _ _ _ _ G) in Z.
    destruct (pair_rel s e f) eqn:Q; cbn in Z; try lia; [reflexivity|]. exfalso. apply NO, (H3 e Ie). right. exists f. auto.
Qed.

Lemma item_eq_dec (x y : item) : x = y \/ x <> y.
Proof.
  destruct x as [a b f u], y as [a' b' f' u']. destruct (pt_eqb_spec a a') as [->|N]; [|right; congruence]. destruct (pt_eqb_spec b b') as [->|N]; [|right; congruence].
  destruct (bool_dec f f') as [->|N]; [|right; congruence]. destruct (bool_dec u u') as [->|N]; [left; reflexivity|right; congruence].
Qed.

Section Through.
  Variable (eps : Qc) (inp : list item).
  Hypothesis (O : ordered eps (candidates inp)) (IO : items_ok inp) (AP : apart inp).
  (* The side does not end at the point. *)
  Definition passes (b : bool) (p : point) : Prop :=
    exists x, In x inp /\ it_ft x = b /\ on_item x p
      /\ (p <> it_lo x /\ p <> it_hi x \/ exists y, In y inp /\ it_ft y = b /\ y <> x /\ on_item y p).
  Definition through : Prop := exists p, passes true p /\ passes false p.
  Record thru (s : store) (acc : list levent) : Prop := {
    th_rl : forall i, (i < nl s)%nat -> rl s i = SCROSS -> through;
    th_out : forall out, In out acc -> l_relation out = SCROSS -> through
  }.
  Lemma thru_event c q q' acc : derived c q q' -> thru (q_store q) acc -> thru (q_store q') acc.
  Proof using Type.
    intros D [E1 E2]. set (s := q_store q) in *. set (s' := q_store q') in *. constructor; [|exact E2].
    intros i V R. destruct (Nat.lt_ge_cases i (nl s)) as [H|H].
    - apply (E1 i H). rewrite <- R. symmetry. exact (de_rel _ _ _ D i H).
    - destruct (de_new _ _ _ D i H V) as (k & X1 & X2 & _). fold s s' in X1, X2. apply (E1 k X1). unfold rl in *. congruence.
  Qed.
  Section Leave.
    Variable (linear : bool) (c : point) (s : store) (queue : list eref) (L : list nat) (same : list eref)
             (acc : list levent) (s' : store) (outs : list levent).
    Hypothesis (St : stage eps inp c (QS s queue) L) (Gr : group c (QS s queue) same).
    Hypothesis Nx : queue = [] \/ exists c', In c' (candidates inp) /\ plt c c' /\ forall f, In f queue -> ple c' (estart s f).
    Hypothesis (Lv : leave linear s same = (s', outs)).
    Hypothesis Th : thru s acc.
    Let S : swept eps inp c (QS s queue) L := proj1 St.
    Let P : pieces inp s := sp_pieces _ _ _ _ _ S.
    Let W : wf s := pc_wf _ _ P.
    Let Same := lv_same inp c s queue same Gr Nx.
    Lemma th_pos e : In e same -> let x := orig s (left_of s e) in
      In x inp /\ it_ft x = efrom_test s e /\ on_item x c
      /\ c <> (if is_left e then it_hi x else it_lo x) /\ eoriginal_start s e = (if is_left e then it_lo x else it_hi x).
    Proof.
      intros I x. pose proof (lv_left eps inp c s queue L same St Gr e I) as V.
      pose proof (lv_start eps inp c s queue L same St Gr Nx e I) as [Oc _].
      pose proof (pieces_on inp s _ c P V Oc) as Oi. fold x in Oi.
      split; [exact (pc_orig _ _ P _ V)|]. split; [symmetry; apply lft_efrom|]. split; [exact Oi|].
      apply Same in I. destruct I as [Ve Ee].
      pose proof (pc_lt _ _ P _ V) as Lt. pose proof (IO x (pc_orig _ _ P _ V)) as Lx.
      pose proof (proj1 (on_segment_order _ _ _ Lx) (pc_start _ _ P _ V)) as (_ & A1 & A2). pose proof (proj1 (on_segment_order _ _ _ Lx) (pc_end _ _ P _ V)) as (_ & B1 & B2).
      destruct e as [i|j]; cbn [left_of valid_ref estart is_left eoriginal_start] in *.
      - split; [|reflexivity]. intros E. change (lstart s i = c) in Ee. rewrite Ee, E in Lt. exact (ple_not_plt _ _ B2 Lt).
      - destruct (wf_l _ W j Ve) as [R1 R2].
        assert (Z : lend s (r_left (gr s j)) = c) by (unfold lend; rewrite R2; exact Ee).
        split; [intros E; rewrite Z, E in Lt; exact (ple_not_plt _ _ A1 Lt)|].
        unfold x, orig, loriginal_end. cbn [it_hi]. rewrite R2. reflexivity.
    Qed.
    Lemma th_two e f : In e same -> In f same -> e <> f -> efrom_test s e = efrom_test s f -> passes (efrom_test s e) c.
    Proof.
      intros Ie If N F. destruct (th_pos e Ie) as (X1 & X2 & X3 & X4 & X5). destruct (th_pos f If) as (Y1 & Y2 & Y3 & Y4 & Y5).
      set (x := orig s (left_of s e)) in *. set (y := orig s (left_of s f)) in *.
      exists x. split; [exact X1|]. split; [exact X2|]. split; [exact X3|].
      destruct (item_eq_dec x y) as [D|D]; [left|right; exists y; repeat (split; [congruence || assumption|]); exact Y3].
      rewrite <- D in Y4.
      destruct e as [i|j], f as [k|l]; cbn [is_left left_of] in *; try tauto; exfalso.
      - assert (Nik : i <> k) by congruence. pose proof (lv_left eps inp c s queue L same St Gr _ Ie) as Vi. pose proof (lv_left eps inp c s queue L same St Gr _ If) as Vk. cbn [left_of] in *.
        apply Same in Ie, If. destruct Ie as [_ Ei], If as [_ Ek]. cbn [estart] in *. change (lstart s i = c) in Ei. change (lstart s k = c) in Ek.
        pose proof (pc_lt _ _ P i Vi) as Li. pose proof (pc_lt _ _ P k Vk) as Lk.
        destruct (sp_part _ _ _ _ _ S i k Vi Vk Nik D) as [Z|Z]; cbn [q_store] in Z; apply (ple_not_plt _ _ Z); congruence.
      - pose proof (lv_left eps inp c s queue L same St Gr _ Ie) as Vi. pose proof (lv_left eps inp c s queue L same St Gr _ If) as Vk. cbn [left_of] in *.
        apply Same in Ie, If. destruct Ie as [Vj Ei], If as [Vl Ek]. cbn [estart valid_ref] in *.
        destruct (wf_l _ W j Vj) as [_ Rj]. destruct (wf_l _ W l Vl) as [_ Rl].
        assert (Nik : r_left (gr s j) <> r_left (gr s l)) by (intros E; apply N; rewrite <- Rj, <- Rl, E; reflexivity).
        assert (Ej : lend s (r_left (gr s j)) = c) by (unfold lend; rewrite Rj; exact Ei).
        assert (El : lend s (r_left (gr s l)) = c) by (unfold lend; rewrite Rl; exact Ek).
        pose proof (pc_lt _ _ P _ Vi) as Li. pose proof (pc_lt _ _ P _ Vk) as Lk.
        destruct (sp_part _ _ _ _ _ S _ _ Vi Vk Nik D) as [Z|Z]; cbn [q_store] in Z; apply (ple_not_plt _ _ Z); congruence.
    Qed.
    Lemma th_inner e : In e same -> estart s e <> eoriginal_start s e -> passes (efrom_test s e) c.
    Proof.
      intros I N. destruct (th_pos e I) as (X1 & X2 & X3 & X4 & X5). apply Same in I. destruct I as [_ Ee]. rewrite X5, Ee in N.
      exists (orig s (left_of s e)). repeat (split; [assumption|]). left. destruct (is_left e); auto.
    Qed.
    Lemma th_leave e : In e same -> rl s' (left_of s e) = SCROSS -> through.
    Proof.
      intros I R. destruct (group_lefts eps inp c _ L same S Gr) as [N V].
      destruct (leave_cross linear s same s' outs Lv (proj1 Gr) N V e I R) as [K|[(f & If & Nf & K)|K]].
      - exact (th_rl _ _ Th _ (V e I) K).
      - unfold pair_rel in K. destruct (Bool.eqb (efrom_test s f) (efrom_test s e)) eqn:Qf; [discriminate|]. apply eqb_false_iff in Qf.
        destruct (_ && _); [discriminate|].
        destruct (pt_eqb_spec (estart s e) (eoriginal_start s e)) as [|Ne]; [discriminate|].
        destruct (pt_eqb_spec (estart s f) (eoriginal_start s f)) as [|Nf']; [discriminate|].
        pose proof (th_inner e I Ne) as A. pose proof (th_inner f If Nf') as B. exists c.
        destruct (efrom_test s e), (efrom_test s f); try congruence; split; assumption.
      - exists c. split; [destruct (K true) as (a & b & A1 & A2 & A3 & A4 & A5)|destruct (K false) as (a & b & A1 & A2 & A3 & A4 & A5)];
          rewrite <- A4; apply (th_two a b); try assumption; congruence.
    Qed.
    Lemma thru_leave : thru s' (acc ++ outs).
    Proof.
      destruct (group_lefts eps inp c _ L same S Gr) as [N V]. destruct (leave_spec linear s same s' outs Lv N V) as (Ro & Eo & H1 & _).
      pose proof (ro_geo _ _ Ro) as Ge. constructor.
      - intros i Vi R. rewrite (sg_len _ _ Ge) in Vi. destruct (in_dec Nat.eq_dec i (map (left_of s) same)) as [I|I].
        + apply in_map_iff in I. destruct I as (e & <- & I). exact (th_leave e I R).
        + cbn [q_store] in H1. rewrite (H1 i I) in R. exact (th_rl _ _ Th i Vi R).
      - intros out I R. rewrite in_app_iff in I. destruct I as [I|I]; [exact (th_out _ _ Th out I R)|].
        rewrite Eo in I. apply in_map_iff in I. destruct I as (e & <- & I). exact (th_leave e I R).
    Qed.
  End Leave.
End Through.

Theorem sweep_through inp linear stop b fuel outs q' : items_ok inp -> apart inp -> ends_by inp stop b ->
  sweep linear fuel stop (init_state inp) = (outs, Ok q') ->
  forall out, In out outs -> l_relation out = SCROSS -> through inp.
Proof.
  intros IO AP EB H. destruct (ordered_exists (candidates inp)) as [eps O].
  destruct (run_sweep eps inp O IO AP linear (fun c q L same acc => thru inp (q_store q) acc)) with (stop := stop) (fuel := fuel) (outs := outs) (q' := q')
    as (c & s & L & same & acc & o & Fi).
  - intros c s queue L start same0 same e w' acc St Gr Pk Ec Th Ev St' D. exact (thru_event inp c _ _ acc D Th).
  - intros c c' s queue L same acc s' o St Gr Lt AQ (f & If & Ef) Lv St' Th. cbn [q_store] in *.
    assert (Kc : In c' (candidates inp)) by (exact (sp_c _ _ _ _ _ (proj1 St'))).
    assert (Nx : queue = [] \/ exists c', In c' (candidates inp) /\ plt c c' /\ forall f, In f queue -> ple c' (estart s f)) by (right; exists c'; auto).
    exact (thru_leave eps inp IO linear c s queue L same acc s' o St Gr Nx Lv Th).
  - destruct EB as [(x & Ix & _) _]. intros E. rewrite E in Ix. destruct Ix.
  - intros e Pk. pose proof (stage_init eps inp O IO AP e Pk) as St. set (c := estart _ e) in *.
    set (s := q_store (init_state inp)) in *.
    assert (F : forall i, (i < nl s)%nat -> ple c (lstart s i)).
    { intros i V. apply (sp_queue _ _ _ _ _ (proj1 St) (EL i)). apply init_in_queue. exact V. }
    split.
    + destruct EB as [(x & Ix & Fx) HB]. specialize (HB x Ix Fx).
      destruct (pc_cover _ _ (sp_pieces _ _ _ _ _ (proj1 St)) x (it_lo x) Ix (on_segment_start _ _)) as (i & Vi & Ei & Oi).
      pose proof (sp_pieces _ _ _ _ _ (proj1 St)) as P. fold s in P, Vi, Ei, Oi.
      assert (Z : ple c (it_hi x)).
      { eapply ple_trans; [exact (F i Vi)|]. apply (on_segment_order _ _ _ (pc_lt _ _ P i Vi)) in Oi. destruct Oi as (_ & Z & _).
        eapply ple_trans; [exact Z|]. left. exact (IO x Ix). }
      destruct Z as [[Z|[Z _]]|Z]; [qlra|rewrite Z; exact HB|rewrite Z; exact HB].
    + constructor; [|intros out []]. intros i V R. exfalso. unfold rl, s in R. unfold s in V. rewrite init_nl in V. rewrite (init_gl inp i V) in R. discriminate.
  - exact H.
  - destruct Fi as [St Gr Th Lv Eo Px Sp].
    pose proof (sp_pieces _ _ _ _ _ (proj1 St)) as P. cbn [q_store] in *. pose proof (pc_wf _ _ P) as W.
    assert (Nx : q_queue q' = [] \/ exists c', In c' (candidates inp) /\ plt c c' /\ forall f, In f (q_queue q') -> ple c' (estart s f)).
    { destruct Sp as [Sp|(e & Pk & Lt)]; [left; exact Sp|right]. exists (estart s e).
      assert (V : valid_ref s e) by (apply (qo_valid _ (sp_qok _ _ _ _ _ (proj1 St))); cbn [q_queue]; eapply q_peek_in; exact Pk).
      split.
      - destruct e as [i|j]; cbn [valid_ref estart] in *; [exact (pc_start_in _ _ P i V)|].
        destruct (wf_l _ W j V) as [R1 R2]. pose proof (pc_end_in _ _ P _ R1) as Z. unfold lend in Z. rewrite R2 in Z. exact Z.
      - split; [left; qlra|]. intros f If. apply key_le_ple. eapply q_peek_key; eassumption. }
    rewrite Eo. exact (th_out _ _ _ (thru_leave eps inp IO linear c s _ L same acc _ o St Gr Nx Lv Th)).
Qed.
