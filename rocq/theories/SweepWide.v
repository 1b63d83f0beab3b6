(* When a sweep over two linear geometries marks a crossing, with any number of
   branches at the common points. *)
From Coq Require Import QArith Qcanon Lqa List Bool ZArith Lia.
From Verif Require Import Scalar Base Ground MLinear MSweep MCompound Planar Spec SpecAreas SpecMore SpecSides SpecWide RayParity Geom SegProofs
  SweepStore SweepDetect SweepSteps Termination SweepSafe SweepTime SweepOrder SweepMoves SweepAdvance SweepLoop SweepEmit SweepRun SweepFound SweepCross SegEdges SegStraight SegTold SweepAngles SweepSides WideAngles.
Import ListNotations.
Open Scope Qc_scope.

Section Wide.
  Variable (eps : Qc) (inp : list item).
  Hypothesis (O : ordered eps (candidates inp)) (IO : items_ok inp) (AP : apart inp).
  Hypothesis NS : ~ shared inp.
  Definition ifar (p u w : point) : Prop := branch inp false p w /\ forall v, branch inp false p v -> turns_more p u w v.
  Definition iwide (p u w : point) : Prop := u <> w /\ ifar p u w /\ exists u0, branch inp false p u0 /\ ifar p u0 u.
  Definition iboth (p u w : point) : Prop := exists q r, branch inp true p q /\ branch inp true p r /\ angle_in p u w q <> angle_in p u w r.
  Definition imid (p : point) : Prop := exists x y, In x inp /\ In y inp /\ it_ft x = true /\ it_ft y = false /\ on_item x p /\ on_item y p
    /\ p <> it_lo x /\ p <> it_hi x /\ p <> it_lo y /\ p <> it_hi y.
  Definition may (p : point) : Prop := imid p \/ exists u w, iwide p u w /\ iboth p u w.
  Definition must (p : point) : Prop := imid p
    \/ side_has inp true p /\ (exists u w, branch inp false p u /\ branch inp false p w /\ u <> w) /\ forall u w, iwide p u w -> iboth p u w.
  Lemma must_common p : must p -> common inp p.
  Proof using Type.
    intros [(x & y & X1 & Y1 & X2 & Y2 & X3 & Y3 & _)|[H [(u & w & (y & Y1 & Y2 & Y3 & _) & _) _]]]; [split; [exists x; auto|exists y; auto]|].
    split; [exact H|exists y; auto].
  Qed.

  Record bounded (B : point -> Prop) (s : store) (acc : list levent) : Prop := {
    bd_rl : forall i, (i < nl s)%nat -> rl s i = SCROSS -> exists p, may p;
    bd_out : forall out, In out acc -> l_relation out = SCROSS -> exists p, may p;
    bd_found : forall e, valid_ref s e -> B (estart s e) -> must (estart s e) -> exists out, In out acc /\ (2 <= srel_val (l_relation out))%nat
  }.
  Lemma bounded_weaken (B B' : point -> Prop) s acc : (forall e, valid_ref s e -> B' (estart s e) -> B (estart s e)) -> bounded B s acc -> bounded B' s acc.
  Proof using Type. intros H [E1 E2 E3]. constructor; [exact E1|exact E2|]. intros e V Be. apply E3; [exact V|]. apply H; assumption. Qed.
  Lemma bounded_event c q q' acc : derived c q q' -> bounded (fun p => plt p c) (q_store q) acc -> bounded (fun p => plt p c) (q_store q') acc.
  Proof using Type.
    intros D [E1 E2 E3]. set (s := q_store q) in *. set (s' := q_store q') in *. constructor; [|exact E2|].
    - intros i V R. destruct (Nat.lt_ge_cases i (nl s)) as [H|H].
      + apply (E1 i H). rewrite <- R. symmetry. exact (de_rel _ _ _ D i H).
      + destruct (de_new _ _ _ D i H V) as (k & X1 & X2 & _). fold s s' in X1, X2. apply (E1 k X1). unfold rl in *. congruence.
    - intros e V Be H. assert (V' : valid_ref s e).
      { destruct (valid_dec s e) as [Z|Z]; [exact Z|]. exfalso. destruct (de_refn _ _ _ D e V Z) as [Z1 _]. exact (ple_not_plt _ _ Z1 Be). }
      destruct (de_ref _ _ _ D e V') as (X1 & _). fold s s' in X1. rewrite X1 in Be, H. exact (E3 e V' Be H).
  Qed.

  Section Leave.
    Variable (c : point) (s : store) (queue : list eref) (L : list nat) (same : list eref)
             (acc : list levent) (s' : store) (outs : list levent).
    Hypothesis (St : stage eps inp c (QS s queue) L) (Gr : group c (QS s queue) same).
    Hypothesis Nx : queue = [] \/ exists c', In c' (candidates inp) /\ plt c c' /\ forall f, In f queue -> ple c' (estart s f).
    Hypothesis (Lv : leave true s same = (s', outs)).
    Hypothesis Bd : bounded (fun p => plt p c) s acc.
    Let S : swept eps inp c (QS s queue) L := proj1 St.
    Let P : pieces inp s := sp_pieces _ _ _ _ _ S.
    Let W : wf s := pc_wf _ _ P.
    Let Same := lv_same inp c s queue same Gr Nx.
    Lemma leave_wide : (may c /\ forall k, In k (map (left_of s) same) -> rv (detect_crossing_angles s same) k = Nat.max (rv s k) 2)
      \/ ((must c -> imid c) /\ detect_crossing_angles s same = s).
    Proof.
      assert (V : forall e, In e same -> (left_of s e < nl s)%nat) by exact (lv_left eps inp c s queue L same St Gr).
      assert (GI : forall e, In e (goals s same) <-> In e same /\ efrom_test s e = false) by (intros e; apply goals_in).
      assert (ND : NoDup (goals s same)) by (apply NoDup_filter; exact (proj1 Gr)).
      pose proof (far_branch eps inp IO c s queue L same St Gr Nx) as FB.
      pose proof (fun b z Cm => far_all eps inp O IO AP NS c s queue L same St Gr Nx b z Cm) as FA.
      pose proof (far_inj eps inp IO AP c s queue L same St Gr Nx) as FI.
      assert (TWO : must c -> imid c \/ (1 < length (goals s same))%nat).
      { intros H. assert (Cm := must_common c H). destruct H as [H|[_ [(u & w & BU & BW & N) _]]]; [left; exact H|right].
        destruct (FA false u Cm BU) as (gu & Iu & Fu & Eu). destruct (FA false w Cm BW) as (gw & Iw & Fw & Ew).
        assert (Ju : In gu (goals s same)) by (apply GI; auto). assert (Jw : In gw (goals s same)) by (apply GI; auto).
        destruct (goals s same) as [|a [|b r]]; [destruct Ju| |cbn; lia]. destruct Ju as [<-|[]], Jw as [<-|[]]. congruence. }
      destruct (Nat.lt_ge_cases 1 (length (goals s same))) as [L2|L2].
      2:{ right. split; [|apply angles_few; exact L2 || (unfold goals in L2; lia)]. intros H. destruct (TWO H) as [K|K]; [exact K|lia]. }
      assert (EW : forall a b, In a same -> In b same -> same_way c (eend s a) (eend s b) -> same_way c (far s a) (far s b)).
      { intros a b Ia Ib Q. apply (same_way_trans c _ (eend s a)); [apply FB, Ia|]. apply (same_way_trans c _ (eend s b)); [exact Q|]. apply same_way_sym, FB, Ib. }
      assert (FN : forall e, In e same -> far s e <> c) by (intros e I; destruct (FB e I) as [B _]; exact (branch_neq _ _ _ _ B)).
      assert (EN : forall e, In e same -> eend s e <> c) by (intros e I; destruct (FB e I) as [B Wy]; exact (same_way_neq c _ _ (branch_neq _ _ _ _ B) Wy)).
      assert (GB : forall g, In g (goals s same) -> branch inp false c (far s g)).
      { intros g I. apply GI in I. destruct I as [I F]. destruct (FB g I) as [B _]. rewrite F in B. exact B. }
      assert (GW : forall g, In g (goals s same) -> same_way c (far s g) (eend s g)) by (intros g I; apply GI in I; apply FB, I).
      destruct (angles_wide s same c V) as (g & h & Ch & R).
      - intros e I. apply Same in I. apply I.
      - exact EN.
      - exact L2.
      - exact ND.
      - intros e f Ie If N Q. apply (EW e f) in Q; [|apply GI, Ie|apply GI, If]. revert Q. apply (same_side inp IO AP false); [apply GB, Ie|apply GB, If|].
        intros E. apply N. apply GI in Ie, If. destruct Ie as [Ie Fe], If as [If Ff]. apply FI; congruence.
      - intros e k Ie Fe Ik Q. apply (EW k e) in Q; [|apply GI, Ik|exact Ie]. destruct (FB e Ie) as [Be _]. rewrite Fe in Be. exact (other_sides inp NS c _ _ Be (GB k Ik) (same_way_sym _ _ _ Q)).
      - destruct Ch as (N & Ig & Ih & Fh & g0 & I0 & Fg).
        assert (AI : forall e, In e same -> angle_in c (eend s g) (eend s h) (eend s e) = angle_in c (far s g) (far s h) (far s e)) by (intros e I; apply angle_in_ways; [apply GW, Ig|apply GW, Ih|apply FB, I]).
        assert (PB : parted_by s same c g h -> iboth c (far s g) (far s h)).
        { intros (e & f & Ie & If & Fe & Ff & D). rewrite !AI in D by assumption. exists (far s e), (far s f). destruct (FB e Ie) as [Be _]. destruct (FB f If) as [Bf _]. rewrite Fe in Be. rewrite Ff in Bf. auto. }
        assert (NF : far s g <> far s h).
        { intros E. apply N. apply GI in Ig, Ih. destruct Ig as [Ig Fg'], Ih as [Ih Fh']. apply FI; congruence. }
        assert (IW : common inp c -> iwide c (far s g) (far s h)).
        { intros Cm. assert (T : forall k u, In k (goals s same) -> In u (goals s same) -> (forall e, In e (goals s same) -> turns_more c (eend s u) (eend s k) (eend s e)) -> ifar c (far s u) (far s k)).
          { intros k u Ik Iu H. split; [apply GB, Ik|]. intros v Bv. destruct (FA false v Cm Bv) as (e & Ie & Fe & <-). assert (Je : In e (goals s same)) by (apply GI; auto).
            apply (turns_ways c (eend s u) (eend s k) (eend s e)); [apply EN, GI, Ik|apply EN, Ie|apply same_way_sym, GW, Iu|apply same_way_sym, GW, Ik|apply same_way_sym, GW, Je|exact (H e Je)]. }
          split; [exact NF|]. split; [apply T; assumption|]. exists (far s g0). split; [apply GB, I0|apply T; assumption]. }
        destruct R as [[R1 R2]|[R1 R2]].
        + left. split; [|exact R2]. right. exists (far s g), (far s h). split; [|apply PB, R1]. apply IW.
          destruct (PB R1) as (q & r & (x & X1 & X2 & X3 & _) & _). destruct (GB g Ig) as (y & Y1 & Y2 & Y3 & _). split; [exists x; auto|exists y; auto].
        + right. split; [|exact R2]. intros H. assert (Cm := must_common c H). destruct H as [H|(_ & _ & H)]; [exact H|exfalso]. apply R1.
          destruct (H _ _ (IW Cm)) as (q & r & BQ & BR & D).
          destruct (FA true q Cm BQ) as (e & Ie & Fe & <-). destruct (FA true r Cm BR) as (f & If & Ff & <-). exists e, f. repeat (split; [assumption|]). rewrite !AI by assumption. exact D.
    Qed.
    Lemma mid_pair : imid c -> exists e f, In e same /\ In f same /\ f <> e /\ (2 <= srel_val (pair_rel s e f))%nat.
    Proof.
      intros (x & y & X1 & Y1 & X2 & Y2 & X3 & Y3 & D1 & D2 & D3 & D4).
      assert (Cm : common inp c) by (split; [exists x; auto|exists y; auto]).
      pose proof (fun b z Cm => far_all eps inp O IO AP NS c s queue L same St Gr Nx b z Cm) as FA.
      assert (G : forall x, In x inp -> on_item x c -> c <> it_lo x -> c <> it_hi x -> exists e, In e same /\ efrom_test s e = it_ft x /\ estart s e <> eoriginal_start s e).
      { clear x y X1 Y1 X2 Y2 X3 Y3 D1 D2 D3 D4. intros x X1 X3 D1 D2. destruct (FA (it_ft x) (it_hi x) Cm) as (e & I & F & E); [exists x; repeat (split; [congruence || assumption|]); auto|].
        exists e. split; [exact I|]. split; [exact F|]. destruct (th_pos eps inp IO c s queue L same St Gr Nx e I) as (Z1 & Z2 & Z3 & Z4 & Z5). rewrite Z5. pose proof (proj1 (Same e) I) as [_ Ee]. rewrite Ee.
        unfold far in E. set (z := orig s (left_of s e)) in *. destruct (item_eq_dec z x) as [Q|Q]; [rewrite Q; destruct (is_left e); assumption|]. exfalso.
        assert (OZ : on_item z (if is_left e then it_hi z else it_lo z)) by (destruct (is_left e); [apply on_segment_end|apply on_segment_start]). rewrite E in OZ.
        apply D2. exact (apart_pair inp z x AP Z1 X1 Q ltac:(congruence) c (it_hi x) Z3 X3 OZ (on_segment_end _ _)). }
      destruct (G x X1 X3 D1 D2) as (e & Ie & Fe & Ne). destruct (G y Y1 Y3 D3 D4) as (f & If & Ff & Nf). exists e, f. split; [exact Ie|]. split; [exact If|]. split; [congruence|].
      unfold pair_rel. rewrite Fe, Ff, X2, Y2. cbn [Bool.eqb]. destruct (_ && _); [cbn; lia|].
      destruct (pt_eqb_spec (estart s e) (eoriginal_start s e)); [contradiction|]. destruct (pt_eqb_spec (estart s f) (eoriginal_start s f)); [contradiction|]. cbn. lia.
    Qed.
    Lemma bounded_leave_e e : In e same -> (2 <= rv s' (left_of s e))%nat /\ rl s' (left_of s e) <> SOVERLAP -> exists p, may p.
    Proof.
      intros I [R NO]. destruct (group_lefts eps inp c _ L same S Gr) as [N V]. cbn [q_store] in N, V.
      destruct (leave_spec true s same s' outs Lv N V) as (_ & _ & _ & H3 & _). unfold leave in Lv.
      assert (X1 := proj1 (crossing_spec s same V)). pose proof (ro_geo _ _ X1) as G.
      assert (LA := leave_wide). revert Lv X1 G LA. generalize (detect_crossing_angles s same) as s1. intros s1 Lv' X1 G LA.
      assert (Lo : forall g, left_of s1 g = left_of s g) by (intros g; apply (geo_left_of G)).
      destruct (complete_spec same s1 s' outs Lv') as (_ & _ & _ & Y4).
      { rewrite (map_ext _ _ Lo). exact N. }
      { intros g Ig. rewrite Lo, (sg_len _ _ G). apply V, Ig. }
      destruct LA as [[LA _]|[_ LA]]; [exists c; exact LA|]. rewrite LA in Y4. apply (Y4 e 2%nat I) in R. destruct R as [R|(f & If & Nf & R)].
      - apply (bd_rl _ _ _ Bd (left_of s e) (V e I)). unfold rv in R. destruct (rl s (left_of s e)) eqn:Q; cbn in R; try lia; [reflexivity|]. exfalso. apply NO, (H3 e I). left. exact Q.
      - exists c. unfold pair_rel in R. destruct (Bool.eqb (efrom_test s f) (efrom_test s e)) eqn:Qf; [cbn in R; lia|]. apply eqb_false_iff in Qf.
        destruct (pt_eqb (lstart s (left_of s e)) (lstart s (left_of s f)) && pt_eqb (lend s (left_of s e)) (lend s (left_of s f))) eqn:QO.
        + exfalso. apply NO, (H3 e I). right. exists f. split; [exact If|]. split; [exact Nf|]. unfold pair_rel. apply eqb_false_iff in Qf. rewrite Qf, QO. reflexivity.
        + destruct (pt_eqb_spec (estart s e) (eoriginal_start s e)) as [|Ne]; [cbn in R; lia|].
          destruct (pt_eqb_spec (estart s f) (eoriginal_start s f)) as [|Nf']; [cbn in R; lia|].
          destruct (inner_item eps inp IO c s queue L same St Gr Nx e I Ne) as (x & A1 & A2 & A3 & A4 & A5). destruct (inner_item eps inp IO c s queue L same St Gr Nx f If Nf') as (y & B1 & B2 & B3 & B4 & B5).
          destruct (efrom_test s e), (efrom_test s f); try congruence; left; [exists x, y|exists y, x]; auto 12.
    Qed.
    Lemma bounded_leave : bounded (fun p => ple p c) s' (acc ++ outs).
    Proof.
      destruct (group_lefts eps inp c _ L same S Gr) as [N V]. cbn [q_store] in N, V. destruct (leave_spec true s same s' outs Lv N V) as (Ro & Eo & H1 & _).
      pose proof (ro_geo _ _ Ro) as Ge.
      assert (SE : forall e, In e same -> rl s' (left_of s e) = SCROSS -> exists p, may p).
      { intros e I R. apply (bounded_leave_e e I). unfold rv. rewrite R. cbn. split; [lia|discriminate]. }
      constructor.
      - intros i Vi R. rewrite (sg_len _ _ Ge) in Vi. destruct (in_dec Nat.eq_dec i (map (left_of s) same)) as [I|I].
        + apply in_map_iff in I. destruct I as (e & <- & I). exact (SE e I R).
        + rewrite (H1 i I) in R. exact (bd_rl _ _ _ Bd i Vi R).
      - intros out I R. rewrite in_app_iff in I. destruct I as [I|I]; [exact (bd_out _ _ _ Bd out I R)|].
        rewrite Eo in I. apply in_map_iff in I. destruct I as (e & <- & I). exact (SE e I R).
      - intros e Ve Be H. rewrite (geo_estart Ge) in Be, H. apply (valid_ref_geo _ _ _ (same_geo_sym _ _ Ge)) in Ve. destruct Be as [Be|Be].
        + destruct (bd_found _ _ _ Bd e Ve Be H) as (out & I & R). exists out. split; [apply in_app_iff; auto|exact R].
        + assert (I : In e same) by (apply Same; auto). rewrite Be in H.
          unfold leave in Lv. assert (X1 := proj1 (crossing_spec s same V)). pose proof (ro_geo _ _ X1) as G.
          assert (LA := leave_wide). revert Lv X1 G LA. generalize (detect_crossing_angles s same) as s1. intros s1 Lv' X1 G LA.
          assert (Lo : forall g, left_of s1 g = left_of s g) by (intros g; apply (geo_left_of G)).
          destruct (complete_spec same s1 s' outs Lv') as (_ & _ & _ & Y4).
          { rewrite (map_ext _ _ Lo). exact N. }
          { intros g Ig. rewrite Lo, (sg_len _ _ G). apply V, Ig. }
          assert (OUT : forall e, In e same -> In (gl s' (left_of s e)) (acc ++ outs)) by (intros g Ig; apply in_app_iff; right; rewrite Eo; apply in_map_iff; exists g; auto).
          destruct LA as [[_ LA]|[LA _]].
          * exists (gl s' (left_of s e)). split; [apply OUT, I|]. change (2 <= rv s' (left_of s e))%nat. rewrite <- Lo. apply (Y4 e 2%nat I). left. rewrite Lo, LA by (apply in_map, I). lia.
          * destruct (mid_pair (LA H)) as (e1 & f1 & I1 & J1 & N1 & R1). exists (gl s' (left_of s e1)). split; [apply OUT, I1|]. change (2 <= rv s' (left_of s e1))%nat. rewrite <- Lo. apply (Y4 e1 2%nat I1). right.
            exists f1. split; [exact J1|]. split; [exact N1|]. rewrite (pair_rel_geo _ _ _ _ G). exact R1.
    Qed.
  End Leave.
End Wide.

Theorem sweep_wide inp stop b fuel outs q' : items_ok inp -> apart inp -> ends_by inp stop b -> ~ shared inp ->
  sweep true fuel stop (init_state inp) = (outs, Ok q') ->
  ((exists out, In out outs /\ l_relation out = SCROSS) -> exists p, may inp p)
  /\ ((exists p, must inp p) -> exists out, In out outs /\ l_relation out = SCROSS).
Proof.
  intros IO AP EB NS H. destruct (ordered_exists (candidates inp)) as [eps O].
  assert (R : exists c, bounded inp (fun p => ple p c) (q_store q') outs /\ exists L, done inp eps stop c q' L).
  { destruct (run_sweep eps inp O IO AP true (fun c q L same acc => bounded inp (fun p => plt p c) (q_store q) acc)) with (stop := stop) (fuel := fuel) (outs := outs) (q' := q')
      as (c & s & L & same & acc & o & Fi).
    - intros c s queue L start same0 same e w' acc St Gr Pk Ec Th Ev St' D. exact (bounded_event inp c _ _ acc D Th).
    - intros c c' s queue L same acc s' o St Gr Lt AQ (f & If & Ef) Lv St' Th. cbn [q_store] in *.
      assert (Kc : In c' (candidates inp)) by (exact (sp_c _ _ _ _ _ (proj1 St'))).
      assert (Nx : queue = [] \/ exists c', In c' (candidates inp) /\ plt c c' /\ forall f, In f queue -> ple c' (estart s f)) by (right; exists c'; auto).
      pose proof (bounded_leave eps inp O IO AP NS c s queue L same acc s' o St Gr Nx Lv Th) as E.
      pose proof (lv_geo eps inp true c s queue L same s' o St Gr Lv) as Ge.
      apply (bounded_weaken inp (fun p => ple p c)); [|exact E]. cbv beta.
      intros e V B. destruct (in_queue e queue) as [Q|Q].
      + exfalso. rewrite (geo_estart Ge) in B. exact (ple_not_plt _ _ (AQ e Q) B).
      + pose proof (sp_pieces _ _ _ _ _ (proj1 St)) as P. pose proof (pc_wf _ _ P) as W. cbn [q_store] in *.
        rewrite (geo_estart Ge). apply (valid_ref_geo _ _ _ (same_geo_sym _ _ Ge)) in V.
        destruct e as [i|j]; cbn [valid_ref estart] in *; [exact (sp_left _ _ _ _ _ (proj1 St) i V Q)|].
        destruct (wf_l _ W j V) as [R1 R2]. pose proof (sp_right _ _ _ _ _ (proj1 St) _ R1) as Z. cbn [q_store q_queue] in Z.
        unfold lend in Z. rewrite R2 in Z. exact (Z Q).
    - destruct EB as [(x & Ix & _) _]. intros E. rewrite E in Ix. destruct Ix.
    - intros e Pk. pose proof (stage_init eps inp O IO AP e Pk) as St. set (c := estart _ e) in *.
      set (s := q_store (init_state inp)) in *.
      assert (F : forall i, (i < nl s)%nat -> ple c (lstart s i)).
      { intros i V. apply (sp_queue _ _ _ _ _ (proj1 St) (EL i)). apply init_in_queue. exact V. }
      pose proof (sp_pieces _ _ _ _ _ (proj1 St)) as P. fold s in P.
      split.
      + destruct EB as [(x & Ix & Fx) HB]. specialize (HB x Ix Fx).
        destruct (pc_cover _ _ P x (it_lo x) Ix (on_segment_start _ _)) as (i & Vi & Ei & Oi).
        assert (Z : ple c (it_hi x)).
        { eapply ple_trans; [exact (F i Vi)|]. apply (on_segment_order _ _ _ (pc_lt _ _ P i Vi)) in Oi. destruct Oi as (_ & Z & _).
          eapply ple_trans; [exact Z|]. left. exact (IO x Ix). }
        destruct Z as [[Z|[Z _]]|Z]; [qlra|rewrite Z; exact HB|rewrite Z; exact HB].
      + constructor; [|intros out []|].
        * intros i V R. exfalso. unfold rl, s in R. unfold s in V. rewrite init_nl in V. rewrite (init_gl inp i V) in R. discriminate.
        * intros f V Bf _. exfalso. fold s in V, Bf. destruct f as [i|j]; cbn [valid_ref estart] in *; [exact (ple_not_plt _ _ (F i V) Bf)|].
          destruct (wf_l _ (pc_wf _ _ P) j V) as [R1 R2]. apply (ple_not_plt _ _ (F _ R1)). eapply plt_trans; [exact (pc_lt _ _ P _ R1)|]. unfold lend. rewrite R2. exact Bf.
    - exact H.
    - destruct Fi as [St Gr Th Lv Eo Px Sp].
      pose proof (sp_pieces _ _ _ _ _ (proj1 St)) as P. cbn [q_store] in *. pose proof (pc_wf _ _ P) as W.
      assert (VQ : forall e, In e (q_queue q') -> valid_ref s e) by (intros e; apply (qo_valid _ (sp_qok _ _ _ _ _ (proj1 St)))).
      assert (KQ : forall e, valid_ref s e -> In (estart s e) (candidates inp)).
      { intros e V. destruct e as [i|j]; cbn [valid_ref estart] in *; [exact (pc_start_in _ _ P i V)|].
        destruct (wf_l _ W j V) as [R1 R2]. pose proof (pc_end_in _ _ P _ R1) as Z. unfold lend in Z. rewrite R2 in Z. exact Z. }
      assert (Nx : q_queue q' = [] \/ exists c', In c' (candidates inp) /\ plt c c' /\ forall f, In f (q_queue q') -> ple c' (estart s f)).
      { destruct Sp as [Sp|(e & Pk & Lt)]; [left; exact Sp|right]. exists (estart s e). split; [apply KQ, VQ; eapply q_peek_in; exact Pk|].
        split; [left; qlra|]. intros f If. apply key_le_ple. eapply q_peek_key; eassumption. }
      exists c. split; [rewrite Eo; exact (bounded_leave eps inp O IO AP NS c s _ L same acc _ o St Gr Nx Lv Th)|].
      pose proof (lv_geo eps inp true c s _ L same _ o St Gr Lv) as Ge. exists L. constructor.
      + apply (stage_geo eps inp c (QS s (q_queue q'))); [|exact St]. exists (q_store q'). split; [exact Ge|]. destruct q'; reflexivity.
      + destruct Sp as [Sp|(e & Pk & Lt)]; [left; exact Sp|right]. exists e. rewrite (q_peek_geo _ _ _ Ge), !(geo_estart Ge).
        split; [exact Pk|]. split; [exact Lt|]. split; [left; qlra|]. split; [apply KQ, VQ; eapply q_peek_in; exact Pk|].
        intros f If. rewrite (geo_estart Ge). apply key_le_ple. eapply q_peek_key; eassumption. }
  destruct R as (c & Sd & L & Dn). split; [intros (out & I & R); exact (bd_out _ _ _ _ Sd out I R)|].
  intros (p & Hp). destruct (sweep_finds inp IO AP true stop b fuel outs q' EB H) as (_ & Over & _).
  assert (NOV : forall out, In out outs -> l_relation out <> SOVERLAP).
  { intros out I R. destruct (final_done inp IO AP eps true stop b fuel outs q' O EB H) as (c' & L' & _ & Em). apply NS. exact (em_over _ _ _ _ _ Em out I R). }
  pose proof (sp_pieces _ _ _ _ _ (proj1 (dn_stage _ _ _ _ _ _ Dn))) as P.
  destruct (dn_pieces inp eps stop b c q' L EB Dn p (must_common inp p Hp)) as (i & k & Vi & Vk & F & Fb & Oi & Ok).
  destruct (dn_clean inp IO AP eps stop b c q' L O EB Dn i k p Vi Vk F Fb Oi Ok) as [(A & B & C)|[A B]]; [|exfalso; exact (twin_shared eps inp O IO NS _ i k P Vi Vk A)].
  destruct (dn_event inp eps stop c q' L Dn i p Vi A) as (e & Ve & Ee & Fe).
  destruct (bd_found _ _ _ _ Sd e Ve) as (out & I & R); [rewrite Ee; exact C|rewrite Ee; exact Hp|].
  exists out. split; [exact I|]. assert (N := NOV out I). destruct (l_relation out); cbn in R; try lia; congruence.
Qed.
