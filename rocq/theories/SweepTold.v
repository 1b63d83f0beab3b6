(* What the events yielded by the sweep tell about the sides of the segments:
   whether the other side lies on the left of a segment, overlaps it in the
   same or in the other direction, or crosses it. *)
From Coq Require Import QArith Qcanon List Bool ZArith Lia Permutation.
From Verif Require Import Scalar Base Ground MLinear MSweep MCompound Planar Spec Geom RayParity SegProofs
  SweepStore SweepDetect SweepSteps Termination SweepSafe SweepTime SweepOrder SweepMoves SweepAdvance SweepLoop SweepEmit SweepRun SweepFound
  SweepLow SweepFlags SweepInside SweepMarks.
Import ListNotations.
Open Scope Qc_scope.

Section Told.
  Variable (eps : Qc) (inp : list item).
  Hypothesis (O : ordered eps (candidates inp)) (IO : items_ok inp) (AP : apart inp).

  Definition closed (b : bool) : Prop := even_ends inp b /\ oriented eps inp b.
  Definition out_kd (out : levent) : overlap_kind := l_overlap_kind out.
  Definition out_oi (out : levent) : bool := l_other_interior_to_left out.
  Definition says (x : item) (t : Qc) (out : levent) : Prop :=
    l_from_test out = it_ft x
    /\ (out_kd out = ONONE /\ lone eps inp x t
          /\ (closed (negb (it_ft x)) -> forall t', soon eps inp t t' -> low eps inp (negb (it_ft x)) (at_time eps x t') = out_oi out)
        \/ exists y, In y inp /\ it_ft y <> it_ft x /\ same_line eps x y /\ tm eps (it_lo y) <= t /\ t < tm eps (it_hi y)
             /\ out_kd out = kind_of (it_up x) (it_up y)).
  (* A proper crossing with a segment of the other side. *)
  Definition crossed (x : item) : Prop :=
    exists y p, In y inp /\ it_ft y <> it_ft x /\ on_item x p /\ on_item y p /\ ~ same_line eps x y
      /\ p <> it_lo x /\ p <> it_hi x /\ p <> it_lo y /\ p <> it_hi y.

  Record told (B : point -> Prop) (s : store) (acc : list levent) : Prop := {
    td_out : forall out, In out acc -> exists x t, In x inp /\ tm eps (it_lo x) <= t /\ t < tm eps (it_hi x) /\ says x t out;
    td_all : forall i, (i < nl s)%nat -> B (lstart s i) -> exists out, In out acc /\ says (orig s i) (t0 eps s i) out;
    td_rc : forall i, (i < nl s)%nat -> rl s i = SCROSS -> crossed (orig s i);
    td_oc : forall out, In out acc -> l_relation out = SCROSS -> exists x, In x inp /\ crossed x
  }.
  Lemma told_weaken (B B' : point -> Prop) s acc : (forall i, (i < nl s)%nat -> B' (lstart s i) -> B (lstart s i)) -> told B s acc -> told B' s acc.
  Proof using Type. intros H [E1 E2 E3 E4]. constructor; auto. Qed.
  Lemma told_event c q q' acc : derived c q q' -> told (fun p => plt p c) (q_store q) acc -> told (fun p => plt p c) (q_store q') acc.
  Proof using Type.
    intros D [E1 E2 E3 E4]. set (s := q_store q) in *. set (s' := q_store q') in *.
    pose proof (de_keeps _ _ _ D) as K. fold s s' in K. constructor; auto.
    - intros i V Lt. assert (Oi : (i < nl s)%nat).
      { destruct (Nat.lt_ge_cases i (nl s)) as [H|H]; [exact H|exfalso].
        destruct (de_new _ _ _ D i H V) as (k & _ & _ & _ & _ & Z). fold s' in Z. exact (ple_not_plt _ _ Z Lt). }
      unfold t0. rewrite (kp_start _ _ K i Oi) in *. rewrite (kp_orig _ _ K i Oi). exact (E2 i Oi Lt).
    - intros i V R. destruct (Nat.lt_ge_cases i (nl s)) as [H|H].
      + rewrite (kp_orig _ _ K i H). apply (E3 i H). rewrite <- R. symmetry. exact (de_rel _ _ _ D i H).
      + destruct (de_new _ _ _ D i H V) as (k & X1 & X2 & X3 & _). fold s s' in X1, X2, X3. rewrite X3. apply (E3 k X1). unfold rl in *. congruence.
  Qed.

  (** * Leaving a point *)
  Section Leave.
    Variable (c : point) (s : store) (queue : list eref) (L : list nat) (same : list eref)
             (acc : list levent) (s' : store) (outs : list levent).
    Hypothesis (St : stage eps inp c (QS s queue) L) (Gr : group c (QS s queue) same).
    Hypothesis Nx : queue = [] \/ exists c', In c' (candidates inp) /\ plt c c' /\ forall f, In f queue -> ple c' (estart s f).
    Hypothesis (Lv : leave false s same = (s', outs)).
    Hypothesis Em : emitted eps inp (fun p => plt p c) s acc.
    Hypothesis Mk : marks eps inp c (QS s queue) L.
    Hypothesis Pl : forall b, closed (negb b) -> placed eps inp b (QS s queue).
    Hypothesis Td : told (fun p => plt p c) s acc.
    Let S : swept eps inp c (QS s queue) L := proj1 St.
    Let P : pieces inp s := sp_pieces _ _ _ _ _ S.
    Let W : wf s := pc_wf _ _ P.
    Let Same := lv_same inp c s queue same Gr Nx.

    (* A processed segment that is not alone has a processed twin. *)
    Lemma lt_twin i y u : (i < nl s)%nat -> ple (lstart s i) c -> In y inp -> it_ft y <> it_ft (orig s i) -> same_line eps (orig s i) y ->
      t0 eps s i <= u -> tm eps (it_lo y) <= u -> u < t1 eps s i -> u < tm eps (it_hi y) -> u <= tm eps c ->
      exists k, (k < nl s)%nat /\ orig s k = y /\ twin eps s i k.
    Proof.
      intros V Le Iy Fy SL U1 U2 U3 U4 U5.
      assert (K : exists c', swept eps inp c' (QS s queue) L /\ u < tm eps c').
      { destruct Nx as [E|(c' & Kc & Lt & AQ)].
        - exists c. split; [exact S|].
          assert (Z : ple (lend s i) c) by (apply (sp_right _ _ _ _ _ S i V); cbn [q_queue]; rewrite E; intros []).
          assert (Z' : t1 eps s i <= tm eps c) by (apply (tm_le eps _ O); [exact (pc_end_in _ _ P i V)|exact (sp_c _ _ _ _ _ S)|exact Z]). qlra.
        - exists c'. split; [exact (proj1 (stage_advance eps inp O IO AP c c' _ L St Kc Lt AQ))|].
          assert (tm eps c < tm eps c') by (apply (tm_lt eps _ O); [exact (sp_c _ _ _ _ _ S)|exact Kc|exact Lt]). qlra. }
      destruct K as (c' & S' & Lt).
      destruct (over_twin eps inp O IO c' (QS s queue) L i y u S' V Iy Fy SL U1 U2 U3 U4 Lt) as (k & Vk & Ek & Tw & _).
      exists k. auto.
    Qed.
    Lemma lt_done i : (i < nl s)%nat -> ple (lstart s i) c -> ~ In (EL i) queue.
    Proof.
      intros V Le I. destruct Nx as [E|(c' & Kc & Lt & AQ)]; [rewrite E in I; destruct I|]. pose proof (AQ _ I) as Z. cbn [estart] in Z.
      apply (plt_irrefl c). eapply plt_ple_trans; [exact Lt|]. eapply ple_trans; [exact Z|exact Le].
    Qed.
    Lemma lt_says i : (i < nl s)%nat -> ple (lstart s i) c -> says (orig s i) (t0 eps s i) (gl s' i).
    Proof.
      intros V Le. pose proof (lv_spec eps inp false c s queue L same s' outs St Gr Lv) as (Ro & _).
      pose proof (ro_geo _ _ Ro) as Ge. destruct (piece_span eps inp O IO s i P V) as (Sp1 & Sp2 & Sp3).
      assert (Tc : t0 eps s i <= tm eps c) by (apply (tm_le eps _ O); [exact (pc_start_in _ _ P i V)|exact (sp_c _ _ _ _ _ S)|exact Le]).
      split; [rewrite (sg_ft _ _ Ge); symmetry; apply orig_ft|].
      unfold out_kd, out_oi. rewrite (ro_kind _ _ Ro), (ro_other _ _ Ro).
      destruct (alone_dec eps inp s i) as [Al|(y & Y1 & Y2 & Y3 & Y4 & Y5)].
      - left. split; [exact (mk_none _ _ _ _ _ Mk i V Al)|]. split; [exact Al|]. intros Cl t' Sn.
        exact (Pl _ Cl i V (lt_done i V Le) eq_refl Al t' Sn).
      - right. exists y. repeat (split; [assumption|]).
        destruct (lt_twin i y (t0 eps s i) V Le Y1 Y2 Y3 ltac:(qlra) Y4 Sp2 Y5 Tc) as (k & Vk & Ek & Tw).
        assert (Lk : ple (lstart s k) c) by (destruct Tw as (<- & _); exact Le).
        pose proof (mk_kind _ _ _ _ _ Mk i k V Vk (lt_done i V Le) (lt_done k Vk Lk) Tw) as Z. unfold kd, lup in Z. cbn [q_store] in Z. rewrite Ek in Z. exact Z.
    Qed.
    Lemma lt_pos e : In e same -> let x := orig s (left_of s e) in
      c <> (if is_left e then it_hi x else it_lo x) /\ eoriginal_start s e = (if is_left e then it_lo x else it_hi x) /\ on_item x c.
    Proof.
      intros I x. pose proof (lv_left eps inp c s queue L same St Gr e I) as V.
      pose proof (lv_start eps inp c s queue L same St Gr Nx e I) as [Oc _].
      pose proof (pieces_on inp s _ c P V Oc) as Oi. fold x in Oi.
      apply Same in I. destruct I as [Ve Ee]. destruct (piece_span eps inp O IO s _ P V) as (Sp1 & Sp2 & Sp3). fold x in Sp1, Sp3.
      destruct e as [i|j]; cbn [left_of valid_ref estart is_left eoriginal_start] in *.
      - split; [intros E; unfold t0 in Sp2; change (lstart s i = c) in Ee; rewrite Ee, E in Sp2; fold x in Sp2; qlra|].
        split; [reflexivity|exact Oi].
      - destruct (wf_l _ W j Ve) as [R1 R2].
        assert (Z : lend s (r_left (gr s j)) = c) by (unfold lend; rewrite R2; exact Ee).
        split; [intros E; unfold t1 in Sp2; rewrite Z, E in Sp2; fold x in Sp2; qlra|].
        split; [|exact Oi]. unfold x, orig, loriginal_end. cbn [it_hi]. rewrite R2. reflexivity.
    Qed.
    Lemma lt_cross e : In e same -> rl s' (left_of s e) = SCROSS -> crossed (orig s (left_of s e)).
    Proof.
      intros I R. pose proof (lv_left eps inp c s queue L same St Gr e I) as V.
      destruct (group_lefts eps inp c _ L same S Gr) as [N Vs].
      destruct (leave_spec false s same s' outs Lv N Vs) as (_ & _ & _ & H2 & _ & H3). specialize (H3 eq_refl e 2%nat I). cbn [q_store] in *.
      assert (NO : rl s' (left_of s e) <> SOVERLAP) by congruence.
      assert (Z : (2 <= rv s' (left_of s e))%nat) by (unfold rv; rewrite R; cbn; lia).
      apply H3 in Z. destruct Z as [Z|(f & If & Nf & Z)].
      - apply (td_rc _ _ _ Td _ V). unfold rv in Z. destruct (rl s (left_of s e)) eqn:Q; cbn in Z; try lia; [reflexivity|].
        exfalso. apply NO. apply (H2 e I). left. exact Q.
      - assert (Q : pair_rel s e f = SCROSS).
        { destruct (pair_rel s e f) eqn:Q; cbn in Z; try lia; [reflexivity|]. exfalso. apply NO, (H2 e I). right. exists f. auto. }
        clear Z. unfold pair_rel in Q. destruct (Bool.eqb (efrom_test s f) (efrom_test s e)) eqn:Qf; [discriminate|]. apply eqb_false_iff in Qf.
        destruct (_ && _); [discriminate|].
        destruct (pt_eqb_spec (estart s e) (eoriginal_start s e)) as [|Ne]; [discriminate|].
        destruct (pt_eqb_spec (estart s f) (eoriginal_start s f)) as [|Nf']; [discriminate|]. clear Q.
        pose proof (lv_left eps inp c s queue L same St Gr f If) as Vf.
        pose proof (lt_pos e I) as (X1 & X2 & X3). pose proof (lt_pos f If) as (Y1 & Y2 & Y3). cbv zeta in *.
        rewrite X2, (proj2 (proj1 (Same e) I)) in Ne. rewrite Y2, (proj2 (proj1 (Same f) If)) in Nf'.
        rewrite !lft_efrom in Qf. unfold lft in Qf.
        set (x := orig s (left_of s e)) in *. set (y := orig s (left_of s f)) in *.
        assert (Iy : In y inp) by (exact (pc_orig _ _ P _ Vf)).
        assert (Dx : c <> it_lo x /\ c <> it_hi x) by (destruct (is_left e); auto).
        assert (Dy : c <> it_lo y /\ c <> it_hi y) by (destruct (is_left f); auto).
        exists y, c. split; [exact Iy|]. split; [exact Qf|]. split; [exact X3|]. split; [exact Y3|]. split; [|tauto].
        intros SL. apply NO.
        pose proof (proj1 (on_item_time eps y c (item_time eps inp O IO y Iy)) Y3) as (T1 & T2 & T3).
        assert (T1' : tm eps (it_lo y) < tm eps c).
        { apply (tm_lt eps _ O); [apply candidate_lo, Iy|exact (sp_c _ _ _ _ _ S)|].
          apply (tm_le eps _ O) in T1; [|apply candidate_lo, Iy|exact (sp_c _ _ _ _ _ S)]. destruct T1 as [T1|T1]; [exact T1|]. exfalso. apply (proj1 Dy). symmetry. exact T1. }
        assert (T2' : tm eps c < tm eps (it_hi y)).
        { apply (tm_lt eps _ O); [exact (sp_c _ _ _ _ _ S)|apply candidate_hi, Iy|].
          apply (tm_le eps _ O) in T2; [|exact (sp_c _ _ _ _ _ S)|apply candidate_hi, Iy]. destruct T2 as [T2|T2]; [exact T2|]. exfalso. apply (proj2 Dy). exact T2. }
        pose proof (lv_start eps inp c s queue L same St Gr Nx e I) as [_ Le].
        destruct (piece_span eps inp O IO s _ P V) as (Sp1 & Sp2 & Sp3).
        pose proof (proj1 (Same e) I) as [Ve Ee].
        assert (Ec : match e with EL i => lstart s i = c | ER j => lend s (r_left (gr s j)) = c end).
        { destruct e as [i|j]; cbn [valid_ref estart] in *; [exact Ee|]. destruct (wf_l _ W j Ve) as [R1 R2]. unfold lend. rewrite R2. exact Ee. }
        destruct e as [i|j]; cbn [left_of] in *.
        + destruct (lt_twin i y (tm eps c) V Le Iy Qf SL) as (k & Vk & Ek & Tw); try qlra; try (unfold t0 in *; rewrite Ec in *; qlra).
          exact (proj2 (lv_twin eps inp O IO AP false c s queue L same s' outs St Gr Nx Lv i k V Vk Tw Ec)).
        + set (i := r_left (gr s j)) in *.
          assert (U : exists u, t0 eps s i <= u /\ tm eps (it_lo y) <= u /\ u < tm eps c).
          { unfold t1 in Sp2. rewrite Ec in Sp2. destruct (Qclt_le_dec (t0 eps s i) (tm eps (it_lo y))) as [D|D];
              [exists (tm eps (it_lo y))|exists (t0 eps s i)]; repeat apply conj; qlra. }
          destruct U as (u & U1 & U2 & U3).
          destruct (lt_twin i y u V Le Iy Qf SL U1 U2) as (k & Vk & Ek & Tw); try qlra; try (unfold t1; rewrite Ec; exact U3).
          apply (lv_mono eps inp false c s queue L same s' outs St Gr Lv).
          apply (em_tw _ _ _ _ _ Em i k V Vk Tw). cbv beta. rewrite <- Ec. exact (pc_lt _ _ P i V).
    Qed.
    Lemma lt_told : told (fun p => ple p c) s' (acc ++ outs).
    Proof.
      pose proof (lv_spec eps inp false c s queue L same s' outs St Gr Lv) as (Ro & Eo & H1 & _). pose proof (ro_geo _ _ Ro) as Ge.
      assert (New : forall out, In out outs -> exists e, In e same /\ out = gl s' (left_of s e)).
      { intros out I. rewrite Eo in I. apply in_map_iff in I. destruct I as (e & <- & I). exists e. auto. }
      pose proof (lv_left eps inp c s queue L same St Gr) as LL. pose proof (lv_start eps inp c s queue L same St Gr Nx) as LS.
      constructor.
      - intros out I. rewrite in_app_iff in I. destruct I as [I|I]; [exact (td_out _ _ _ Td out I)|].
        destruct (New out I) as (e & Ie & ->). pose proof (LL e Ie) as V. destruct (piece_span eps inp O IO s _ P V) as (Sp1 & Sp2 & Sp3).
        exists (orig s (left_of s e)), (t0 eps s (left_of s e)). split; [exact (pc_orig _ _ P _ V)|]. split; [exact Sp1|]. split; [qlra|].
        exact (lt_says _ V (proj2 (LS e Ie))).
      - intros i V B. rewrite (sg_len _ _ Ge) in V. unfold t0. rewrite (geo_lstart Ge) in *. rewrite (geo_orig_eq Ge). destruct B as [B|B].
        + destruct (td_all _ _ _ Td i V B) as (out & Z1 & Z2). exists out. split; [apply in_app_iff; left; exact Z1|exact Z2].
        + exists (gl s' i). split; [|exact (lt_says i V (or_intror B))]. apply (lv_out eps inp false c s queue L same acc s' outs St Gr Lv (EL i)). apply Same. split; assumption.
      - intros i V R. rewrite (sg_len _ _ Ge) in V. rewrite (geo_orig_eq Ge). destruct (in_dec Nat.eq_dec i (map (left_of s) same)) as [I|I].
        + apply in_map_iff in I. destruct I as (e & <- & I). exact (lt_cross e I R).
        + rewrite (H1 i I) in R. exact (td_rc _ _ _ Td i V R).
      - intros out I R. rewrite in_app_iff in I. destruct I as [I|I]; [exact (td_oc _ _ _ Td out I R)|].
        destruct (New out I) as (e & Ie & ->). exists (orig s (left_of s e)). split; [exact (pc_orig _ _ P _ (LL e Ie))|exact (lt_cross e Ie R)].
    Qed.
  End Leave.
End Told.

Lemma event_in inp s e : pieces inp s -> valid_ref s e -> In (estart s e) (candidates inp).
Proof.
  intros P V. pose proof (pc_wf _ _ P) as W. destruct e as [i|j]; cbn [valid_ref estart] in *; [exact (pc_start_in _ _ P i V)|].
  destruct (wf_l _ W j V) as [R1 R2]. pose proof (pc_end_in _ _ P _ R1) as Z. unfold lend in Z. rewrite R2 in Z. exact Z.
Qed.

Section Final.
  Variable (inp : list item).
  Hypothesis (IO : items_ok inp) (AP : apart inp).
  Lemma final_told eps stop b fuel outs q' : ordered eps (candidates inp) -> ends_by inp stop b ->
    sweep false fuel stop (init_state inp) = (outs, Ok q') ->
    exists c L, done inp eps stop c q' L /\ emitted eps inp (fun p => ple p c) (q_store q') outs
      /\ told eps inp (fun p => ple p c) (q_store q') outs.
  Proof.
    intros O EB H.
    destruct (run_sweep eps inp O IO AP false (fun c q L same acc => emitted eps inp (fun p => plt p c) (q_store q) acc
       /\ marks eps inp c q L /\ (forall b, closed eps inp (negb b) -> placed eps inp b q)
       /\ told eps inp (fun p => plt p c) (q_store q) acc)) with (stop := stop) (fuel := fuel) (outs := outs) (q' := q')
        as (c & s & L & same & acc & o & Fi).
    - intros c s queue L start same0 same e w' acc St Gr Pk Ec (Em & Mk & Pl & Td) Ev St' D.
      destruct (marks_event eps inp O IO AP c s queue L start same0 e w' St Pk Ec Ev St' D Mk) as [Mk' Pl'].
      split; [exact (emitted_event eps inp c _ _ acc D Em)|]. split; [exact Mk'|]. split; [|exact (told_event eps inp c _ _ acc D Td)].
      intros b' Cl. exact (Pl' b' (proj1 Cl) (proj2 Cl) (Pl b' Cl)).
    - intros c c' s queue L same acc s' o St Gr Lt AQ (f & If & Ef) Lv St' (Em & Mk & Pl & Td). cbn [q_store] in *.
      assert (Kc : In c' (candidates inp)) by (exact (sp_c _ _ _ _ _ (proj1 St'))).
      assert (Nx : queue = [] \/ exists c', In c' (candidates inp) /\ plt c c' /\ forall f, In f queue -> ple c' (estart s f)) by (right; exists c'; auto).
      pose proof (lv_emitted eps inp O IO AP false c s queue L same acc s' o St Gr Nx Lv Em) as E.
      pose proof (lt_told eps inp O IO AP c s queue L same acc s' o St Gr Nx Lv Em Mk Pl Td) as T.
      pose proof (lv_spec eps inp false c s queue L same s' o St Gr Lv) as (Ro & _). pose proof (ro_geo _ _ Ro) as Ge.
      destruct (marks_leave eps inp O IO c c' s s' queue L St St' Ro Lt AQ Mk) as [Mk' Pl'].
      assert (B : forall e, valid_ref s' e -> plt (estart s' e) c' -> ple (estart s' e) c).
      { intros e V B. destruct (in_queue e queue) as [Q|Q].
        + exfalso. rewrite (geo_estart Ge) in B. exact (ple_not_plt _ _ (AQ e Q) B).
        + pose proof (sp_pieces _ _ _ _ _ (proj1 St)) as P. pose proof (pc_wf _ _ P) as W. cbn [q_store] in *.
          rewrite (geo_estart Ge). apply (valid_ref_geo _ _ _ (same_geo_sym _ _ Ge)) in V.
          destruct e as [i|j]; cbn [valid_ref estart] in *; [exact (sp_left _ _ _ _ _ (proj1 St) i V Q)|].
          destruct (wf_l _ W j V) as [R1 R2]. pose proof (sp_right _ _ _ _ _ (proj1 St) _ R1) as Z. cbn [q_store q_queue] in Z.
          unfold lend in Z. rewrite R2 in Z. exact (Z Q). }
      split; [exact (emitted_weaken eps inp (fun p => ple p c) _ s' _ B E)|]. split; [exact Mk'|].
      split; [intros b' Cl; exact (Pl' b' (Pl b' Cl))|].
      apply (told_weaken eps inp (fun p => ple p c)); [|exact T]. intros i V. exact (B (EL i) V).
    - destruct EB as [(x & Ix & _) _]. intros E. rewrite E in Ix. destruct Ix.
    - intros e Pk. pose proof (stage_init eps inp O IO AP e Pk) as St. set (c := estart _ e) in *.
      set (s := q_store (init_state inp)) in *.
      assert (F : forall i, (i < nl s)%nat -> ple c (lstart s i)).
      { intros i V. apply (sp_queue _ _ _ _ _ (proj1 St) (EL i)). apply init_in_queue. exact V. }
      split.
      + destruct EB as [(x & Ix & Fx) HB]. specialize (HB x Ix Fx).
        destruct (pc_cover _ _ (sp_pieces _ _ _ _ _ (proj1 St)) x (it_lo x) Ix (on_segment_start _ _)) as (i & Vi & Ei & Oi).
        pose proof (sp_pieces _ _ _ _ _ (proj1 St)) as P. fold s in P, Vi, Ei, Oi.
        assert (Z : ple c (it_hi x)).
        { eapply ple_trans; [exact (F i Vi)|]. apply (on_segment_order _ _ _ (pc_lt _ _ P i Vi)) in Oi. destruct Oi as (_ & Z & _).
          eapply ple_trans; [exact Z|]. left. exact (IO x Ix). }
        destruct Z as [[Z|[Z _]]|Z]; [qlra|rewrite Z; exact HB|rewrite Z; exact HB].
      + split; [apply (init_emitted inp IO); exact F|]. destruct (marks_init eps inp c) as [Mk Pl]. split; [exact Mk|].
        split; [intros b' _; exact (Pl b')|]. constructor.
        * intros out [].
        * intros i V B. exfalso. exact (ple_not_plt _ _ (F i V) B).
        * intros i V R. exfalso. unfold rl, s in R. unfold s in V. rewrite init_nl in V. rewrite (init_gl inp i V) in R. discriminate.
        * intros out [].
    - exact H.
    - destruct Fi as [St Gr (Em & Mk & Pl & Td) Lv Eo Px Sp]. exists c, L.
      pose proof (sp_pieces _ _ _ _ _ (proj1 St)) as P. cbn [q_store] in P.
      assert (Nx' : q_queue q' = [] \/ exists e, q_peek s (q_queue q') = Some e /\ stop < px (estart s e) /\ plt c (estart s e)
            /\ In (estart s e) (candidates inp) /\ forall f, In f (q_queue q') -> ple (estart s e) (estart s f)).
      { destruct Sp as [Sp|(e & Pk & Lt)]; [left; exact Sp|right]. exists e. split; [exact Pk|]. split; [exact Lt|].
        assert (V : valid_ref s e) by (apply (qo_valid _ (sp_qok _ _ _ _ _ (proj1 St))); cbn [q_queue]; eapply q_peek_in; exact Pk).
        split; [left; qlra|]. split; [exact (event_in inp s e P V)|]. intros f If. apply key_le_ple. eapply q_peek_key; eassumption. }
      assert (Nx : q_queue q' = [] \/ exists c', In c' (candidates inp) /\ plt c c' /\ forall f, In f (q_queue q') -> ple c' (estart s f)).
      { destruct Nx' as [Z|(e & _ & _ & Z1 & Z2 & Z3)]; [left; exact Z|right]. exists (estart s e). auto. }
      pose proof (lv_geo eps inp false c s _ L same _ o St Gr Lv) as Ge.
      split; [|rewrite Eo; split; [exact (lv_emitted eps inp O IO AP false c s _ L same acc _ o St Gr Nx Lv Em)|exact (lt_told eps inp O IO AP c s _ L same acc _ o St Gr Nx Lv Em Mk Pl Td)]].
      constructor.
      + apply (stage_geo eps inp c (QS s (q_queue q'))); [|exact St]. exists (q_store q'). split; [exact Ge|]. destruct q'; reflexivity.
      + destruct Nx' as [Z|(e & X1 & X2 & X3 & X4 & X5)]; [left; exact Z|right]. exists e. rewrite (q_peek_geo _ _ _ Ge), !(geo_estart Ge).
        split; [exact X1|]. split; [exact X2|]. split; [exact X3|]. split; [exact X4|]. intros f. rewrite (geo_estart Ge). apply X5.
  Qed.

  (* What an event tells about a point of a segment. *)
  Definition tells (eps : Qc) (x : item) (m : point) (out : levent) : Prop :=
    l_from_test out = it_ft x
    /\ (out_kd out = ONONE /\ ~ side_has inp (negb (it_ft x)) m
          /\ (closed eps inp (negb (it_ft x)) -> low eps inp (negb (it_ft x)) m = out_oi out)
        \/ exists y, In y inp /\ it_ft y <> it_ft x /\ on_item y m /\ out_kd out = kind_of (it_up x) (it_up y)).

  Section Done.
    Variable (eps stop : Qc) (c : point) (q : qstate) (L : list nat) (outs : list levent).
    Hypothesis (O : ordered eps (candidates inp)) (Dn : done inp eps stop c q L).
    Hypothesis (Td : told eps inp (fun p => ple p c) (q_store q) outs).
    Let s := q_store q.
    Let S : swept eps inp c q L := proj1 (dn_stage _ _ _ _ _ _ Dn).
    Let P : pieces inp s := sp_pieces _ _ _ _ _ S.

    Lemma lone_free x t t' : In x inp -> lone eps inp x t -> soon eps inp t t' -> tm eps (it_lo x) <= t -> t < tm eps (it_hi x) ->
      ~ side_has inp (negb (it_ft x)) (at_time eps x t').
    Proof.
      intros Ix Al Sn X1 X2 (y & Y1 & Y2 & Y3). pose proof (soon_free eps inp _ _ Sn) as Fr. destruct Sn as [T Sn].
      assert (X3 : t' < tm eps (it_hi x)) by (destruct (Sn _ (candidate_hi inp x Ix)) as [K|K]; [exfalso; qlra|exact K]).
      pose proof (proj1 (on_item_time eps y _ (item_time eps inp O IO y Y1)) Y3) as (T1 & T2 & T3). rewrite at_time_tm in *. cbn [at_time py] in T3.
      assert (F : it_ft y <> it_ft x) by (rewrite Y2; destruct (it_ft x); discriminate).
      apply (Al y Y1 F).
      - apply (free_line eps inp O IO x y t'); try assumption; qlra.
      - destruct (Sn _ (candidate_lo inp y Y1)) as [K|K]; [exact K|exfalso; qlra].
      - qlra.
    Qed.
    Theorem told_sound out : In out outs -> exists x m, In x inp /\ on_item x m /\ time_free eps inp (tm eps m) /\ tells eps x m out.
    Proof.
      intros I. destruct (td_out _ _ _ _ _ Td out I) as (x & t & Ix & X1 & X2 & Hf & Hs).
      destruct (soon_exists eps inp t _ X2) as (t' & Sn & T'). pose proof (proj1 Sn) as Tt.
      exists x, (at_time eps x t'). split; [exact Ix|]. split; [apply (at_item eps inp O IO); [exact Ix|qlra|qlra]|].
      rewrite at_time_tm. split; [exact (soon_free eps inp _ _ Sn)|]. split; [exact Hf|]. destruct Hs as [(K & Al & Lw)|(y & Y1 & Y2 & Y3 & Y4 & Y5 & Y6)].
      - left. split; [exact K|]. split; [exact (lone_free x t t' Ix Al Sn X1 X2)|]. intros Cl. exact (Lw Cl t' Sn).
      - right. exists y. split; [exact Y1|]. split; [exact Y2|]. split; [|exact Y6].
        rewrite (at_time_eq eps x y t' (same_line_val _ _ _ Y3 t')). destruct Sn as [_ Sn].
        apply (at_item eps inp O IO); [exact Y1|qlra|]. destruct (Sn _ (candidate_hi inp y Y1)) as [K|K]; qlra.
    Qed.
    Theorem told_complete x m : In x inp -> on_item x m -> time_free eps inp (tm eps m) ->
      (exists out, In out outs /\ tells eps x m out) \/ exists f, In f (q_queue q) /\ tm eps (estart s f) < tm eps m.
    Proof.
      intros Ix Om Fr.
      destruct (Exists_dec (fun f => tm eps (estart s f) < tm eps m) (q_queue q)) as [Ex|Nx0].
      { intros f. destruct (Qclt_le_dec (tm eps (estart s f)) (tm eps m)) as [D|D]; [left; exact D|right; intros K; qlra]. }
      { right. apply Exists_exists in Ex. exact Ex. }
      left.
      destruct (pc_cover _ _ P x m Ix Om) as (i & Vi & Ei & Oi). fold s in Vi, Ei, Oi.
      pose proof (proj1 (on_left_time eps inp s O P IO i m Vi) Oi) as (I0 & I1 & I2).
      assert (I0' : t0 eps s i < tm eps m) by (destruct (q_trichotomy (t0 eps s i) (tm eps m)) as [K|[K|K]]; [exact K|exfalso; exact (Fr _ (pc_start_in _ _ P i Vi) K)|exfalso; qlra]).
      assert (I1' : tm eps m < t1 eps s i) by (destruct (q_trichotomy (tm eps m) (t1 eps s i)) as [K|[K|K]]; [exact K|exfalso; exact (Fr _ (pc_end_in _ _ P i Vi) (eq_sym K))|exfalso; qlra]).
      (* the point is before the next event *)
      assert (Nx : forall f, In f (q_queue q) -> tm eps m < tm eps (estart s f)).
      { intros f If. assert (Vf : valid_ref s f) by (apply (qo_valid _ (sp_qok _ _ _ _ _ S)); exact If).
        destruct (q_trichotomy (tm eps (estart s f)) (tm eps m)) as [K|[K|K]]; [|exfalso; exact (Fr _ (event_in inp s f P Vf) K)|exact K].
        exfalso. apply Nx0. apply Exists_exists. exists f. auto. }
      assert (Ni : ~ In (EL i) (q_queue q)) by (intros K; pose proof (Nx _ K) as Z; change (tm eps m < tm eps (lstart s i)) in Z; unfold t0 in I0; qlra).
      assert (Si : ple (lstart s i) c) by (exact (sp_left _ _ _ _ _ S i Vi Ni)).
      destruct (td_all _ _ _ _ _ Td i Vi Si) as (out & Io & Hf & Hs). exists out. split; [exact Io|].
      fold s in Hf, Hs. rewrite Ei in Hf, Hs. split; [exact Hf|].
      destruct (piece_span eps inp O IO s i P Vi) as (Sp1 & Sp2 & Sp3). rewrite Ei in Sp1, Sp3.
      (* what is met until [m] *)
      assert (Meet : forall y p, In y inp -> it_ft y <> it_ft x -> on_left s i p -> on_item y p -> t0 eps s i < tm eps p -> tm eps p <= tm eps m ->
        exists k, (k < nl s)%nat /\ orig s k = y /\ twin eps s i k /\ tm eps m <= t1 eps s k).
      { intros y p Iy Fy Op Oy T0 T1. destruct (pc_cover _ _ P y p Iy Oy) as (k & Vk & Ek & Ok). fold s in Vk, Ek, Ok.
        assert (N : i <> k) by (intros ->; apply Fy; congruence).
        assert (Cl : forall c', In c' (candidates inp) -> tm eps m < tm eps c' -> clean_at eps s c' i k p ->
          exists k, (k < nl s)%nat /\ orig s k = y /\ twin eps s i k /\ tm eps m <= t1 eps s k).
        { intros c' Kc Lc [[[A|A] _]|[A B]].
          - exfalso. rewrite A in T0. unfold t0 in T0. qlra.
          - exfalso. rewrite A in T1. unfold t1 in I1'. qlra.
          - exists k. split; [exact Vk|]. split; [exact Ek|]. split; [exact A|]. destruct B as [B|[_ B]].
            + unfold t1 in *. rewrite <- B. qlra.
            + apply (tm_le eps _ O) in B; [|exact Kc|exact (pc_end_in _ _ P k Vk)]. unfold t1. qlra. }
        destruct (dn_stop _ _ _ _ _ _ Dn) as [Z|(f & Pk & Lt & Lc & Kc & Mn)].
        - assert (E : ple (lend s i) c) by (apply (sp_right _ _ _ _ _ S i Vi); rewrite Z; intros []).
          apply (tm_le eps _ O) in E; [|exact (pc_end_in _ _ P i Vi)|exact (sp_c _ _ _ _ _ S)]. unfold t1 in I1'.
          apply (Cl c); [exact (sp_c _ _ _ _ _ S)|qlra|]. apply (sp_clean _ _ _ _ _ S i k p Vi Vk N Op Ok). qlra.
        - apply (Cl (estart s f)); [exact Kc|exact (Nx f (q_peek_in _ _ _ Pk))|]. pose proof (proj1 (proj2 (dn_stage _ _ _ _ _ _ Dn))) as G.
          apply (adv_clean eps inp O IO AP c _ q L S G Kc Lc Mn); try assumption. fold s.
          pose proof (Nx f (q_peek_in _ _ _ Pk)). qlra. }
      destruct Hs as [(K & Al & Lw)|(y & Y1 & Y2 & Y3 & Y4 & Y5 & Y6)].
      - left. assert (Nt : forall k, (k < nl s)%nat -> ~ twin eps s i k).
        { intros k Vk Tw. apply (twin_alone eps inp O IO s i k P Vi Vk Tw). unfold alone. rewrite Ei. exact Al. }
        split; [exact K|]. split.
        + intros (y & Y1 & Y2 & Y3). destruct (Meet y m Y1) as (k & Vk & _ & Tw & _); try assumption; try qlra; [rewrite Y2; destruct (it_ft x); discriminate|]. exact (Nt k Vk Tw).
        + intros Cl. destruct (soon_exists eps inp _ _ I0') as (t' & Sn & T'). rewrite <- (Lw Cl t' Sn). destruct Sn as [Sn _].
          rewrite (item_at eps inp O IO x m Ix Om) at 1. symmetry. apply (low_cont eps inp O IO x t' (tm eps m) _ (proj1 Cl)); [qlra|].
          intros y Iy Fy. assert (Fy' : it_ft y <> it_ft x) by (rewrite Fy; destruct (it_ft x); discriminate).
          destruct (apart_or_meet eps inp O IO x y t' (tm eps m) Iy ltac:(qlra)) as [A|[A|(t & u & U1 & U2 & U3 & U4 & U5 & _)]]; [left; exact A|right; exact A|exfalso].
          destruct (Meet y (at_time eps x t) Iy Fy') as (k & Vk & _ & Tw & _).
          * rewrite <- Ei. apply (at_time_on eps inp s O P IO); [exact Vi|qlra|qlra].
          * rewrite (at_time_eq eps x y t (eq_sym U5)). apply (at_item eps inp O IO); assumption.
          * rewrite at_time_tm. qlra.
          * rewrite at_time_tm. exact U2.
          * exact (Nt k Vk Tw).
      - right. destruct (soon_exists eps inp _ _ I0') as (t' & Sn & T'). destruct Sn as [T0 Sn].
        assert (Yh : t' < tm eps (it_hi y)) by (destruct (Sn _ (candidate_hi inp y Y1)) as [K|K]; [exfalso; qlra|exact K]).
        destruct (Meet y (at_time eps x t') Y1 Y2) as (k & Vk & Ek & Tw & Tk).
        + rewrite <- Ei. apply (at_time_on eps inp s O P IO); [exact Vi|qlra|qlra].
        + rewrite (at_time_eq eps x y t' (same_line_val _ _ _ Y3 t')). apply (at_item eps inp O IO); [exact Y1|qlra|qlra].
        + rewrite at_time_tm. exact T0.
        + rewrite at_time_tm. qlra.
        + exists y. split; [exact Y1|]. split; [exact Y2|]. split; [|exact Y6].
          (* the twin ends with the piece or after the point *)
          rewrite (item_at eps inp O IO x m Ix Om), (at_time_eq eps x y (tm eps m) (same_line_val _ _ _ Y3 _)).
          apply (at_item eps inp O IO); [exact Y1|qlra|].
          destruct (piece_span eps inp O IO s k P Vk) as (_ & _ & Sk). rewrite Ek in Sk. qlra.
    Qed.
  End Done.
End Final.
