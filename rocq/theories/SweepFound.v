(* What the events yielded by the sweep say about the two sides: overlaps,
   common points and points that are free of the other side. *)
From Coq Require Import QArith Qcanon List Bool ZArith Lia Permutation.
From Verif Require Import Scalar Base Ground MLinear MSweep MCompound Planar Spec Geom RayParity SegProofs
  SweepStore SweepDetect SweepSteps Termination SweepSafe SweepTime SweepOrder SweepMoves SweepAdvance SweepLoop SweepEmit SweepRun.
Import ListNotations.
Open Scope Qc_scope.

Lemma in_pair_order {A} (L : list A) x y : In x L -> In y L -> x <> y ->
  exists a b d, L = a ++ x :: b ++ y :: d \/ L = a ++ y :: b ++ x :: d.
Proof.
  intros Ix Iy N. apply in_split in Ix. destruct Ix as (l & r & ->). rewrite in_app_iff in Iy.
  destruct Iy as [Iy|[Iy|Iy]]; [|congruence|]; apply in_split in Iy; destruct Iy as (u & v & ->).
  - exists u, v, r. right. rewrite <- app_assoc. reflexivity.
  - exists l, u, v. left. reflexivity.
Qed.

Lemma q_between (a b : Qc) : a < b -> exists t, a < t /\ t < b.
Proof.
  intros H. set (h := Q2Qc (1 # 2)). assert (E : h + h = 1) by (apply Qc_is_canon; vm_compute; reflexivity).
  assert (0 < h) by qlra. clearbody h. exists (a + (b - a) * h).
  assert (Z1 : 0 < (b - a) * h) by qnra. assert (Z2 : (b - a) * h + (b - a) * h = (b - a) * (h + h)) by ring.
  rewrite E in Z2. split; qlra.
Qed.

Section Found.
  Variable (eps : Qc) (inp : list item).
  Hypothesis (O : ordered eps (candidates inp)) (IO : items_ok inp) (AP : apart inp).

  Definition side_has (b : bool) (p : point) : Prop := exists x, In x inp /\ it_ft x = b /\ on_item x p.
  Definition common (p : point) : Prop := side_has true p /\ side_has false p.
  Definition free (b : bool) : Prop := exists p, side_has b p /\ ~ side_has (negb b) p.
  Definition shared : Prop := exists x y p q, In x inp /\ In y inp /\ it_ft x = true /\ it_ft y = false /\ p <> q
    /\ on_item x p /\ on_item x q /\ on_item y p /\ on_item y q.
  Definition lft (s : store) (i : nat) : bool := it_ft (orig s i).
  Definition covered (s : store) (i : nat) : Prop :=
    exists y, In y inp /\ it_ft y = negb (lft s i) /\ forall p, on_left s i p -> on_item y p.

  Lemma covered_keeps s s' i : keeps s s' -> (i < nl s)%nat -> covered s i -> covered s' i.
  Proof using Type.
    intros K V (y & Y1 & Y2 & Y3). exists y. split; [exact Y1|]. unfold lft in *. rewrite (kp_orig _ _ K i V). split; [exact Y2|].
    intros p Hp. apply Y3. exact (kp_sub _ _ K i p V Hp).
  Qed.
  Lemma left_has s i p : pieces inp s -> (i < nl s)%nat -> on_left s i p -> side_has (lft s i) p.
  Proof using Type.
    intros P V Hp. exists (orig s i). split; [exact (pc_orig _ _ P i V)|]. split; [reflexivity|]. exact (pieces_on inp s i p P V Hp).
  Qed.
  Lemma common_of b p : side_has b p -> side_has (negb b) p -> common p.
  Proof using Type. destruct b; cbn; split; assumption. Qed.
  Lemma covered_shared s i : pieces inp s -> (i < nl s)%nat -> covered s i -> shared.
  Proof using Type.
    intros P V (y & Y1 & Y2 & Y3). pose proof (pc_lt _ _ P i V) as Lt. apply plt_neq in Lt.
    assert (A : on_left s i (lstart s i)) by apply on_segment_start.
    assert (B : on_left s i (lend s i)) by apply on_segment_end.
    pose proof (pieces_on inp s i _ P V A) as A'. pose proof (pieces_on inp s i _ P V B) as B'.
    pose proof (pc_orig _ _ P i V) as X. unfold lft in Y2. destruct (it_ft (orig s i)) eqn:F; cbn in Y2.
    - exists (orig s i), y, (lstart s i), (lend s i). auto 10.
    - exists y, (orig s i), (lstart s i), (lend s i). auto 10.
  Qed.
  Lemma neq_negb (a b : bool) : a <> b -> a = negb b.
  Proof using Type. destruct a, b; cbn; congruence. Qed.

  Record emitted (B : point -> Prop) (s : store) (acc : list levent) : Prop := {
    em_ro : forall i, (i < nl s)%nat -> rl s i = SOVERLAP -> covered s i;
    em_rt : forall i, (i < nl s)%nat -> rl s i <> SDISJOINT -> exists p, common p;
    em_tw : forall i k, (i < nl s)%nat -> (k < nl s)%nat -> twin eps s i k -> B (lstart s i) ->
      rl s i = SOVERLAP /\ exists out, In out acc /\ l_relation out = SOVERLAP;
    em_rf : forall i, (i < nl s)%nat -> B (lstart s i) -> rl s i = SOVERLAP \/ free (lft s i);
    em_pair : forall e f, valid_ref s e -> valid_ref s f -> estart s e = estart s f -> efrom_test s e <> efrom_test s f ->
      B (estart s e) -> exists out, In out acc /\ l_relation out <> SDISJOINT;
    em_out : forall i, (i < nl s)%nat -> B (lstart s i) ->
      exists out, In out acc /\ l_from_test out = lft s i /\ (l_relation out = SOVERLAP -> covered s i);
    em_over : forall out, In out acc -> l_relation out = SOVERLAP -> shared;
    em_meet : forall out, In out acc -> l_relation out <> SDISJOINT -> exists p, common p;
    em_free : forall out, In out acc -> l_relation out <> SOVERLAP -> free (l_from_test out);
    em_cross : forall e f, valid_ref s e -> valid_ref s f -> estart s e = estart s f -> efrom_test s e <> efrom_test s f ->
      estart s e <> eoriginal_start s e -> estart s f <> eoriginal_start s f ->
      B (estart s e) -> exists out, In out acc /\ (2 <= srel_val (l_relation out))%nat
  }.

  Lemma emitted_weaken (B B' : point -> Prop) s acc : (forall e, valid_ref s e -> B' (estart s e) -> B (estart s e)) ->
    emitted B s acc -> emitted B' s acc.
  Proof using Type.
    intros H [E1 E2 E3 E4 E5 E6 E7 E8 E9 E10].
    assert (HL : forall i, (i < nl s)%nat -> B' (lstart s i) -> B (lstart s i)) by (intros i V; apply (H (EL i) V)).
    constructor; auto.
    - intros i k Vi Vk T Bi. apply (E3 i k Vi Vk T). apply HL; assumption.
    - intros e f Ve Vf Ee Ne Be. apply (E5 e f Ve Vf Ee Ne). apply H; assumption.
    - intros e f Ve Vf Ee Ne Oe Of Be. apply (E10 e f Ve Vf Ee Ne Oe Of). apply H; assumption.
  Qed.

  Lemma emitted_event c q q' acc : derived c q q' -> emitted (fun p => plt p c) (q_store q) acc ->
    emitted (fun p => plt p c) (q_store q') acc.
  Proof using Type.
    intros D [E1 E2 E3 E4 E5 E6 E7 E8 E9 E10]. set (s := q_store q) in *. set (s' := q_store q') in *.
    pose proof (de_keeps _ _ _ D) as K. fold s s' in K.
    assert (Old : forall i, (i < nl s')%nat -> plt (lstart s' i) c -> (i < nl s)%nat).
    { intros i V Lt. destruct (Nat.lt_ge_cases i (nl s)) as [H|H]; [exact H|exfalso].
      destruct (de_new _ _ _ D i H V) as (k & _ & _ & _ & _ & Z). fold s' in Z. exact (ple_not_plt _ _ Z Lt). }
    assert (Rl : forall i, (i < nl s)%nat -> rl s' i = rl s i) by (intros i V; exact (de_rel _ _ _ D i V)).
    assert (Ft : forall i, (i < nl s)%nat -> lft s' i = lft s i) by (intros i V; unfold lft; rewrite (kp_orig _ _ K i V); reflexivity).
    assert (OldR : forall e, valid_ref s' e -> plt (estart s' e) c -> valid_ref s e).
    { intros e Ve Be. destruct (valid_dec s e) as [Z|Z]; [exact Z|]. exfalso. destruct (de_refn _ _ _ D e Ve Z) as [Z1 _]. exact (ple_not_plt _ _ Z1 Be). }
    constructor; auto.
    - intros i V R. destruct (Nat.lt_ge_cases i (nl s)) as [H|H].
      + rewrite (Rl i H) in R. exact (covered_keeps s s' i K H (E1 i H R)).
      + destruct (de_new _ _ _ D i H V) as (k & X1 & X2 & X3 & X4 & _). fold s s' in X1, X2, X3, X4.
        assert (R' : rl s k = SOVERLAP) by (unfold rl in *; congruence).
        destruct (E1 k X1 R') as (y & Y1 & Y2 & Y3). exists y. split; [exact Y1|]. unfold lft in *. rewrite X3. split; [exact Y2|].
        intros p Hp. apply Y3, X4, Hp.
    - intros i V R. destruct (Nat.lt_ge_cases i (nl s)) as [H|H].
      + rewrite (Rl i H) in R. exact (E2 i H R).
      + destruct (de_new _ _ _ D i H V) as (k & X1 & X2 & _). fold s s' in X1, X2. apply (E2 k X1). unfold rl in *. congruence.
    - intros i k Vi Vk T Bi. pose proof (Old i Vi Bi) as Oi.
      assert (Ok : (k < nl s)%nat) by (apply Old; [exact Vk|]; destruct T as (T & _); rewrite <- T; exact Bi).
      apply (twin_keeps eps s s' i k K Oi Ok) in T. rewrite (kp_start _ _ K i Oi) in Bi. rewrite (Rl i Oi). exact (E3 i k Oi Ok T Bi).
    - intros i Vi Bi. pose proof (Old i Vi Bi) as Oi. rewrite (kp_start _ _ K i Oi) in Bi. rewrite (Rl i Oi), (Ft i Oi). exact (E4 i Oi Bi).
    - intros e f Ve Vf Ee Ne Be.
      assert (Ve' : valid_ref s e).
      { destruct (valid_dec s e) as [Z|Z]; [exact Z|]. exfalso. destruct (de_refn _ _ _ D e Ve Z) as [Z1 _]. exact (ple_not_plt _ _ Z1 Be). }
      assert (Vf' : valid_ref s f).
      { destruct (valid_dec s f) as [Z|Z]; [exact Z|]. exfalso. destruct (de_refn _ _ _ D f Vf Z) as [Z1 _].
        apply (ple_not_plt _ _ Z1). fold s'. rewrite <- Ee. exact Be. }
      destruct (de_ref _ _ _ D e Ve') as (X1 & X2 & _), (de_ref _ _ _ D f Vf') as (Y1 & Y2 & _). fold s s' in X1, X2, Y1, Y2.
      rewrite X1 in Ee, Be. rewrite Y1 in Ee. rewrite X2, Y2 in Ne. exact (E5 e f Ve' Vf' Ee Ne Be).
    - intros i Vi Bi. pose proof (Old i Vi Bi) as Oi. rewrite (kp_start _ _ K i Oi) in Bi. rewrite (Ft i Oi).
      destruct (E6 i Oi Bi) as (out & Z1 & Z2 & Z3). exists out. split; [exact Z1|]. split; [exact Z2|].
      intros R. exact (covered_keeps s s' i K Oi (Z3 R)).
    - intros e f Ve Vf Ee Ne Oe Of Be. pose proof (OldR e Ve Be) as Ve'. pose proof (OldR f Vf ltac:(rewrite <- Ee; exact Be)) as Vf'.
      destruct (de_ref _ _ _ D e Ve') as (X1 & X2 & _), (de_ref _ _ _ D f Vf') as (Y1 & Y2 & _).
      pose proof (de_eorig _ _ _ D e Ve') as X3. pose proof (de_eorig _ _ _ D f Vf') as Y3. fold s s' in X1, X2, X3, Y1, Y2, Y3.
      rewrite X1 in Ee, Be, Oe. rewrite Y1 in Ee, Of. rewrite X2, Y2 in Ne. rewrite X3 in Oe. rewrite Y3 in Of. exact (E10 e f Ve' Vf' Ee Ne Oe Of Be).
  Qed.

  (* Overlapping segments of the two sides are neighbours in the line. *)
  Lemma twins_adj c q L i k : swept eps inp c q L -> all_good eps (q_store q) L -> no_right c q -> In i L -> In k L -> i <> k ->
    lsame eps (q_store q) i k -> adj L i k \/ adj L k i.
  Proof.
    intros S G NR Ii Ik N E. pose proof (sorted_now eps inp O IO c q L S G NR) as F. set (s := q_store q) in *.
    assert (M : forall a x b y d, L = a ++ x :: b ++ y :: d -> x <> y -> In x L -> In y L -> lsame eps s x y -> adj L x y).
    { clear i k Ii Ik N E. intros a x b y d EL N Ix Iy E. destruct b as [|z b]; [exists a, d; exact EL|]. exfalso.
      assert (Iz : In z L) by (rewrite EL, in_app_iff; right; right; left; reflexivity).
      rewrite EL in F.
      apply fop_app_iff in F. destruct F as (_ & F & _). apply fop_cons_iff in F. destruct F as [Fx F].
      cbn [app] in Fx, F. apply fop_cons_iff in F. destruct F as [Fz _].
      pose proof (Fx z (or_introl eq_refl)) as R1. pose proof (Fz y ltac:(rewrite in_app_iff; right; left; reflexivity)) as R2. cbv beta in R1, R2.
      assert (Nxz : x <> z) by (intros <-; exact (ord_asym _ _ _ _ R1 R1)).
      assert (Nzy : z <> y) by (intros <-; exact (ord_asym _ _ _ _ R2 R2)).
      assert (Exz : lsame eps s x z).
      { unfold lsame in *. destruct R1 as [R1|(R1 & _)]; [exfalso|exact R1].
        pose proof (same_line_val _ _ _ E (tm eps c)) as V1. destruct E as [E0 E1].
        destruct R2 as [[R2|[R2 R2']]|(R2 & _)].
        - destruct R1 as [R1|[R1 R1']]; qlra.
        - destruct R1 as [R1|[R1 R1']]; qlra.
        - exact (under_same _ _ _ _ R1 (same_line_trans _ _ _ _ (conj E0 E1) (same_line_sym _ _ _ R2))). }
      apply (three_lines eps inp O IO AP c q L x z y S NR); try assumption.
      exact (same_line_trans _ _ _ _ (same_line_sym _ _ _ Exz) E). }
    destruct (in_pair_order L i k Ii Ik N) as (a & b & d & [H|H]); [left|right].
    - exact (M a i b k d H N Ii Ik E).
    - apply (M a k b i d H); [congruence|assumption|assumption|]. apply same_line_sym. exact E.
  Qed.

  (** * Leaving a point *)
  Section Leave.
    Variable (linear : bool) (c : point) (s : store) (queue : list eref) (L : list nat) (same : list eref)
             (acc : list levent) (s' : store) (outs : list levent).
    Hypothesis (St : stage eps inp c (QS s queue) L) (Gr : group c (QS s queue) same).
    Hypothesis Nx : queue = [] \/ exists c', In c' (candidates inp) /\ plt c c' /\ forall f, In f queue -> ple c' (estart s f).
    Hypothesis (Lv : leave linear s same = (s', outs)).
    Hypothesis Em : emitted (fun p => plt p c) s acc.
    Let S : swept eps inp c (QS s queue) L := proj1 St.
    Let P : pieces inp s := sp_pieces _ _ _ _ _ S.
    Let W : wf s := pc_wf _ _ P.
    Lemma lv_later f : In f queue -> plt c (estart s f).
    Proof. intros If. destruct Nx as [E|(c' & _ & Lt & AQ)]; [rewrite E in If; destruct If|]. eapply plt_ple_trans; [exact Lt|apply AQ, If]. Qed.
    Lemma lv_nr : no_right c (QS s queue).
    Proof. intros j Ij E. apply lv_later in Ij. cbn [estart q_store] in *. rewrite E in Ij. exact (plt_irrefl _ Ij). Qed.
    Lemma lv_same e : In e same <-> valid_ref s e /\ estart s e = c.
    Proof.
      pose proof Gr as [_ H]. rewrite H. cbn [q_store q_queue]. split; [tauto|]. intros [V E]. split; [exact V|]. split; [exact E|].
      intros If. apply lv_later in If. rewrite E in If. exact (plt_irrefl _ If).
    Qed.
    Lemma lv_spec : relonly s s' /\ outs = map (fun e => gl s' (left_of s e)) same
      /\ (forall k, ~ In k (map (left_of s) same) -> rl s' k = rl s k)
      /\ (forall e, In e same -> (rl s' (left_of s e) = SOVERLAP <-> rl s (left_of s e) = SOVERLAP
           \/ exists f, In f same /\ f <> e /\ pair_rel s e f = SOVERLAP))
      /\ (forall e, In e same -> (rl s' (left_of s e) <> SDISJOINT <-> rl s (left_of s e) <> SDISJOINT
           \/ exists f, In f same /\ efrom_test s f <> efrom_test s e)).
    Proof.
      destruct (group_lefts eps inp c _ L same S Gr) as [N V].
      destruct (leave_spec linear s same s' outs Lv N V) as (A & B & C & D & E & _). auto.
    Qed.
    Lemma lv_geo : same_geo s s'.
    Proof. exact (ro_geo _ _ (proj1 lv_spec)). Qed.
    Let Ge := lv_geo.
    Lemma lv_left e : In e same -> (left_of s e < nl s)%nat.
    Proof. apply (group_lefts eps inp c _ L same S Gr). Qed.
    Lemma lv_mono k : rl s k = SOVERLAP -> rl s' k = SOVERLAP.
    Proof.
      intros R. destruct lv_spec as (_ & _ & H1 & H2 & _). destruct (in_dec Nat.eq_dec k (map (left_of s) same)) as [I|I].
      - apply in_map_iff in I. destruct I as (e & <- & I). apply (H2 e I). left. exact R.
      - rewrite (H1 k I). exact R.
    Qed.
    Lemma lv_mono_d k : rl s k <> SDISJOINT -> rl s' k <> SDISJOINT.
    Proof.
      intros R. destruct lv_spec as (_ & _ & H1 & _ & H2). destruct (in_dec Nat.eq_dec k (map (left_of s) same)) as [I|I].
      - apply in_map_iff in I. destruct I as (e & <- & I). apply (H2 e I). left. exact R.
      - rewrite (H1 k I). exact R.
    Qed.
    Lemma lv_out e : In e same -> In (gl s' (left_of s e)) (acc ++ outs).
    Proof. intros I. rewrite in_app_iff. right. destruct lv_spec as (_ & E & _). rewrite E. apply in_map_iff. exists e. auto. Qed.
    Lemma lv_in i : (i < nl s)%nat -> lstart s i = c -> In i L.
    Proof.
      intros V E. apply (sp_line _ _ _ _ _ S i V). cbn [q_store q_queue]. split.
      - intros K. apply lv_later in K. cbn [estart] in K. unfold lstart in E. rewrite <- E in K. exact (plt_irrefl _ K).
      - destruct (in_queue (ER (l_right (gl s i))) queue) as [K|K]; [exact K|]. exfalso.
        pose proof (sp_right _ _ _ _ _ S i V K) as Z. cbn [q_store] in Z. apply (ple_not_plt _ _ Z). rewrite <- E. exact (pc_lt _ _ P i V).
    Qed.
    (* The overlapping segments that start here. *)
    Lemma lv_twin i k : (i < nl s)%nat -> (k < nl s)%nat -> twin eps s i k -> lstart s i = c ->
      lend s i = lend s k /\ rl s' i = SOVERLAP.
    Proof.
      intros Vi Vk T Ei. destruct T as (T1 & T2 & T3). assert (Ek : lstart s k = c) by congruence.
      assert (N : i <> k) by (intros ->; congruence).
      pose proof (lv_in i Vi Ei) as Ii. pose proof (lv_in k Vk Ek) as Ik.
      assert (E : lend s i = lend s k).
      { pose proof St as (_ & G & _ & Sy). destruct (twins_adj c _ L i k S G lv_nr Ii Ik N T2) as [A|A].
        - apply (Sy i k A); [exact (conj T1 (conj T2 T3))|exact Ei].
        - symmetry. apply (Sy k i A); [|exact Ek]. split; [symmetry; exact T1|]. split; [apply same_line_sym; exact T2|]. intros K. apply T3. symmetry. exact K. }
      split; [exact E|].
      assert (Se : In (EL i) same) by (apply lv_same; split; assumption).
      assert (Sf : In (EL k) same) by (apply lv_same; split; assumption).
      destruct lv_spec as (_ & _ & _ & H2 & _). apply (H2 (EL i) Se). right. exists (EL k). split; [exact Sf|]. split; [congruence|].
      unfold pair_rel, efrom_test. cbn [left_of].
      destruct (Bool.eqb (l_from_test (gl s k)) (l_from_test (gl s i))) eqn:Q; [apply eqb_prop in Q; congruence|].
      destruct (pt_eqb_spec (lstart s i) (lstart s k)); [|congruence]. destruct (pt_eqb_spec (lend s i) (lend s k)); [reflexivity|congruence].
    Qed.
    Lemma lv_start e : In e same -> on_left s (left_of s e) c /\ ple (lstart s (left_of s e)) c.
    Proof.
      intros I. pose proof (lv_left e I) as V. apply lv_same in I. destruct I as [Ve Ee]. destruct e as [i|j]; cbn [left_of valid_ref estart] in *.
      - change (lstart s i = c) in Ee. rewrite <- Ee. split; [apply on_segment_start|apply ple_refl].
      - assert (Z : lend s (r_left (gr s j)) = c) by (unfold lend; destruct (wf_l _ W j Ve) as [_ ->]; exact Ee).
        rewrite <- Z. split; [apply on_segment_end|]. left. exact (pc_lt _ _ P _ V).
    Qed.
    Lemma lft_efrom e : efrom_test s e = lft s (left_of s e).
    Proof. unfold lft, efrom_test. symmetry. apply orig_ft. Qed.
    Lemma lv_ro i : (i < nl s)%nat -> rl s' i = SOVERLAP -> covered s i.
    Proof.
      intros V R. destruct lv_spec as (_ & _ & H1 & H2 & _). destruct (in_dec Nat.eq_dec i (map (left_of s) same)) as [I|I].
      - apply in_map_iff in I. destruct I as (e & <- & I). apply (H2 e I) in R. destruct R as [R|(f & If & Nf & R)].
        + exact (em_ro _ _ _ Em _ V R).
        + unfold pair_rel in R. destruct (Bool.eqb (efrom_test s f) (efrom_test s e)) eqn:Q; [discriminate|]. apply eqb_false_iff in Q.
          destruct (pt_eqb_spec (lstart s (left_of s e)) (lstart s (left_of s f))) as [E1|]; cbn [andb] in R; [|destruct (_ || _); discriminate].
          destruct (pt_eqb_spec (lend s (left_of s e)) (lend s (left_of s f))) as [E2|]; [|destruct (_ || _); discriminate].
          pose proof (lv_left f If) as Vf. exists (orig s (left_of s f)). split; [exact (pc_orig _ _ P _ Vf)|].
          rewrite !lft_efrom in Q. split; [exact (neq_negb _ _ Q)|]. intros p Hp. apply (pieces_on inp s _ p P Vf).
          unfold on_left in *. rewrite <- E1, <- E2. exact Hp.
      - rewrite (H1 i I) in R. exact (em_ro _ _ _ Em i V R).
    Qed.
    Lemma lv_rt i : (i < nl s)%nat -> rl s' i <> SDISJOINT -> exists p, common p.
    Proof.
      intros V R. destruct lv_spec as (_ & _ & H1 & _ & H2). destruct (in_dec Nat.eq_dec i (map (left_of s) same)) as [I|I].
      - apply in_map_iff in I. destruct I as (e & <- & I). apply (H2 e I) in R. destruct R as [R|(f & If & Q)].
        + exact (em_rt _ _ _ Em _ V R).
        + exists c. apply (common_of (efrom_test s e)).
          * rewrite lft_efrom. exact (left_has s _ c P V (proj1 (lv_start e I))).
          * rewrite <- (neq_negb _ _ Q), lft_efrom. exact (left_has s _ c P (lv_left f If) (proj1 (lv_start f If))).
      - rewrite (H1 i I) in R. exact (em_rt _ _ _ Em i V R).
    Qed.
    Lemma lv_tw i k : (i < nl s)%nat -> (k < nl s)%nat -> twin eps s i k -> ple (lstart s i) c -> rl s' i = SOVERLAP.
    Proof.
      intros Vi Vk T [B|B]; [apply lv_mono; exact (proj1 (em_tw _ _ _ Em i k Vi Vk T B))|exact (proj2 (lv_twin i k Vi Vk T B))].
    Qed.
    Lemma lv_rf i : (i < nl s)%nat -> ple (lstart s i) c -> rl s' i = SOVERLAP \/ free (lft s i).
    Proof.
      intros V [B|B]; [destruct (em_rf _ _ _ Em i V B) as [R|R]; [left; apply lv_mono, R|right; exact R]|].
      assert (D : rl s' i = SOVERLAP \/ rl s' i <> SOVERLAP) by (destruct (rl s' i); (left; reflexivity) || (right; discriminate)).
      destruct D as [D|D]; [left; exact D|right].
      pose proof (lv_in i V B) as Ii. apply (sp_line _ _ _ _ _ S i V) in Ii. destruct Ii as [_ Qi]. cbn [q_store q_queue] in Qi.
      pose proof Nx as [E|(c' & Kc & Lt & AQ)]; [rewrite E in Qi; destruct Qi|].
      pose proof (AQ _ Qi) as Ce. cbn [estart] in Ce. change (ple c' (lend s i)) in Ce.
      assert (T1 : tm eps c < tm eps c') by (apply (tm_lt eps _ O); [exact (sp_c _ _ _ _ _ S)|exact Kc|exact Lt]).
      assert (T2 : tm eps c' <= t1 eps s i) by (apply (tm_le eps _ O); [exact Kc|exact (pc_end_in _ _ P i V)|exact Ce]).
      assert (T0 : t0 eps s i = tm eps c) by (unfold t0; rewrite B; reflexivity).
      destruct (q_between _ _ T1) as (t & Tt1 & Tt2).
      assert (Om : on_left s i (at_time eps (orig s i) t)) by (apply (at_time_on eps inp s O P IO); [exact V|qlra|qlra]).
      pose proof (at_time_tm eps (orig s i) t) as Tm. set (m := at_time eps (orig s i) t) in *.
      exists m. split; [exact (left_has s i m P V Om)|]. intros (y & Y1 & Y2 & Y3).
      destruct (pc_cover _ _ P y m Y1 Y3) as (k & Vk & Ek & Ok).
      assert (N : i <> k) by (intros ->; unfold lft in Y2; rewrite Ek in Y2; destruct (it_ft y); discriminate).
      destruct (adv_clean eps inp O IO AP c c' _ L S (proj1 (proj2 St)) Kc Lt AQ i k m V Vk N Om Ok ltac:(cbn [q_store]; qlra)) as [[[Z|Z] _]|[Z _]].
      - cbn [q_store] in Z. rewrite Z, B in Tm. qlra.
      - cbn [q_store] in Z. rewrite Z in Tm. unfold t1 in T2. qlra.
      - apply D. exact (lv_tw i k V Vk Z ltac:(right; exact B)).
    Qed.
    Lemma lv_emitted : emitted (fun p => ple p c) s' (acc ++ outs).
    Proof.
      assert (Nl : nl s' = nl s) by apply (sg_len _ _ Ge).
      assert (Cov : forall i, (i < nl s)%nat -> covered s i -> covered s' i) by (intros i V; exact (covered_keeps s s' i (keeps_geo _ _ Ge) V)).
      assert (Ft : forall i, lft s' i = lft s i) by (intros i; unfold lft; rewrite (geo_orig_eq Ge); reflexivity).
      assert (New : forall out, In out outs -> exists e, In e same /\ out = gl s' (left_of s e)).
      { intros out I. destruct lv_spec as (_ & Eo & _). rewrite Eo in I. apply in_map_iff in I. destruct I as (e & <- & I). exists e. auto. }
      constructor.
      - intros i V R. rewrite Nl in V. exact (Cov i V (lv_ro i V R)).
      - intros i V. rewrite Nl in V. exact (lv_rt i V).
      - intros i k Vi Vk T B. rewrite Nl in Vi, Vk. rewrite (geo_lstart Ge) in B. apply (twin_geo eps _ _ i k (same_geo_sym _ _ Ge)) in T.
        split; [exact (lv_tw i k Vi Vk T B)|]. destruct B as [B|B].
        + destruct (em_tw _ _ _ Em i k Vi Vk T B) as (_ & out & Z1 & Z2). exists out. rewrite in_app_iff. auto.
        + exists (gl s' i). split; [|exact (proj2 (lv_twin i k Vi Vk T B))]. apply (lv_out (EL i)). apply lv_same. split; assumption.
      - intros i V B. rewrite Nl in V. rewrite (geo_lstart Ge) in B. rewrite Ft. exact (lv_rf i V B).
      - intros e f Ve Vf Ee Ne B. rewrite !(geo_estart Ge) in *. rewrite !(geo_efrom_test Ge) in Ne.
        apply (valid_ref_geo _ _ _ (same_geo_sym _ _ Ge)) in Ve, Vf. destruct B as [B|B].
        + destruct (em_pair _ _ _ Em e f Ve Vf Ee Ne B) as (out & Z1 & Z2). exists out. rewrite in_app_iff. auto.
        + assert (Ie : In e same) by (apply lv_same; split; assumption).
          assert (If : In f same) by (apply lv_same; split; [assumption|congruence]).
          exists (gl s' (left_of s e)). split; [exact (lv_out e Ie)|]. destruct lv_spec as (_ & _ & _ & _ & H2).
          apply (H2 e Ie). right. exists f. split; [exact If|]. congruence.
      - intros i V B. rewrite Nl in V. rewrite (geo_lstart Ge) in B. rewrite Ft. destruct B as [B|B].
        + destruct (em_out _ _ _ Em i V B) as (out & Z1 & Z2 & Z3). exists out. rewrite in_app_iff. auto 6.
        + exists (gl s' i). split; [apply (lv_out (EL i)); apply lv_same; split; assumption|].
          split; [rewrite <- Ft; symmetry; apply orig_ft|]. intros R. exact (Cov i V (lv_ro i V R)).
      - intros out I R. rewrite in_app_iff in I. destruct I as [I|I]; [exact (em_over _ _ _ Em out I R)|].
        destruct (New out I) as (e & Ie & ->). pose proof (lv_left e Ie) as V. exact (covered_shared s _ P V (lv_ro _ V R)).
      - intros out I R. rewrite in_app_iff in I. destruct I as [I|I]; [exact (em_meet _ _ _ Em out I R)|].
        destruct (New out I) as (e & Ie & ->). exact (lv_rt _ (lv_left e Ie) R).
      - intros out I R. rewrite in_app_iff in I. destruct I as [I|I]; [exact (em_free _ _ _ Em out I R)|].
        destruct (New out I) as (e & Ie & ->). pose proof (lv_left e Ie) as V.
        destruct (lv_rf _ V (proj2 (lv_start e Ie))) as [K|K]; [contradiction|].
        rewrite <- orig_ft, (geo_orig_eq Ge). exact K.
      - intros e f Ve Vf Ee Ne Oe Of B. rewrite (geo_eorig _ _ _ Ge) in Oe. rewrite (geo_eorig _ _ _ Ge) in Of. rewrite !(geo_estart Ge) in *. rewrite !(geo_efrom_test Ge) in Ne.
        apply (valid_ref_geo _ _ _ (same_geo_sym _ _ Ge)) in Ve, Vf. destruct B as [B|B].
        + destruct (em_cross _ _ _ Em e f Ve Vf Ee Ne Oe Of B) as (out & Z1 & Z2). exists out. rewrite in_app_iff. auto.
        + assert (Ie : In e same) by (apply lv_same; split; assumption).
          assert (If : In f same) by (apply lv_same; split; [assumption|congruence]).
          exists (gl s' (left_of s e)). split; [exact (lv_out e Ie)|].
          destruct (group_lefts eps inp c _ L same S Gr) as [N V].
          eapply Nat.le_trans; [|exact (leave_pair linear s same s' outs Lv N V e f Ie If ltac:(congruence))].
          unfold pair_rel. destruct (Bool.eqb (efrom_test s f) (efrom_test s e)) eqn:Q; [apply eqb_prop in Q; congruence|].
          destruct (_ && _); [cbn; lia|].
          destruct (pt_eqb_spec (estart s e) (eoriginal_start s e)); [contradiction|].
          destruct (pt_eqb_spec (estart s f) (eoriginal_start s f)); [contradiction|]. cbn. lia.
    Qed.
  End Leave.
End Found.

Lemma q_avoid (l : list Qc) : forall a b, a < b -> exists t, a < t /\ t < b /\ ~ In t l.
Proof.
  assert (H : forall a b, a < b -> exists a' b', a <= a' /\ a' < b' /\ b' <= b /\ forall t, a' < t -> t < b' -> ~ In t l).
  { induction l as [|u l IH]; intros a b Lt.
    - exists a, b. repeat apply conj; try qlra. intros t _ _ [].
    - destruct (IH a b Lt) as (x & y & H1 & H2 & H3 & H4).
      destruct (q_trichotomy x u) as [C|C]; [destruct (q_trichotomy u y) as [D|D]|].
      + exists x, u. repeat apply conj; try qlra. intros t T1 T2 [->|I]; [qlra|]. apply (H4 t); [qlra|qlra|exact I].
      + exists x, y. repeat apply conj; try qlra. intros t T1 T2 [->|I]; [destruct D; qlra|]. apply (H4 t); assumption.
      + exists x, y. repeat apply conj; try qlra. intros t T1 T2 [->|I]; [destruct C; qlra|]. apply (H4 t); assumption. }
  intros a b Lt. destruct (H a b Lt) as (x & y & H1 & H2 & H3 & H4). destruct (q_between x y H2) as (t & T1 & T2).
  exists t. split; [qlra|]. split; [qlra|]. apply H4; assumption.
Qed.

Lemma ordered_incl eps K K' : ordered eps K -> incl K' K -> ordered eps K'.
Proof. intros [E H] I. split; [exact E|]. intros p q Ip Iq. apply H; apply I; assumption. Qed.

Section Result.
  Variable (inp : list item).
  Hypothesis (IO : items_ok inp) (AP : apart inp).
  (* The side [b] ends not later than the sweep stops. *)
  Definition ends_by (stop : Qc) (b : bool) : Prop :=
    (exists x, In x inp /\ it_ft x = b) /\ forall x, In x inp -> it_ft x = b -> px (it_hi x) <= stop.

  Lemma item_px stop b x p : ends_by stop b -> In x inp -> it_ft x = b -> on_item x p -> px p <= stop.
  Proof.
    intros [_ H] I F Op. specialize (H x I F). apply (on_segment_order _ _ _ (IO x I)) in Op. destruct Op as (_ & _ & Z).
    destruct Z as [Z|Z]; [destruct Z as [Z|[Z _]]; [qlra|rewrite Z; exact H]|rewrite Z; exact H].
  Qed.

  Section Final.
    Variable (eps : Qc) (linear : bool) (stop : Qc) (b : bool) (fuel : nat) (outs : list levent) (q' : qstate).
    Hypothesis (O : ordered eps (candidates inp)) (EB : ends_by stop b).
    Hypothesis H : sweep linear fuel stop (init_state inp) = (outs, Ok q').

    Lemma init_emitted c : (forall i, (i < nl (q_store (init_state inp)))%nat -> ple c (lstart (q_store (init_state inp)) i)) ->
      emitted eps inp (fun p => plt p c) (q_store (init_state inp)) [].
    Proof using IO.
      intros F. set (s := q_store (init_state inp)) in *. pose proof (init_pieces inp IO) as P. fold s in P. pose proof (pc_wf _ _ P) as W.
      assert (R : forall i, (i < nl s)%nat -> rl s i = SDISJOINT).
      { intros i V. unfold rl, s in *. rewrite init_nl in V. rewrite (init_gl inp i V). reflexivity. }
      assert (NB : forall i, (i < nl s)%nat -> plt (lstart s i) c -> False) by (intros i V B; exact (ple_not_plt _ _ (F i V) B)).
      constructor.
      - intros i V K. rewrite (R i V) in K. discriminate.
      - intros i V K. rewrite (R i V) in K. congruence.
      - intros i k V _ _ B. exfalso. exact (NB i V B).
      - intros i V B. exfalso. exact (NB i V B).
      - intros e f V _ _ _ B. exfalso. destruct e as [i|j]; cbn [valid_ref estart] in *; [exact (NB i V B)|].
        destruct (wf_l _ W j V) as [R1 R2]. apply (NB _ R1). eapply plt_trans; [exact (pc_lt _ _ P _ R1)|].
        unfold lend. rewrite R2. exact B.
      - intros i V B. exfalso. exact (NB i V B).
      - intros out [].
      - intros out [].
      - intros out [].
      - intros e f V _ _ _ _ _ B. exfalso. destruct e as [i|j]; cbn [valid_ref estart] in *; [exact (NB i V B)|].
        destruct (wf_l _ W j V) as [R1 R2]. apply (NB _ R1). eapply plt_trans; [exact (pc_lt _ _ P _ R1)|].
        unfold lend. rewrite R2. exact B.
    Qed.

    Lemma final_state : exists c s L, stage eps inp c (QS s (q_queue q')) L /\ same_geo s (q_store q')
      /\ emitted eps inp (fun p => ple p c) (q_store q') outs
      /\ (q_queue q' = [] \/ exists e, q_peek s (q_queue q') = Some e /\ stop < px (estart s e) /\ plt c (estart s e)
            /\ In (estart s e) (candidates inp) /\ forall f, In f (q_queue q') -> ple (estart s e) (estart s f)).
    Proof.
      destruct (run_sweep eps inp O IO AP linear (fun c q L same acc => emitted eps inp (fun p => plt p c) (q_store q) acc)) with (stop := stop) (fuel := fuel) (outs := outs) (q' := q')
        as (c & s & L & same & acc & o & Fi).
      - intros c s queue L start same0 same e w' acc St Gr Pk Ec Iv Ev St' D.
        exact (emitted_event eps inp c _ _ acc D Iv).
      - intros c c' s queue L same acc s' o St Gr Lt AQ (f & If & Ef) Lv St' Iv. cbn [q_store] in *.
        assert (Kc : In c' (candidates inp)) by (exact (sp_c _ _ _ _ _ (proj1 St'))).
        assert (Nx : queue = [] \/ exists c', In c' (candidates inp) /\ plt c c' /\ forall f, In f queue -> ple c' (estart s f)) by (right; exists c'; auto).
        pose proof (lv_emitted eps inp O IO AP linear c s queue L same acc s' o St Gr Nx Lv Iv) as E.
        pose proof (lv_geo eps inp linear c s queue L same s' o St Gr Lv) as Ge.
        apply (emitted_weaken eps inp (fun p => ple p c)); [|exact E]. cbv beta.
        intros e V B. destruct (in_queue e queue) as [Q|Q].
        + exfalso. rewrite (geo_estart Ge) in B. exact (ple_not_plt _ _ (AQ e Q) B).
        + pose proof (sp_pieces _ _ _ _ _ (proj1 St)) as P. pose proof (pc_wf _ _ P) as W. cbn [q_store] in *.
          rewrite (geo_estart Ge). apply (valid_ref_geo _ _ _ (same_geo_sym _ _ Ge)) in V.
          destruct e as [i|j]; cbn [valid_ref estart] in *; [exact (sp_left _ _ _ _ _ (proj1 St) i V Q)|].
          destruct (wf_l _ W j V) as [R1 R2]. pose proof (sp_right _ _ _ _ _ (proj1 St) _ R1) as Z. cbn [q_store q_queue] in Z.
          unfold lend in Z. rewrite R2 in Z. exact (Z Q).
      - destruct EB as [(x & Ix & _) _]. intros E. rewrite E in Ix. destruct Ix.
      - intros e Pk. pose proof (stage_init eps inp O IO AP e Pk) as St. set (c := estart _ e) in *.
        set (s := q_store (init_state inp)) in *.
        assert (F : forall i, (i < nl s)%nat -> ple c (lstart s i)).
        { intros i V. apply (sp_queue _ _ _ _ _ (proj1 St) (EL i)). apply init_in_queue. exact V. }
        split; [|apply init_emitted; exact F].
        destruct EB as [(x & Ix & Fx) HB]. specialize (HB x Ix Fx).
        destruct (pc_cover _ _ (sp_pieces _ _ _ _ _ (proj1 St)) x (it_lo x) Ix (on_segment_start _ _)) as (i & Vi & Ei & Oi).
        pose proof (sp_pieces _ _ _ _ _ (proj1 St)) as P. fold s in P, Vi, Ei, Oi.
        assert (Z : ple c (it_hi x)).
        { eapply ple_trans; [exact (F i Vi)|]. apply (on_segment_order _ _ _ (pc_lt _ _ P i Vi)) in Oi. destruct Oi as (_ & Z & _).
          eapply ple_trans; [exact Z|]. left. exact (IO x Ix). }
        destruct Z as [[Z|[Z _]]|Z]; [qlra|rewrite Z; exact HB|rewrite Z; exact HB].
      - exact H.
      - destruct Fi as [St Gr Em Lv Eo Px Sp]. exists c, s, L. split; [exact St|].
        assert (Nx : q_queue q' = [] \/ exists c', In c' (candidates inp) /\ plt c c' /\ forall f, In f (q_queue q') -> ple c' (estart s f)).
        { destruct Sp as [Sp|(e & Pk & Lt)]; [left; exact Sp|right]. exists (estart s e).
          assert (V : valid_ref s e) by (apply (qo_valid _ (sp_qok _ _ _ _ _ (proj1 St))); cbn [q_queue]; eapply q_peek_in; exact Pk).
          pose proof (sp_pieces _ _ _ _ _ (proj1 St)) as P. pose proof (pc_wf _ _ P) as W. cbn [q_store] in *.
          split.
          - destruct e as [i|j]; cbn [valid_ref estart] in *; [exact (pc_start_in _ _ P i V)|].
            destruct (wf_l _ W j V) as [R1 R2]. pose proof (pc_end_in _ _ P _ R1) as Z. unfold lend in Z. rewrite R2 in Z. exact Z.
          - split; [left; qlra|]. intros f If. apply key_le_ple. eapply q_peek_key; eassumption. }
        split; [exact (lv_geo eps inp linear c s _ L same _ o St Gr Lv)|].
        split; [rewrite Eo; exact (lv_emitted eps inp O IO AP linear c s _ L same acc _ o St Gr Nx Lv Em)|].
        destruct Sp as [Sp|(e & Pk & Lt)]; [left; exact Sp|right]. exists e. split; [exact Pk|]. split; [exact Lt|].
        assert (V : valid_ref s e) by (apply (qo_valid _ (sp_qok _ _ _ _ _ (proj1 St))); cbn [q_queue]; eapply q_peek_in; exact Pk).
        pose proof (sp_pieces _ _ _ _ _ (proj1 St)) as P. pose proof (pc_wf _ _ P) as W. cbn [q_store] in *.
        split; [left; qlra|]. split.
        + destruct e as [i|j]; cbn [valid_ref estart] in *; [exact (pc_start_in _ _ P i V)|].
          destruct (wf_l _ W j V) as [R1 R2]. pose proof (pc_end_in _ _ P _ R1) as Z. unfold lend in Z. rewrite R2 in Z. exact Z.
        + intros f If. apply key_le_ple. eapply q_peek_key; eassumption.
    Qed.
  End Final.


  (* The final state of a sweep. *)
  Record done (eps stop : Qc) (c : point) (q : qstate) (L : list nat) : Prop := {
    dn_stage : stage eps inp c q L;
    dn_stop : q_queue q = [] \/ exists e, q_peek (q_store q) (q_queue q) = Some e /\ stop < px (estart (q_store q) e)
            /\ plt c (estart (q_store q) e) /\ In (estart (q_store q) e) (candidates inp)
            /\ forall f, In f (q_queue q) -> ple (estart (q_store q) e) (estart (q_store q) f)
  }.
  Lemma final_done eps linear stop b fuel outs q' : ordered eps (candidates inp) -> ends_by stop b ->
    sweep linear fuel stop (init_state inp) = (outs, Ok q') ->
    exists c L, done eps stop c q' L /\ emitted eps inp (fun p => ple p c) (q_store q') outs.
  Proof.
    intros O EB H. destruct (final_state eps linear stop b fuel outs q' O EB H) as (c & s & L & St & Ge & Em & Sp).
    exists c, L. split; [|exact Em]. constructor.
    - apply (stage_geo eps inp c (QS s (q_queue q'))); [|exact St]. exists (q_store q'). split; [exact Ge|]. destruct q'; reflexivity.
    - destruct Sp as [Sp|(e & X1 & X2 & X3 & X4 & X5)]; [left; exact Sp|right]. exists e. rewrite (q_peek_geo _ _ _ Ge), !(geo_estart Ge).
      split; [exact X1|]. split; [exact X2|]. split; [exact X3|]. split; [exact X4|]. intros f. rewrite (geo_estart Ge). apply X5.
  Qed.

  Section Done.
    Variable (eps stop : Qc) (b : bool) (c : point) (q : qstate) (L : list nat).
    Hypothesis (O : ordered eps (candidates inp)) (EB : ends_by stop b) (Dn : done eps stop c q L).
    Let s := q_store q.
    Let S : swept eps inp c q L := proj1 (dn_stage _ _ _ _ _ Dn).
    Let P : pieces inp s := sp_pieces _ _ _ _ _ S.
    Let W : wf s := pc_wf _ _ P.
    Lemma dn_side i p : (i < nl s)%nat -> lft s i = b -> on_left s i p -> px p <= stop.
    Proof.
      intros V F Op. apply (item_px stop b (orig s i) p EB); [exact (pc_orig _ _ P i V)|exact F|exact (pieces_on inp s i p P V Op)].
    Qed.
    Lemma dn_unqueued p e : In e (q_queue q) -> estart s e = p -> stop < px p.
    Proof.
      intros Ie E. destruct (dn_stop _ _ _ _ _ Dn) as [Z|(f & Pk & Lt & _ & _ & Mn)]; [rewrite Z in Ie; destruct Ie|].
      pose proof (Mn e Ie) as M. fold s in M, Lt. rewrite E in M. destruct M as [[M|[M _]]|M]; [qlra|rewrite <- M; exact Lt|rewrite <- M; exact Lt].
    Qed.
    Lemma dn_started k : (k < nl s)%nat -> lft s k = b -> ple (lstart s k) c /\ ple (lend s k) c.
    Proof.
      intros V F. split.
      - apply (sp_left _ _ _ _ _ S k V). intros Q. apply (dn_unqueued (lstart s k)) in Q; [|reflexivity].
        pose proof (dn_side k _ V F (on_segment_start _ _)). qlra.
      - apply (sp_right _ _ _ _ _ S k V). intros Q. apply (dn_unqueued (lend s k)) in Q; [|reflexivity].
        pose proof (dn_side k _ V F (on_segment_end _ _)). qlra.
    Qed.
    (* The common points of the two sides at the end. *)
    Lemma dn_clean i k p : (i < nl s)%nat -> (k < nl s)%nat -> lft s i <> lft s k -> lft s k = b -> on_left s i p -> on_left s k p ->
      ends_left s i p /\ ends_left s k p /\ ple p c \/ twin eps s i k /\ ple (lstart s i) c.
    Proof.
      intros Vi Vk F Fb Oi Ok. assert (N : i <> k) by (intros ->; congruence).
      destruct (dn_started k Vk Fb) as [Sk Ek].
      pose proof (proj1 (on_left_time eps inp s O P IO i p Vi) Oi) as (I0 & I1 & I2).
      pose proof (proj1 (on_left_time eps inp s O P IO k p Vk) Ok) as (K0 & K1 & K2).
      assert (Tk : t1 eps s k <= tm eps c) by (apply (tm_le eps _ O); [exact (pc_end_in _ _ P k Vk)|exact (sp_c _ _ _ _ _ S)|exact Ek]).
      assert (Cl : forall c', clean_at eps s c' i k p -> ends_left s i p /\ ends_left s k p /\ ple p c \/ twin eps s i k /\ ple (lstart s i) c).
      { intros c' [[A B]|[A _]]; [left|right].
        - split; [exact A|]. split; [exact B|]. destruct B as [->| ->]; assumption.
        - split; [exact A|]. destruct A as (A & _). rewrite A. exact Sk. }
      destruct (dn_stop _ _ _ _ _ Dn) as [Z|(f & Pk & Lt & Lc & Kc & Mn)].
      - destruct (q_trichotomy (tm eps p) (tm eps c)) as [T|[T|T]]; [|left|exfalso; qlra].
        + exact (Cl c (sp_clean _ _ _ _ _ S i k p Vi Vk N Oi Ok T)).
        + assert (Ei : ple (lend s i) c) by (apply (sp_right _ _ _ _ _ S i Vi); rewrite Z; intros []).
          assert (Ti : t1 eps s i <= tm eps c) by (apply (tm_le eps _ O); [exact (pc_end_in _ _ P i Vi)|exact (sp_c _ _ _ _ _ S)|exact Ei]).
          assert (Hi : p = lend s i).
          { apply (tm_py_eq eps); [unfold t1 in *; qlra|]. rewrite I2, (end_val eps inp s O P IO i Vi). f_equal. unfold t1 in *. qlra. }
          assert (Hk : p = lend s k).
          { apply (tm_py_eq eps); [unfold t1 in *; qlra|]. rewrite K2, (end_val eps inp s O P IO k Vk). f_equal. unfold t1 in *. qlra. }
          split; [right; exact Hi|]. split; [right; exact Hk|]. rewrite Hi. exact Ei.
      - apply (Cl (estart s f)). pose proof (proj1 (proj2 (dn_stage _ _ _ _ _ Dn))) as G.
        apply (adv_clean eps inp O IO AP c _ q L S G Kc Lc Mn); try assumption. fold s.
        assert (tm eps c < tm eps (estart s f)) by (apply (tm_lt eps _ O); [exact (sp_c _ _ _ _ _ S)|exact Kc|exact Lc]). qlra.
    Qed.
    Lemma dn_event i p : (i < nl s)%nat -> ends_left s i p -> exists e, valid_ref s e /\ estart s e = p /\ efrom_test s e = lft s i.
    Proof.
      intros V [->| ->].
      - exists (EL i). split; [exact V|]. split; [reflexivity|]. apply lft_efrom.
      - exists (ER (l_right (gl s i))). destruct (wf_r _ W i V) as [R1 R2]. split; [exact R1|]. split; [reflexivity|].
        rewrite lft_efrom. cbn [left_of]. rewrite R2. reflexivity.
    Qed.
    Variable (outs : list levent).
    Hypothesis Em : emitted eps inp (fun p => ple p c) s outs.
    Lemma dn_pieces p : common inp p -> exists i k, (i < nl s)%nat /\ (k < nl s)%nat /\ lft s i <> lft s k /\ lft s k = b
      /\ on_left s i p /\ on_left s k p.
    Proof.
      intros [(x & X1 & X2 & X3) (y & Y1 & Y2 & Y3)].
      destruct (pc_cover _ _ P x p X1 X3) as (i & Vi & Ei & Oi). destruct (pc_cover _ _ P y p Y1 Y3) as (k & Vk & Ek & Ok).
      assert (Fi : lft s i = true) by (unfold lft; congruence). assert (Fk : lft s k = false) by (unfold lft; congruence).
      destruct b; [exists k, i|exists i, k]; repeat apply conj; try assumption; congruence.
    Qed.
    Theorem done_meet : (exists out, In out outs /\ l_relation out <> SDISJOINT) <-> exists p, common inp p.
    Proof.
      split; [intros (out & I & R); exact (em_meet _ _ _ _ _ Em out I R)|]. intros (p & Hp).
      destruct (dn_pieces p Hp) as (i & k & Vi & Vk & F & Fb & Oi & Ok).
      destruct (dn_clean i k p Vi Vk F Fb Oi Ok) as [(A & B & C)|[A B]].
      - destruct (dn_event i p Vi A) as (e & Ve & Ee & Fe), (dn_event k p Vk B) as (f & Vf & Ef & Ff).
        apply (em_pair _ _ _ _ _ Em e f Ve Vf); [congruence|congruence|rewrite Ee; exact C].
      - apply (em_pair _ _ _ _ _ Em (EL i) (EL k) Vi Vk); [exact (proj1 A)|rewrite !lft_efrom; exact F|exact B].
    Qed.
    (* A point between the ends of two segments of different sides. *)
    Theorem done_cross x y p : In x inp -> In y inp -> it_ft x <> it_ft y -> on_item x p -> on_item y p ->
      p <> it_lo x -> p <> it_hi x -> p <> it_lo y -> p <> it_hi y -> exists out, In out outs /\ (2 <= srel_val (l_relation out))%nat.
    Proof.
      assert (G : forall x y, In x inp -> In y inp -> it_ft x <> it_ft y -> it_ft y = b -> on_item x p -> on_item y p ->
        p <> it_lo x -> p <> it_hi x -> p <> it_lo y -> p <> it_hi y -> exists out, In out outs /\ (2 <= srel_val (l_relation out))%nat).
      { clear x y. intros x y X1 Y1 F Fy X3 Y3 Dx1 Dx2 Dy1 Dy2.
        destruct (pc_cover _ _ P x p X1 X3) as (i & Vi & Ei & Oi). destruct (pc_cover _ _ P y p Y1 Y3) as (k & Vk & Ek & Ok).
        assert (Fi : lft s i <> lft s k) by (unfold lft; rewrite Ei, Ek; exact F).
        assert (Fk : lft s k = b) by (unfold lft; rewrite Ek; exact Fy).
        assert (Ev : forall j z, (j < nl s)%nat -> orig s j = z -> ends_left s j p -> p <> it_lo z -> p <> it_hi z ->
          exists e, valid_ref s e /\ estart s e = p /\ efrom_test s e = lft s j /\ estart s e <> eoriginal_start s e).
        { intros j z V <- E D1 D2. destruct (wf_r _ W j V) as [R1 R2]. destruct E as [E|E].
          - exists (EL j). split; [exact V|]. split; [symmetry; exact E|]. split; [apply lft_efrom|]. cbn [estart eoriginal_start]. fold (lstart s j). rewrite <- E. exact D1.
          - exists (ER (l_right (gl s j))). split; [exact R1|]. split; [symmetry; exact E|]. split; [rewrite lft_efrom; cbn [left_of]; rewrite R2; reflexivity|].
            cbn [estart eoriginal_start]. change (lend s j <> loriginal_end s j). rewrite <- E. exact D2. }
        destruct (dn_clean i k p Vi Vk Fi Fk Oi Ok) as [(A & B & C)|[A B]].
        - destruct (Ev i x Vi Ei A Dx1 Dx2) as (e & Ve & Ee & Fe & De), (Ev k y Vk Ek B Dy1 Dy2) as (f & Vf & Ef & Ff & Df).
          apply (em_cross _ _ _ _ _ Em e f Ve Vf); [congruence|congruence|exact De|exact Df|rewrite Ee; exact C].
        - destruct (proj2 (em_tw _ _ _ _ _ Em i k Vi Vk A B)) as (out & I & R). exists out. split; [exact I|]. rewrite R. cbn. lia. }
      intros X1 Y1 F X3 Y3 D1 D2 D3 D4. assert (K : it_ft y = b \/ it_ft x = b) by (destruct (it_ft x), (it_ft y), b; auto; congruence).
      destruct K as [K|K]; [exact (G x y X1 Y1 F K X3 Y3 D1 D2 D3 D4)|].
      exact (G y x Y1 X1 ltac:(congruence) K Y3 X3 D3 D4 D1 D2).
    Qed.
    Theorem done_over m : common inp m -> ~ In (tm eps m) (map (tm eps) (candidates inp)) ->
      exists out, In out outs /\ l_relation out = SOVERLAP.
    Proof.
      intros Cm Nm. destruct (dn_pieces m Cm) as (i & k & Vi & Vk & F & Fb & Oi & Ok).
      destruct (dn_clean i k m Vi Vk F Fb Oi Ok) as [(A & _)|[A B]].
      - exfalso. apply Nm. apply in_map. destruct A as [->| ->]; [exact (pc_start_in _ _ P i Vi)|exact (pc_end_in _ _ P i Vi)].
      - exact (proj2 (em_tw _ _ _ _ _ Em i k Vi Vk A B)).
    Qed.
    Theorem done_finite m : (forall out, In out outs -> l_relation out <> SOVERLAP) -> common inp m -> In m (candidates inp).
    Proof.
      intros No Cm. destruct (dn_pieces m Cm) as (i & k & Vi & Vk & F & Fb & Oi & Ok).
      destruct (dn_clean i k m Vi Vk F Fb Oi Ok) as [(A & _)|[A B]].
      - destruct A as [->| ->]; [exact (pc_start_in _ _ P i Vi)|exact (pc_end_in _ _ P i Vi)].
      - exfalso. destruct (proj2 (em_tw _ _ _ _ _ Em i k Vi Vk A B)) as (out & I & R). exact (No out I R).
    Qed.
    Lemma dn_rest r : queue_rest q = Some r -> r = negb b /\ free inp r.
    Proof.
      unfold queue_rest. fold s. intros E.
      destruct (dn_stop _ _ _ _ _ Dn) as [Z|(f & Pk & Lt & Lc & Kc & Mn)]; [rewrite Z in E; discriminate|]. fold s in Pk, Lt.
      rewrite Pk in E. injection E as <-.
      assert (V : valid_ref s f) by (apply (qo_valid _ (sp_qok _ _ _ _ _ S)); eapply q_peek_in; exact Pk).
      assert (Hf : exists i, (i < nl s)%nat /\ lft s i = efrom_test s f /\ on_left s i (estart s f)).
      { destruct f as [i|j]; cbn [valid_ref estart] in *.
        - exists i. split; [exact V|]. split; [symmetry; apply lft_efrom|apply on_segment_start].
        - destruct (wf_l _ W j V) as [R1 R2]. exists (r_left (gr s j)). split; [exact R1|]. split; [symmetry; apply lft_efrom|].
          pose proof (on_segment_end (lstart s (r_left (gr s j))) (lend s (r_left (gr s j)))) as Z. unfold on_left. unfold lend in Z at 2. rewrite R2 in Z. exact Z. }
      destruct Hf as (i & Vi & Fi & Oi). rewrite <- Fi.
      assert (N : lft s i <> b) by (intros K; pose proof (dn_side i _ Vi K Oi); qlra).
      split; [exact (neq_negb _ _ N)|]. exists (estart s f). split; [exact (left_has inp s i _ P Vi Oi)|].
      intros (y & Y1 & Y2 & Y3). assert (Fb : it_ft y = b) by (rewrite Y2; destruct (lft s i), b; cbn; congruence).
      pose proof (item_px stop b y _ EB Y1 Fb Y3). qlra.
    Qed.
    Theorem done_free r : (exists out, In out outs /\ l_from_test out = r /\ l_relation out <> SOVERLAP) \/ queue_rest q = Some r ->
      free inp r.
    Proof.
      intros [(out & I & <- & R)|R]; [exact (em_free _ _ _ _ _ Em out I R)|exact (proj2 (dn_rest r R))].
    Qed.
    Theorem done_subset r : (forall out, In out outs -> l_from_test out = r -> l_relation out = SOVERLAP) -> queue_rest q <> Some r ->
      forall p, side_has inp r p -> side_has inp (negb r) p.
    Proof.
      intros Ho Hr p (x & X1 & X2 & X3). destruct (pc_cover _ _ P x p X1 X3) as (i & Vi & Ei & Oi). fold s in Vi, Ei, Oi.
      assert (Fi : lft s i = r) by (unfold lft; congruence).
      assert (Si : ple (lstart s i) c).
      { apply (sp_left _ _ _ _ _ S i Vi). intros Q. pose proof (dn_unqueued (lstart s i) (EL i) Q eq_refl) as Lt.
        assert (N : lft s i <> b) by (intros K; pose proof (dn_side i _ Vi K (on_segment_start _ _)); qlra).
        apply Hr. destruct (queue_rest q) as [r'|] eqn:E.
        - destruct (dn_rest r' E) as [-> _]. f_equal. rewrite <- Fi. symmetry. exact (neq_negb _ _ N).
        - exfalso. unfold queue_rest in E. destruct (q_queue q) as [|e l]; [destruct Q|discriminate]. }
      destruct (em_out _ _ _ _ _ Em i Vi Si) as (out & Z1 & Z2 & Z3). rewrite Fi in Z2.
      destruct (Z3 (Ho out Z1 Z2)) as (y & Y1 & Y2 & Y3). exists y. split; [exact Y1|]. rewrite <- Fi. split; [exact Y2|exact (Y3 p Oi)].
    Qed.
  End Done.

  Lemma shared_segment : shared inp -> share_segment (side_has inp true) (side_has inp false).
  Proof.
    intros (x & y & p & r & X & Y & Fx & Fy & N & Xp & Xr & Yp & Yr). exists p, r. split; [exact N|]. intros m Hm. split.
    - exists x. split; [exact X|]. split; [exact Fx|]. eapply on_segment_convex; [exact Xp|exact Xr|exact Hm].
    - exists y. split; [exact Y|]. split; [exact Fy|]. eapply on_segment_convex; [exact Yp|exact Yr|exact Hm].
  Qed.
  Lemma segment_avoid eps l a d : tm eps a < tm eps d -> exists m, on_segment a d m /\ ~ In (tm eps m) l.
  Proof.
    intros T. destruct (q_avoid l _ _ T) as (t & T1 & T2 & T3).
    set (D := tm eps d - tm eps a). assert (HD : 0 < D) by (unfold D; qlra).
    set (u := (t - tm eps a) / D). assert (Hu : u * D = t - tm eps a) by (unfold u; field; intros E; rewrite E in HD; qlra).
    assert (E : tm eps (lerp a d u) = t).
    { transitivity (tm eps a + u * D); [unfold D, tm, lerp; cbn; ring|]. rewrite Hu. ring. }
    exists (lerp a d u). rewrite E. split; [|exact T3]. exists u. clearbody u. clear E. unfold D in *.
    split; [|split; [|reflexivity]].
    - destruct (q_trichotomy u 0) as [K|[K|K]]; [exfalso|qlra|qlra]. assert (u * (tm eps d - tm eps a) < 0) by qnra. qlra.
    - destruct (q_trichotomy u 1) as [K|[K|K]]; [qlra|qlra|exfalso].
      assert (0 < (u - 1) * (tm eps d - tm eps a)) by qnra.
      assert ((u - 1) * (tm eps d - tm eps a) = u * (tm eps d - tm eps a) - (tm eps d - tm eps a)) by ring. qlra.
  Qed.

  (* What a sweep finds out about overlaps, common points and inclusions. *)
  Theorem sweep_finds linear stop b fuel outs q' : ends_by stop b -> sweep linear fuel stop (init_state inp) = (outs, Ok q') ->
    ((exists out, In out outs /\ l_relation out <> SDISJOINT) <-> exists p, common inp p)
    /\ ((exists out, In out outs /\ l_relation out = SOVERLAP) <-> share_segment (side_has inp true) (side_has inp false))
    /\ (forall r, (exists out, In out outs /\ l_from_test out = r /\ l_relation out <> SOVERLAP) \/ queue_rest q' = Some r -> free inp r)
    /\ (forall r, (forall out, In out outs -> l_from_test out = r -> l_relation out = SOVERLAP) -> queue_rest q' <> Some r ->
         forall p, side_has inp r p -> side_has inp (negb r) p)
    /\ ((forall out, In out outs -> l_relation out <> SOVERLAP) -> finitely_many (side_has inp true) (side_has inp false)).
  Proof.
    intros EB H. split; [|split].
    - destruct (ordered_exists (candidates inp)) as [eps O].
      destruct (final_done eps linear stop b fuel outs q' O EB H) as (c & L & Dn & Em).
      exact (done_meet eps stop b c q' L O EB Dn outs Em).
    - split.
      + destruct (ordered_exists (candidates inp)) as [eps O].
        destruct (final_done eps linear stop b fuel outs q' O EB H) as (c & L & Dn & Em).
        intros (out & I & R). exact (shared_segment (em_over _ _ _ _ _ Em out I R)).
      + assert (G : forall a d, plt a d -> (forall p, on_segment a d p -> side_has inp true p /\ side_has inp false p) ->
                  exists out, In out outs /\ l_relation out = SOVERLAP).
        { intros a d N Hs. destruct (ordered_exists (a :: d :: candidates inp)) as [eps O].
          assert (T : tm eps a < tm eps d) by (apply (tm_lt eps _ O); [left; reflexivity|right; left; reflexivity|exact N]).
          assert (O' : ordered eps (candidates inp)) by (eapply ordered_incl; [exact O|intros z Z; right; right; exact Z]).
          destruct (final_done eps linear stop b fuel outs q' O' EB H) as (c & L & Dn & Em).
          destruct (segment_avoid eps (map (tm eps) (candidates inp)) a d T) as (m & Hm & Nm).
          exact (done_over eps stop b c q' L O' EB Dn outs Em m (Hs m Hm) Nm). }
        intros (a & d & N & Hs). destruct (plt_total a d) as [K|[K|K]]; [exact (G a d K Hs)|contradiction|].
        apply (G d a K). intros p Hp. apply Hs, on_segment_sym, Hp.
    - destruct (ordered_exists (candidates inp)) as [eps O].
      destruct (final_done eps linear stop b fuel outs q' O EB H) as (c & L & Dn & Em).
      split; [exact (done_free eps stop b c q' L EB Dn outs Em)|].
      split; [exact (done_subset eps stop b c q' L EB Dn outs Em)|].
      intros No. exists (candidates inp). intros p P1 P2. exact (done_finite eps stop b c q' L O EB Dn outs Em p No (conj P1 P2)).
  Qed.
  (* A proper crossing is found, unless an overlap is. *)
  Theorem sweep_crosses linear stop b fuel outs q' : ends_by stop b -> sweep linear fuel stop (init_state inp) = (outs, Ok q') ->
    forall x y p, In x inp -> In y inp -> it_ft x <> it_ft y -> on_item x p -> on_item y p ->
      p <> it_lo x -> p <> it_hi x -> p <> it_lo y -> p <> it_hi y ->
      exists out, In out outs /\ (l_relation out = SCROSS \/ l_relation out = SOVERLAP).
  Proof.
    intros EB H x y p X1 Y1 F X3 Y3 D1 D2 D3 D4. destruct (ordered_exists (candidates inp)) as [eps O].
    destruct (final_done eps linear stop b fuel outs q' O EB H) as (c & L & Dn & Em).
    destruct (done_cross eps stop b c q' L O EB Dn outs Em x y p X1 Y1 F X3 Y3 D1 D2 D3 D4) as (out & I & R). exists out. split; [exact I|].
    destruct (l_relation out); cbn in R; auto; lia.
  Qed.
End Result.
