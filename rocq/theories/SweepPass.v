(* What the sweep that does not look at angles tells about a yielded event that
   crosses: a segment of each side, meeting in one point between their ends. *)
From Coq Require Import QArith Qcanon Lqa List Bool ZArith Lia Permutation.
From Verif Require Import Scalar Base Ground MLinear MSweep MCompound Planar Spec SpecAreas SpecMore RayParity Geom SegProofs
  SweepStore SweepDetect SweepSteps Termination SweepSafe SweepTime SweepOrder SweepMoves SweepAdvance SweepLoop SweepEmit SweepRun SweepFound SweepCross SegEdges SegStraight SegTold SweepAngles SweepSides.
Import ListNotations.
Open Scope Qc_scope.

(** * Points of a line *)
(* [d] lies past [p] as seen from [o]. *)
Definition past (o p d : point) : Prop := exists k, 0 < k /\ px d - px p = k * (px p - px o) /\ py d - py p = k * (py p - py o).
Lemma past_between lo hi c : on_segment lo hi c -> c <> lo -> c <> hi -> past lo c hi.
Proof.
  intros (t & T0 & T1 & E) N1 N2. assert (T0' : 0 < t).
  { destruct (Qclt_le_dec 0 t) as [H|H]; [exact H|exfalso]. assert (Z : t = 0) by qlra. apply N1. rewrite E, Z. apply lerp_0. }
  assert (T1' : t < 1).
  { destruct (Qclt_le_dec t 1) as [H|H]; [exact H|exfalso]. assert (Z : t = 1) by qlra. apply N2. rewrite E, Z. apply lerp_1. }
  assert (X := f_equal px E). assert (Y := f_equal py E). unfold lerp in X, Y; cbn in X, Y. assert (TI : t * / t = 1) by (apply Qcmult_inv_r; intros Q; qlra). revert TI. generalize (/ t) as j. intros j TI.
  assert (J : 0 < j) by qnra. exists ((1 - t) * j). split; [qnra|]. rewrite X, Y. split.
  - transitivity ((1 - t) * (t * j) * (px hi - px lo)); [rewrite TI; ring|ring].
  - transitivity ((1 - t) * (t * j) * (py hi - py lo)); [rewrite TI; ring|ring].
Qed.
Lemma past_way o p d h : past o p h -> same_way p h d -> past o p d.
Proof.
  intros (k & K & X & Y) (l & L & X' & Y'). exists (l * k). split; [qnra|]. rewrite X', Y', X, Y. split; ring.
Qed.
Lemma past_same o p d h : past o p h -> past o p d -> same_way p h d.
Proof.
  intros (k & K & X & Y) (l & L & X' & Y'). assert (KI : k * / k = 1) by (apply Qcmult_inv_r; intros Q; qlra). revert KI. generalize (/ k) as j. intros j KI.
  assert (J : 0 < j) by qnra. exists (l * j). split; [qnra|]. rewrite X', Y', X, Y. split.
  - transitivity (l * (k * j) * (px p - px o)); [rewrite KI; ring|ring].
  - transitivity (l * (k * j) * (py p - py o)); [rewrite KI; ring|ring].
Qed.
Lemma lerp_cross a b s t u : cross (lerp a b s) (lerp a b t) (lerp a b u) = 0.
Proof. unfold cross, lerp; cbn. ring. Qed.
Lemma segment_cross a b p q r : on_segment a b p -> on_segment a b q -> on_segment a b r -> cross p q r = 0.
Proof. intros (s & _ & _ & ->) (t & _ & _ & ->) (u & _ & _ & ->). apply lerp_cross. Qed.
(* A segment through [c] along the line to [z] has points towards [z]. *)
Lemma towards lo hi c z : on_segment lo hi c -> c <> lo -> c <> hi -> z <> c -> cross c z lo = 0 -> exists d, d <> c /\ on_segment c z d /\ on_segment lo hi d.
Proof.
  intros Oc N1 N2 Nz C. destruct (collinear_times c z lo Nz C) as (k & KX & KY).
  assert (KN : k <> 0) by (intros Q; rewrite Q in *; apply N1; apply pt_eq; qlra).
  assert (G : exists h, (h = lo \/ h = hi) /\ same_way c z h).
  { destruct (Qclt_le_dec 0 k) as [K|K]; [exists lo; split; [left; reflexivity|]; exists k; auto|].
    exists hi. split; [right; reflexivity|]. destruct (past_between lo hi c Oc N1 N2) as (l & L & LX & LY). exists (l * - k).
    assert (K' : 0 < - k) by (destruct (q_trichotomy k 0) as [Q|[Q|Q]]; [qlra|congruence|qlra]). split; [qnra|]. rewrite LX, LY.
    split; [transitivity (l * - (px lo - px c)); [ring|rewrite KX; ring]|transitivity (l * - (py lo - py c)); [ring|rewrite KY; ring]]. }
  destruct G as (h & Hh & W). destruct (same_way_point c z h Nz W) as (d & D1 & D2 & D3). exists d. split; [exact D1|]. split; [exact D2|].
  apply (on_segment_convex _ _ c h); [exact Oc| |exact D3]. destruct Hh as [-> | ->]; [apply on_segment_start|apply on_segment_end].
Qed.

(* Two segments that meet in one point, which is between the ends of both. *)
Definition proper_at (x y : item) (p : point) : Prop :=
  on_item x p /\ on_item y p /\ p <> it_lo x /\ p <> it_hi x /\ p <> it_lo y /\ p <> it_hi y /\ forall d, on_item x d -> on_item y d -> d = p.

Section Pass.
  Variable (eps : Qc) (inp : list item).
  Hypothesis (O : ordered eps (candidates inp)) (IO : items_ok inp) (AP : apart inp).
  Definition proper (b : bool) : Prop := exists x y p, In x inp /\ In y inp /\ it_ft x = b /\ it_ft y = negb b /\ proper_at x y p.
  (* The other side has a segment past [p] as seen from [o]. *)
  Definition goes_on (b : bool) (o p : point) : Prop := exists y d, In y inp /\ it_ft y = negb b /\ on_item y p /\ on_item y d /\ past o p d.
  Record passing (linear : bool) (B : point -> Prop) (s : store) (acc : list levent) : Prop := {
    ps_em : emitted eps inp B s acc;
    ps_rl : linear = false -> forall i, (i < nl s)%nat -> rl s i = SCROSS -> proper (lft s i);
    ps_out : linear = false -> forall out, In out acc -> l_relation out = SCROSS -> proper (l_from_test out);
    ps_cross : forall e f, valid_ref s e -> valid_ref s f -> estart s e = estart s f -> efrom_test s e <> efrom_test s f ->
      estart s e <> eoriginal_start s e -> estart s f <> eoriginal_start s f -> B (estart s e) ->
      exists out, In out acc /\ l_from_test out = efrom_test s e /\ (2 <= srel_val (l_relation out))%nat
        /\ (l_relation out = SOVERLAP -> goes_on (efrom_test s e) (eoriginal_start s e) (estart s e))
  }.
  Lemma passing_weaken linear (B B' : point -> Prop) s acc : (forall e, valid_ref s e -> B' (estart s e) -> B (estart s e)) -> passing linear B s acc -> passing linear B' s acc.
  Proof using Type.
    intros H [E1 E2 E3 E4]. constructor; [exact (emitted_weaken eps inp B B' s acc H E1)|exact E2|exact E3|].
    intros e f Ve Vf Ee Ne Oe Of Be. apply (E4 e f Ve Vf Ee Ne Oe Of). apply H; assumption.
  Qed.
  Lemma passing_event linear c q q' acc : derived c q q' -> passing linear (fun p => plt p c) (q_store q) acc -> passing linear (fun p => plt p c) (q_store q') acc.
  Proof using Type.
    intros D [E1 E2 E3 E4]. set (s := q_store q) in *. set (s' := q_store q') in *. pose proof (de_keeps _ _ _ D) as K. fold s s' in K.
    constructor; [exact (emitted_event eps inp c q q' acc D E1)| |exact E3|].
    - intros LF i V R. destruct (Nat.lt_ge_cases i (nl s)) as [H|H].
      + unfold lft. rewrite (kp_orig _ _ K i H). apply (E2 LF i H). rewrite <- R. symmetry. exact (de_rel _ _ _ D i H).
      + destruct (de_new _ _ _ D i H V) as (k & X1 & X2 & X3 & _). fold s s' in X1, X2, X3. unfold lft. rewrite X3. apply (E2 LF k X1). unfold rl in *. congruence.
    - assert (OldR : forall e, valid_ref s' e -> plt (estart s' e) c -> valid_ref s e).
      { intros e Ve Be. destruct (valid_dec s e) as [Z|Z]; [exact Z|]. exfalso. destruct (de_refn _ _ _ D e Ve Z) as [Z1 _]. exact (ple_not_plt _ _ Z1 Be). }
      intros e f Ve Vf Ee Ne Oe Of Be. pose proof (OldR e Ve Be) as Ve'. pose proof (OldR f Vf ltac:(rewrite <- Ee; exact Be)) as Vf'.
      destruct (de_ref _ _ _ D e Ve') as (X1 & X2 & _), (de_ref _ _ _ D f Vf') as (Y1 & Y2 & _).
      pose proof (de_eorig _ _ _ D e Ve') as X3. pose proof (de_eorig _ _ _ D f Vf') as Y3. fold s s' in X1, X2, X3, Y1, Y2, Y3.
      rewrite X1 in Ee, Be, Oe. rewrite Y1 in Ee, Of. rewrite X2, Y2 in Ne. rewrite X3 in Oe. rewrite Y3 in Of. rewrite X1, X2, X3. exact (E4 e f Ve' Vf' Ee Ne Oe Of Be).
  Qed.

  Section Leave.
    Variable (linear : bool) (c : point) (s : store) (queue : list eref) (L : list nat) (same : list eref)
             (acc : list levent) (s' : store) (outs : list levent).
    Hypothesis (St : stage eps inp c (QS s queue) L) (Gr : group c (QS s queue) same).
    Hypothesis Nx : queue = [] \/ exists c', In c' (candidates inp) /\ plt c c' /\ forall f, In f queue -> ple c' (estart s f).
    Hypothesis (Lv : leave linear s same = (s', outs)).
    Hypothesis Ps : passing linear (fun p => plt p c) s acc.
    Let S : swept eps inp c (QS s queue) L := proj1 St.
    Let P : pieces inp s := sp_pieces _ _ _ _ _ S.
    Let W : wf s := pc_wf _ _ P.
    Let Same := lv_same inp c s queue same Gr Nx.
    Let Em := ps_em _ _ _ _ Ps.
    (* The other end of the piece. *)
    Lemma ps_far e : In e same -> exists z, z <> c /\ on_left s (left_of s e) z /\ on_left s (left_of s e) c
      /\ (c <> eoriginal_start s e -> past (eoriginal_start s e) c z).
    Proof using St Gr Nx IO.
      intros I. pose proof (lv_left eps inp c s queue L same St Gr e I) as V. pose proof (lv_start eps inp c s queue L same St Gr Nx e I) as [Oc _].
      pose proof (th_pos eps inp IO c s queue L same St Gr Nx e I) as (X1 & X2 & X3 & X4 & X5). set (x := orig s (left_of s e)) in *.
      pose proof (IO x X1) as Lx. pose proof (pc_lt _ _ P _ V) as Lt. pose proof (pc_start _ _ P _ V) as OS. pose proof (pc_end _ _ P _ V) as OE.
      apply Same in I. destruct I as [Ve Ee]. destruct e as [i|j]; cbn [left_of valid_ref estart is_left] in *.
      - change (lstart s i = c) in Ee. exists (lend s i). split; [intros E; rewrite Ee, E in Lt; exact (plt_irrefl _ Lt)|]. split; [apply on_segment_end|]. split; [exact Oc|].
        rewrite X5. intros N. apply (past_way _ _ _ (it_hi x)); [exact (past_between _ _ _ X3 N X4)|]. apply (onward _ _ c (lend s i) Lx X3 OE). rewrite <- Ee. exact Lt.
      - destruct (wf_l _ W j Ve) as [R1 R2]. assert (Z : lend s (r_left (gr s j)) = c) by (unfold lend; rewrite R2; exact Ee).
        exists (lstart s (r_left (gr s j))). split; [intros E; rewrite Z, E in Lt; exact (plt_irrefl _ Lt)|]. split; [apply on_segment_start|]. split; [exact Oc|].
        rewrite X5. intros N. apply (past_way _ _ _ (it_lo x)); [exact (past_between _ _ _ (on_segment_sym _ _ _ X3) N X4)|].
        apply (onward _ _ c (lstart s (r_left (gr s j))) Lx X3 OS). rewrite <- Z. exact Lt.
    Qed.
    (* A piece along which the other side goes is known to overlap. *)
    Lemma ps_near e y d : In e same -> In y inp -> it_ft y <> efrom_test s e -> on_item y c -> on_item y d -> d <> c -> on_left s (left_of s e) d ->
      rl s' (left_of s e) = SOVERLAP.
    Proof.
      intros Ie Iy Fy Yc Yd Nd Od. pose proof (lv_left eps inp c s queue L same St Gr e Ie) as V.
      pose proof (lv_start eps inp c s queue L same St Gr Nx e Ie) as [Oc Lc]. rewrite lft_efrom in Fy.
      assert (Se := Ie). apply Same in Ie. destruct Ie as [Ve Ee]. set (i := left_of s e) in *.
      pose proof (proj1 (on_left_time eps inp s O P IO i d V) Od) as (D0 & D1 & D2).
      pose proof (proj1 (on_left_time eps inp s O P IO i c V) Oc) as (C0 & C1 & C2).
      assert (TN : tm eps d <> tm eps c) by (intros E; apply Nd, (tm_py_eq eps); [exact E|congruence]).
      assert (Fin : forall m, on_left s i m -> on_item y m -> (forall k, (k < nl s)%nat -> i <> k -> on_left s k m -> ends_left s i m \/ twin eps s i k) -> ~ ends_left s i m -> rl s' i = SOVERLAP).
      { intros m Om Ym Cl Ne. destruct (pc_cover _ _ P y m Iy Ym) as (k & Vk & Ek & Ok).
        assert (N : i <> k) by (intros E; apply Fy; unfold lft; rewrite E, Ek; reflexivity).
        destruct (Cl k Vk N Ok) as [Z|Z]; [contradiction|]. exact (lv_tw eps inp O IO AP linear c s queue L same acc s' outs St Gr Nx Lv Em i k V Vk Z Lc). }
      destruct (q_trichotomy (tm eps d) (tm eps c)) as [T|[T|T]]; [|contradiction|].
      - destruct (q_between _ _ T) as (t & T1 & T2). destruct (SweepSides.at_time eps d c t T1 T2) as (m & M1 & M2).
        apply (Fin m); [exact (on_segment_convex _ _ _ _ _ Od Oc M1)|exact (on_segment_convex _ _ _ _ _ Yd Yc M1)| |].
        + intros k Vk N Ok. destruct (sp_clean _ _ _ _ _ S i k m V Vk N) as [[A _]|[A _]]; [exact (on_segment_convex _ _ _ _ _ Od Oc M1)|exact Ok|rewrite M2; exact T2|left; exact A|right; exact A].
        + intros [->|E]; [unfold t0 in D0; qlra|]. rewrite E in M2. unfold t1 in C1. qlra.
      - assert (Ei : lstart s i = c).
        { destruct e as [k|j]; [exact Ee|exfalso]. cbn [left_of valid_ref estart] in *. destruct (wf_l _ W j Ve) as [R1 R2].
          assert (Z : lend s i = c) by (unfold i; cbn [left_of]; unfold lend; rewrite R2; exact Ee). unfold t1 in D1. rewrite Z in D1. qlra. }
        pose proof (lv_in eps inp c s queue L St Nx i V Ei) as Ii. apply (sp_line _ _ _ _ _ S i V) in Ii. destruct Ii as [_ Qi]. cbn [q_store q_queue] in Qi.
        pose proof Nx as [E|(c' & Kc & Lt & AQ)]; [rewrite E in Qi; destruct Qi|].
        assert (T' : tm eps c < tm eps c') by (apply (tm_lt eps _ O); [exact (sp_c _ _ _ _ _ S)|exact Kc|exact Lt]).
        destruct (near_above [tm eps c'] _ _ T) as (t & T1 & T2 & T3). specialize (T3 _ (or_introl eq_refl) T'). destruct (SweepSides.at_time eps c d t T1 T2) as (m & M1 & M2).
        apply (Fin m); [exact (on_segment_convex _ _ _ _ _ Oc Od M1)|exact (on_segment_convex _ _ _ _ _ Yc Yd M1)| |].
        + intros k Vk N Ok.
          destruct (adv_clean eps inp O IO AP c c' _ L S (proj1 (proj2 St)) Kc Lt AQ i k m V Vk N (on_segment_convex _ _ _ _ _ Oc Od M1) Ok ltac:(rewrite M2; exact T3)) as [[A _]|[A _]]; [left; exact A|right; exact A].
        + intros [E|E]; [rewrite E, Ei in M2; qlra|]. rewrite E in M2. unfold t1 in D1. qlra.
    Qed.
    Lemma ps_leave e : linear = false -> In e same -> rl s' (left_of s e) = SCROSS -> proper (efrom_test s e).
    Proof.
      intros LF I R. destruct (group_lefts eps inp c _ L same S Gr) as [N V]. cbn [q_store] in N, V.
      assert (K : rl s (left_of s e) = SCROSS \/ exists f, In f same /\ f <> e /\ pair_rel s e f = SCROSS).
      { destruct (leave_spec linear s same s' outs Lv N V) as (_ & _ & _ & H3 & _). assert (Lv' := Lv). rewrite LF in Lv'. unfold leave in Lv'.
        destruct (complete_spec same s s' outs Lv' N V) as (_ & _ & _ & Y4).
        assert (Z : (2 <= rv s' (left_of s e))%nat) by (unfold rv; rewrite R; cbn; lia). apply (Y4 e 2%nat I) in Z.
        assert (NO : rl s' (left_of s e) <> SOVERLAP) by congruence. destruct Z as [Z|(f & If & Nf & Z)]; [left|right].
        - unfold rv in Z. destruct (rl s (left_of s e)) eqn:Q; cbn in Z; try lia; [reflexivity|]. exfalso. apply NO, (H3 e I). left. exact Q.
        - exists f. split; [exact If|]. split; [exact Nf|]. destruct (pair_rel s e f) eqn:Q; cbn in Z; try lia; [reflexivity|]. exfalso. apply NO, (H3 e I). right. exists f. auto. }
      destruct K as [K|(f & If & Nf & K)]; [rewrite lft_efrom; exact (ps_rl _ _ _ _ Ps LF _ (V e I) K)|].
      unfold pair_rel in K. destruct (Bool.eqb (efrom_test s f) (efrom_test s e)) eqn:Qf; [discriminate|]. apply eqb_false_iff in Qf.
      destruct (_ && _); [discriminate|].
      destruct (pt_eqb_spec (estart s e) (eoriginal_start s e)) as [|Ne]; [discriminate|].
      destruct (pt_eqb_spec (estart s f) (eoriginal_start s f)) as [|Nf']; [discriminate|].
      destruct (th_pos eps inp IO c s queue L same St Gr Nx e I) as (X1 & X2 & X3 & X4 & X5). destruct (th_pos eps inp IO c s queue L same St Gr Nx f If) as (Y1 & Y2 & Y3 & Y4 & Y5).
      destruct (ps_far e I) as (z & Z1 & Z2 & Z3 & _). pose proof (pieces_on inp s _ z P (V e I) Z2) as Xz.
      assert (Ee := proj2 (proj1 (Same e) I)). assert (Ef := proj2 (proj1 (Same f) If)). rewrite Ee, X5 in Ne. rewrite Ef, Y5 in Nf'.
      set (x := orig s (left_of s e)) in *. set (y := orig s (left_of s f)) in *.
      assert (XE : c <> it_lo x /\ c <> it_hi x) by (destruct (is_left e); auto). assert (YE : c <> it_lo y /\ c <> it_hi y) by (destruct (is_left f); auto).
      exists x, y, c. split; [exact X1|]. split; [exact Y1|]. split; [exact X2|]. split; [rewrite Y2; exact (neq_negb _ _ Qf)|].
      split; [exact X3|]. split; [exact Y3|]. split; [apply XE|]. split; [apply XE|]. split; [apply YE|]. split; [apply YE|].
      intros d Xd Yd. destruct (pt_eqb_spec d c) as [E|Nd]; [exact E|exfalso].
      destruct (collinear_times c z d Z1 (segment_cross _ _ _ _ _ X3 Xz Xd)) as (k & KX & KY).
      destruct (collinear_times c d (it_lo y) Nd (segment_cross _ _ _ _ _ Y3 Yd (on_segment_start _ _))) as (l & LX & LY).
      destruct (towards (it_lo y) (it_hi y) c z Y3 (proj1 YE) (proj2 YE) Z1) as (d' & D1 & D2 & D3).
      { unfold cross. rewrite LX, LY, KX, KY. ring. }
      assert (R' : rl s' (left_of s e) = SOVERLAP); [|congruence].
      apply (ps_near e y d' I Y1); [congruence|exact Y3|exact D3|exact D1|]. exact (on_segment_convex _ _ _ _ _ Z3 Z2 D2).
    Qed.
    Lemma passing_leave : passing linear (fun p => ple p c) s' (acc ++ outs).
    Proof.
      pose proof (lv_geo eps inp linear c s queue L same s' outs St Gr Lv) as Ge.
      destruct (group_lefts eps inp c _ L same S Gr) as [N V]. cbn [q_store] in N, V. destruct (leave_spec linear s same s' outs Lv N V) as (Ro & Eo & H1 & _).
      assert (Ft : forall i, lft s' i = lft s i) by (intros i; unfold lft; rewrite (geo_orig_eq Ge); reflexivity).
      constructor.
      - exact (lv_emitted eps inp O IO AP linear c s queue L same acc s' outs St Gr Nx Lv Em).
      - intros LF i Vi R. rewrite (sg_len _ _ Ge) in Vi. rewrite Ft. destruct (in_dec Nat.eq_dec i (map (left_of s) same)) as [I|I].
        + apply in_map_iff in I. destruct I as (e & <- & I). rewrite <- lft_efrom. exact (ps_leave e LF I R).
        + rewrite (H1 i I) in R. exact (ps_rl _ _ _ _ Ps LF i Vi R).
      - intros LF out I R. rewrite in_app_iff in I. destruct I as [I|I]; [exact (ps_out _ _ _ _ Ps LF out I R)|].
        rewrite Eo in I. apply in_map_iff in I. destruct I as (e & <- & I). rewrite <- orig_ft. fold (lft s' (left_of s e)). rewrite Ft, <- lft_efrom. exact (ps_leave e LF I R).
      - intros e f Ve Vf Ee Ne Oe Of B. rewrite (geo_eorig _ _ _ Ge) in Oe. rewrite (geo_eorig _ _ _ Ge) in Of. rewrite (geo_eorig _ _ _ Ge). rewrite !(geo_estart Ge) in *. rewrite !(geo_efrom_test Ge) in *.
        apply (valid_ref_geo _ _ _ (same_geo_sym _ _ Ge)) in Ve, Vf. destruct B as [B|B].
        + destruct (ps_cross _ _ _ _ Ps e f Ve Vf Ee Ne Oe Of B) as (out & Z1 & Z2). exists out. rewrite in_app_iff. auto.
        + assert (Ie : In e same) by (apply Same; split; assumption).
          assert (If : In f same) by (apply Same; split; [assumption|congruence]).
          exists (gl s' (left_of s e)). split; [apply in_app_iff; right; rewrite Eo; apply in_map_iff; exists e; auto|].
          split; [rewrite <- orig_ft; fold (lft s' (left_of s e)); rewrite Ft, <- lft_efrom; reflexivity|]. split.
          * eapply Nat.le_trans; [|exact (leave_pair linear s same s' outs Lv N V e f Ie If ltac:(congruence))].
            unfold pair_rel. destruct (Bool.eqb (efrom_test s f) (efrom_test s e)) eqn:Q; [apply eqb_prop in Q; congruence|].
            destruct (_ && _); [cbn; lia|].
            destruct (pt_eqb_spec (estart s e) (eoriginal_start s e)); [contradiction|].
            destruct (pt_eqb_spec (estart s f) (eoriginal_start s f)); [contradiction|]. cbn. lia.
          * intros R. change (rl s' (left_of s e) = SOVERLAP) in R.
            destruct (lv_ro eps inp linear c s queue L same acc s' outs St Gr Lv Em _ (V e Ie) R) as (y & Y1 & Y2 & Y3).
            destruct (ps_far e Ie) as (z & Z1 & Z2 & Z3 & Z4). exists y, z. rewrite B. split; [exact Y1|]. split; [rewrite lft_efrom; exact Y2|].
            split; [exact (Y3 c Z3)|]. split; [exact (Y3 z Z2)|]. apply Z4. rewrite <- B. exact Oe.
    Qed.
  End Leave.
End Pass.

(* Twins have two points in common. *)
Lemma twin_points eps inp s i k : ordered eps (candidates inp) -> items_ok inp -> pieces inp s -> (i < nl s)%nat -> (k < nl s)%nat -> twin eps s i k ->
  exists a b, a <> b /\ on_item (orig s i) a /\ on_item (orig s k) a /\ on_item (orig s i) b /\ on_item (orig s k) b.
Proof.
  intros O IO P.
  assert (G : forall i k, (i < nl s)%nat -> (k < nl s)%nat -> twin eps s i k -> t1 eps s i <= t1 eps s k ->
    exists a b, a <> b /\ on_item (orig s i) a /\ on_item (orig s k) a /\ on_item (orig s i) b /\ on_item (orig s k) b).
  { clear i k. intros i k Vi Vk (T1 & T2 & T3) Le.
    assert (OS : on_left s k (lstart s i)) by (rewrite T1; apply on_segment_start).
    assert (OE : on_left s k (lend s i)).
    { apply (on_left_time eps inp s O P IO k _ Vk). assert (Z := start_end_time eps inp s O P i Vi).
      split; [unfold t0 in *; rewrite <- T1; unfold t1 in Z; qlra|]. split; [exact Le|]. rewrite (end_val eps inp s O P IO i Vi). apply same_line_val, T2. }
    exists (lstart s i), (lend s i). split; [exact (plt_neq _ _ (pc_lt _ _ P i Vi))|].
    split; [exact (pieces_on inp s i _ P Vi (on_segment_start _ _))|]. split; [exact (pieces_on inp s k _ P Vk OS)|].
    split; [exact (pieces_on inp s i _ P Vi (on_segment_end _ _))|exact (pieces_on inp s k _ P Vk OE)]. }
  intros Vi Vk T. destruct (Qclt_le_dec (t1 eps s k) (t1 eps s i)) as [H|H].
  - destruct (G k i Vk Vi) as (a & b & A); [|qlra|exists a, b; tauto]. destruct T as (A & B & C). split; [congruence|]. split; [apply same_line_sym, B|congruence].
  - exact (G i k Vi Vk T H).
Qed.

Theorem sweep_passes inp linear stop b fuel outs q' : items_ok inp -> apart inp -> ends_by inp stop b ->
  sweep linear fuel stop (init_state inp) = (outs, Ok q') ->
  (linear = false -> forall out, In out outs -> l_relation out = SCROSS -> proper inp (l_from_test out))
  /\ forall x y p, In x inp -> In y inp -> it_ft x <> it_ft y -> proper_at x y p ->
       (forall y', In y' inp -> it_ft y' = it_ft y -> on_item y' p -> y' = y) ->
       exists out, In out outs /\ l_from_test out = it_ft x /\ l_relation out = SCROSS.
Proof.
  intros IO AP EB H. destruct (ordered_exists (candidates inp)) as [eps O].
  assert (R : exists c, passing eps inp linear (fun p => ple p c) (q_store q') outs /\ exists L, done inp eps stop c q' L).
  { destruct (run_sweep eps inp O IO AP linear (fun c q L same acc => passing eps inp linear (fun p => plt p c) (q_store q) acc)) with (stop := stop) (fuel := fuel) (outs := outs) (q' := q')
      as (c & s & L & same & acc & o & Fi).
    - intros c s queue L start same0 same e w' acc St Gr Pk Ec Th Ev St' D. exact (passing_event eps inp linear c _ _ acc D Th).
    - intros c c' s queue L same acc s' o St Gr Lt AQ (f & If & Ef) Lv St' Th. cbn [q_store] in *.
      assert (Kc : In c' (candidates inp)) by (exact (sp_c _ _ _ _ _ (proj1 St'))).
      assert (Nx : queue = [] \/ exists c', In c' (candidates inp) /\ plt c c' /\ forall f, In f queue -> ple c' (estart s f)) by (right; exists c'; auto).
      pose proof (passing_leave eps inp O IO AP linear c s queue L same acc s' o St Gr Nx Lv Th) as E.
      pose proof (lv_geo eps inp linear c s queue L same s' o St Gr Lv) as Ge.
      apply (passing_weaken eps inp linear (fun p => ple p c)); [|exact E]. cbv beta.
      intros e V B. destruct (in_queue e queue) as [Q|Q].
      + exfalso. rewrite (geo_estart Ge) in B. exact (ple_not_plt _ _ (AQ e Q) B).
      + pose proof (sp_pieces _ _ _ _ _ (proj1 St)) as P. pose proof (pc_wf _ _ P) as W. cbn [q_store] in *.
        rewrite (geo_estart Ge). apply (valid_ref_geo _ _ _ (same_geo_sym _ _ Ge)) in V.
        destruct e as [i|j]; cbn [valid_ref estart] in *; [exact (sp_left _ _ _ _ _ (proj1 St) i V Q)|].
        destruct (wf_l _ W j V) as [R1 R2]. pose proof (sp_right _ _ _ _ _ (proj1 St) _ R1) as Z. cbn [q_store q_queue] in Z.
        unfold lend in Z. rewrite R2 in Z. exact (Z Q).
    - destruct EB as [(x & Ix & _) _]. intros E. rewrite E in Ix. destruct Ix.
    - intros e Pk. pose proof (stage_init eps inp O IO AP e Pk) as St. set (c := estart _ e) in *.
      set (s := q_store (init_state inp)) in *.
      assert (F : forall i, (i < nl s)%nat -> ple c (lstart s i)).
      { intros i V. apply (sp_queue _ _ _ _ _ (proj1 St) (EL i)). apply init_in_queue. exact V. }
      pose proof (sp_pieces _ _ _ _ _ (proj1 St)) as P. fold s in P.
      split.
      + destruct EB as [(x & Ix & Fx) HB]. specialize (HB x Ix Fx).
        destruct (pc_cover _ _ P x (it_lo x) Ix (on_segment_start _ _)) as (i & Vi & Ei & Oi).
        assert (Z : ple c (it_hi x)).
        { eapply ple_trans; [exact (F i Vi)|]. apply (on_segment_order _ _ _ (pc_lt _ _ P i Vi)) in Oi. destruct Oi as (_ & Z & _).
          eapply ple_trans; [exact Z|]. left. exact (IO x Ix). }
        destruct Z as [[Z|[Z _]]|Z]; [qlra|rewrite Z; exact HB|rewrite Z; exact HB].
      + constructor; [apply init_emitted; assumption| |intros _ out []|].
        * intros _ i V R. exfalso. unfold rl, s in R. unfold s in V. rewrite init_nl in V. rewrite (init_gl inp i V) in R. discriminate.
        * intros f g V _ _ _ _ _ Bf. exfalso. fold s in V, Bf. destruct f as [i|j]; cbn [valid_ref estart] in *; [exact (ple_not_plt _ _ (F i V) Bf)|].
          destruct (wf_l _ (pc_wf _ _ P) j V) as [R1 R2]. apply (ple_not_plt _ _ (F _ R1)). eapply plt_trans; [exact (pc_lt _ _ P _ R1)|]. unfold lend. rewrite R2. exact Bf.
    - exact H.
    - destruct Fi as [St Gr Th Lv Eo Px Sp].
      pose proof (sp_pieces _ _ _ _ _ (proj1 St)) as P. cbn [q_store] in *. pose proof (pc_wf _ _ P) as W.
      assert (VQ : forall e, In e (q_queue q') -> valid_ref s e) by (intros e; apply (qo_valid _ (sp_qok _ _ _ _ _ (proj1 St)))).
      assert (KQ : forall e, valid_ref s e -> In (estart s e) (candidates inp)).
      { intros e V. destruct e as [i|j]; cbn [valid_ref estart] in *; [exact (pc_start_in _ _ P i V)|].
        destruct (wf_l _ W j V) as [R1 R2]. pose proof (pc_end_in _ _ P _ R1) as Z. unfold lend in Z. rewrite R2 in Z. exact Z. }
      assert (Nx : q_queue q' = [] \/ exists c', In c' (candidates inp) /\ plt c c' /\ forall f, In f (q_queue q') -> ple c' (estart s f)).
      { destruct Sp as [Sp|(e & Pk & Lt)]; [left; exact Sp|right]. exists (estart s e). split; [apply KQ, VQ; eapply q_peek_in; exact Pk|].
        split; [left; qlra|]. intros f If. apply key_le_ple. eapply q_peek_key; eassumption. }
      exists c. split; [rewrite Eo; exact (passing_leave eps inp O IO AP linear c s _ L same acc _ o St Gr Nx Lv Th)|].
      pose proof (lv_geo eps inp linear c s _ L same _ o St Gr Lv) as Ge. exists L. constructor.
      + apply (stage_geo eps inp c (QS s (q_queue q'))); [|exact St]. exists (q_store q'). split; [exact Ge|]. destruct q'; reflexivity.
      + destruct Sp as [Sp|(e & Pk & Lt)]; [left; exact Sp|right]. exists e. rewrite (q_peek_geo _ _ _ Ge), !(geo_estart Ge).
        split; [exact Pk|]. split; [exact Lt|]. split; [left; qlra|]. split; [apply KQ, VQ; eapply q_peek_in; exact Pk|].
        intros f If. rewrite (geo_estart Ge). apply key_le_ple. eapply q_peek_key; eassumption. }
  destruct R as (c & Ps & L & Dn). split; [intros LF; exact (ps_out _ _ _ _ _ _ Ps LF)|].
  intros x y p X1 Y1 F (X3 & Y3 & Dx1 & Dx2 & Dy1 & Dy2 & Only) Sole.
  pose proof (sp_pieces _ _ _ _ _ (proj1 (dn_stage _ _ _ _ _ _ Dn))) as P. pose proof (pc_wf _ _ P) as W. set (s := q_store q') in *.
  destruct (pc_cover _ _ P x p X1 X3) as (i & Vi & Ei & Oi). destruct (pc_cover _ _ P y p Y1 Y3) as (k & Vk & Ek & Ok).
  assert (Fi : lft s i <> lft s k) by (unfold lft; rewrite Ei, Ek; exact F).
  assert (NT : ~ twin eps s i k).
  { intros T. destruct (twin_points eps inp s i k O IO P Vi Vk T) as (a & b' & N & A1 & A2 & A3 & A4). rewrite Ei in A1, A3. rewrite Ek in A2, A4.
    apply N. transitivity p; [exact (Only a A1 A2)|symmetry; exact (Only b' A3 A4)]. }
  assert (Cl : ends_left s i p /\ ends_left s k p /\ ple p c).
  { assert (K : lft s k = b \/ lft s i = b) by (destruct (lft s i), (lft s k), b; auto; congruence). destruct K as [K|K].
    - destruct (dn_clean inp IO AP eps stop b c q' L O EB Dn i k p Vi Vk Fi K Oi Ok) as [A|[A _]]; [exact A|contradiction].
    - destruct (dn_clean inp IO AP eps stop b c q' L O EB Dn k i p Vk Vi (fun E => Fi (eq_sym E)) K Ok Oi) as [A|[A _]]; [tauto|].
      exfalso. apply NT. destruct A as (A & B & C). split; [symmetry; exact A|]. split; [apply same_line_sym, B|intros E; apply C; symmetry; exact E]. }
  destruct Cl as (A & B & C).
  assert (Ev : forall j z, (j < nl s)%nat -> In z inp -> on_item z p -> orig s j = z -> ends_left s j p -> p <> it_lo z -> p <> it_hi z ->
    exists e h, valid_ref s e /\ estart s e = p /\ efrom_test s e = lft s j /\ estart s e <> eoriginal_start s e
      /\ (h = it_lo z \/ h = it_hi z) /\ h <> p /\ past (eoriginal_start s e) p h).
  { intros j z V Iz Oz <- E D1 D2. destruct (wf_r _ W j V) as [R1 R2]. destruct E as [E|E].
    - exists (EL j), (it_hi (orig s j)). split; [exact V|]. split; [symmetry; exact E|]. split; [apply lft_efrom|]. cbn [estart eoriginal_start]. fold (lstart s j). rewrite <- E.
      split; [exact D1|]. split; [right; reflexivity|]. split; [congruence|]. exact (past_between _ _ _ Oz D1 D2).
    - exists (ER (l_right (gl s j))), (it_lo (orig s j)). split; [exact R1|]. split; [symmetry; exact E|]. split; [rewrite lft_efrom; cbn [left_of]; rewrite R2; reflexivity|].
      cbn [estart eoriginal_start]. split; [change (lend s j <> loriginal_end s j); rewrite <- E; exact D2|]. split; [left; reflexivity|]. split; [congruence|].
      exact (past_between _ _ _ (on_segment_sym _ _ _ Oz) D2 D1). }
  destruct (Ev i x Vi X1 X3 Ei A Dx1 Dx2) as (e & h & Ve & Ee & Fe & De & Hh & Nh & Ph), (Ev k y Vk Y1 Y3 Ek B Dy1 Dy2) as (f & h' & Vf & Ef & Ff & Df & _).
  destruct (ps_cross _ _ _ _ _ _ Ps e f Ve Vf) as (out & I & Fo & Ro & Go); [congruence|congruence|exact De|exact Df|rewrite Ee; exact C|].
  exists out. split; [exact I|]. split; [rewrite Fo, Fe; unfold lft; rewrite Ei; reflexivity|].
  destruct (l_relation out) eqn:Q; cbn in Ro; try lia; [reflexivity|exfalso].
  destruct (Go eq_refl) as (y' & d & Y1' & Y2' & Y3' & Y4' & Pd). rewrite Ee in Y3', Pd.
  assert (Ey : y' = y).
  { apply Sole; [exact Y1'| |exact Y3']. rewrite Y2', Fe. unfold lft. rewrite Ei. destruct (it_ft x), (it_ft y); cbn; congruence. }
  rewrite Ey in Y3', Y4'. destruct (same_way_point p h d Nh (past_same _ _ _ _ Ph Pd)) as (m & M1 & M2 & M3).
  apply M1. apply Only.
  - apply (on_segment_convex _ _ p h); [exact X3| |exact M2]. destruct Hh as [-> | ->]; [apply on_segment_start|apply on_segment_end].
  - exact (on_segment_convex _ _ _ _ _ Y3' Y4' M3).
Qed.
