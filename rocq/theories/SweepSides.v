(* When the sweep over segments finds a crossing: at a common point the test has
   branches on both sides of the two branches of the goal. *)
From Coq Require Import QArith Qcanon Lqa List Bool ZArith Lia Permutation.
From Verif Require Import Scalar Base Ground MLinear MSweep MCompound Planar Spec SpecAreas SpecMore RayParity Geom SegProofs
  SweepStore SweepDetect SweepSteps Termination SweepSafe SweepTime SweepOrder SweepMoves SweepAdvance SweepLoop SweepEmit SweepRun SweepFound SweepCross SegEdges SegStraight SegTold SweepAngles.
Import ListNotations.
Open Scope Qc_scope.

Lemma same_way_point p u w : u <> p -> same_way p u w -> exists d, d <> p /\ on_segment p u d /\ on_segment p w d.
Proof.
  intros N (k & K & X & Y). destruct (Qclt_le_dec 1 k) as [H|H].
  - exists u. split; [exact N|]. split; [apply on_segment_end|]. assert (KI : k * / k = 1) by (apply Qcmult_inv_r; intros Q; qlra). revert KI. generalize (/ k) as j. intros j KI.
    exists j. split; [qnra|]. split; [qnra|]. apply pt_eq; unfold lerp; cbn; [rewrite X|rewrite Y].
    + transitivity (px p + k * j * (px u - px p)); [rewrite KI; ring|ring].
    + transitivity (py p + k * j * (py u - py p)); [rewrite KI; ring|ring].
  - exists w. split; [exact (same_way_neq p u w N (ex_intro _ k (conj K (conj X Y))))|]. split; [|apply on_segment_end].
    exists k. split; [qlra|]. split; [exact H|]. apply pt_eq; unfold lerp; cbn; [rewrite <- X|rewrite <- Y]; ring.
Qed.
Lemma onward lo hi c z : plt lo hi -> on_segment lo hi c -> on_segment lo hi z -> (plt c z -> same_way c hi z) /\ (plt z c -> same_way c lo z).
Proof.
  intros L (a & A0 & A1 & EC) (b & B0 & B1 & EZ).
  assert (X := f_equal px EC). assert (Y := f_equal py EC). assert (X' := f_equal px EZ). assert (Y' := f_equal py EZ). unfold lerp in X, Y, X', Y'; cbn in X, Y, X', Y'. clear EC EZ.
  assert (M : forall a b p q p' q', plt lo hi -> p = px lo + a * (px hi - px lo) -> q = py lo + a * (py hi - py lo) -> p' = px lo + b * (px hi - px lo) -> q' = py lo + b * (py hi - py lo) ->
    (p < p' \/ p = p' /\ q < q') -> a < b).
  { clear. intros a b p q p' q' L X Y X' Y' H. destruct (Qclt_le_dec a b) as [K|K]; [exact K|exfalso].
    assert (DX : 0 <= px hi - px lo) by (destruct L as [L|[L _]]; [qlra|rewrite L; qlra]). assert (QX : b * (px hi - px lo) <= a * (px hi - px lo)) by qnra.
    destruct H as [H|[H H']]; [qlra|]. destruct L as [L|[L L']].
    - assert (Q : (a - b) * (px hi - px lo) = 0). { transitivity (a * (px hi - px lo) - b * (px hi - px lo)); [ring|qlra]. } q_integral Q; [|qlra]. assert (E : a = b) by qlra. rewrite E in *. qlra.
    - assert (QY : b * (py hi - py lo) <= a * (py hi - py lo)) by qnra. qlra. }
  split; intros P.
  - assert (AB : a < b) by (apply (M a b _ _ _ _ L X Y X' Y'); exact P). assert (AI : (1 - a) * / (1 - a) = 1) by (apply Qcmult_inv_r; intros Q; qlra). revert AI. generalize (/ (1 - a)) as j. intros j AI.
    assert (J : 0 < j) by qnra. exists ((b - a) * j). split; [qnra|]. rewrite X, X', Y, Y'. split.
    + transitivity ((b - a) * ((1 - a) * j) * (px hi - px lo)); [rewrite AI; ring|ring].
    + transitivity ((b - a) * ((1 - a) * j) * (py hi - py lo)); [rewrite AI; ring|ring].
  - assert (AB : b < a) by (apply (M b a _ _ _ _ L X' Y' X Y); exact P). assert (AI : a * / a = 1) by (apply Qcmult_inv_r; intros Q; qlra). revert AI. generalize (/ a) as j. intros j AI.
    assert (J : 0 < j) by qnra. exists ((a - b) * j). split; [qnra|]. rewrite X, X', Y, Y'. split.
    + transitivity (- ((a - b) * (a * j)) * (px hi - px lo)); [rewrite AI; ring|ring].
    + transitivity (- ((a - b) * (a * j)) * (py hi - py lo)); [rewrite AI; ring|ring].
Qed.
Lemma near_above (l : list Qc) a b : a < b -> exists t, a < t /\ t < b /\ forall x, In x l -> a < x -> t < x.
Proof.
  intros H. induction l as [|u l IH].
  - destruct (q_between a b H) as (t & T1 & T2). exists t. split; [exact T1|]. split; [exact T2|]. intros x [].
  - destruct IH as (t & T1 & T2 & F). destruct (Qclt_le_dec a u) as [K|K].
    + destruct (Qclt_le_dec t u) as [Q|Q].
      * exists t. split; [exact T1|]. split; [exact T2|]. intros x [<-|I] L; [exact Q|exact (F x I L)].
      * destruct (q_between a u K) as (t' & P1 & P2). exists t'. split; [exact P1|]. split; [qlra|]. intros x [<-|I] L; [exact P2|]. assert (Z := F x I L). qlra.
    + exists t. split; [exact T1|]. split; [exact T2|]. intros x [<-|I] L; [qlra|exact (F x I L)].
Qed.
Lemma near_below (l : list Qc) a b : a < b -> exists t, a < t /\ t < b /\ forall x, In x l -> x < b -> x < t.
Proof.
  intros H. destruct (near_above (map Qcopp l) (- b) (- a)) as (t & T1 & T2 & F); [qlra|]. exists (- t). split; [qlra|]. split; [qlra|].
  intros x I L. assert (Z := F (- x) (in_map Qcopp l x I) ltac:(qlra)). qlra.
Qed.
(* A point of the segment at a given time. *)
Lemma at_time eps a d t : tm eps a < t -> t < tm eps d -> exists m, on_segment a d m /\ tm eps m = t.
Proof.
  intros T1 T2. assert (DI : (tm eps d - tm eps a) * / (tm eps d - tm eps a) = 1) by (apply Qcmult_inv_r; intros Q; qlra). revert DI. generalize (/ (tm eps d - tm eps a)) as j. intros j DI.
  assert (J : 0 < j) by qnra. exists (lerp a d ((t - tm eps a) * j)). split.
  - exists ((t - tm eps a) * j). split; [qnra|]. split; [|reflexivity]. assert (E : (t - tm eps a) * j + (tm eps d - t) * j = 1) by (transitivity ((tm eps d - tm eps a) * j); [ring|exact DI]).
    assert (0 <= (tm eps d - t) * j) by qnra. qlra.
  - transitivity (tm eps a + (t - tm eps a) * ((tm eps d - tm eps a) * j)); [unfold tm, lerp; cbn; ring|]. rewrite DI. ring.
Qed.

Section Sides.
  Variable (eps : Qc) (inp : list item).
  Hypothesis (O : ordered eps (candidates inp)) (IO : items_ok inp) (AP : apart inp).
  Hypothesis NS : ~ shared inp.
  Definition branch (b : bool) (p z : point) : Prop :=
    exists x, In x inp /\ it_ft x = b /\ on_item x p /\ z <> p /\ (z = it_lo x \/ z = it_hi x).
  Definition sides (p : point) : Prop := exists u w q r, branch false p u /\ branch false p w /\ u <> w /\ branch true p q /\ branch true p r
    /\ angle_in p u w q <> angle_in p u w r.
  Definition thin : Prop := forall p u v w, side_has inp true p -> branch false p u -> branch false p v -> branch false p w -> u = v \/ v = w \/ u = w.
  Hypothesis TH : thin.
  Lemma branch_neq b p z : branch b p z -> z <> p.
  Proof using Type. intros (x & _ & _ & _ & N & _). exact N. Qed.
  Lemma branch_on b p z d : branch b p z -> on_segment p z d -> exists x, In x inp /\ it_ft x = b /\ on_item x p /\ on_item x d /\ (z = it_lo x \/ z = it_hi x).
  Proof using Type.
    intros (x & I & F & Op & _ & E) D. exists x. repeat (split; [assumption|]). split; [|exact E].
    apply (on_segment_convex _ _ p z); [exact Op| |exact D]. destruct E as [-> | ->]; [apply on_segment_start|apply on_segment_end].
  Qed.
  Lemma other_sides p z y : branch true p z -> branch false p y -> ~ same_way p z y.
  Proof using NS.
    intros B B' W. destruct (same_way_point p z y (branch_neq _ _ _ B) W) as (d & N & D1 & D2).
    destruct (branch_on _ _ _ _ B D1) as (x & X1 & X2 & X3 & X4 & _). destruct (branch_on _ _ _ _ B' D2) as (x' & Y1 & Y2 & Y3 & Y4 & _).
    apply NS. exists x, x', p, d. split; [exact X1|]. split; [exact Y1|]. split; [exact X2|]. split; [exact Y2|]. split; [congruence|]. auto.
  Qed.
  Lemma same_side b p z y : branch b p z -> branch b p y -> z <> y -> ~ same_way p z y.
  Proof using IO AP.
    intros B B' N W. destruct (same_way_point p z y (branch_neq _ _ _ B) W) as (d & ND & D1 & D2).
    destruct (branch_on _ _ _ _ B D1) as (x & X1 & X2 & X3 & X4 & X5). destruct (branch_on _ _ _ _ B' D2) as (x' & Y1 & Y2 & Y3 & Y4 & Y5).
    destruct (item_eq_dec x x') as [<-|D].
    - destruct W as (k & K & KX & KY). destruct X3 as (t & T0 & T1 & E). assert (X := f_equal px E). assert (Y := f_equal py E). unfold lerp in X, Y; cbn in X, Y.
      assert (L := plt_neq _ _ (IO x X1)). assert (NP := branch_neq _ _ _ B). assert (NP' := branch_neq _ _ _ B'). clear B B' X4 Y4 D1 D2 ND Y3 E. revert L X Y X5 Y5. generalize (it_lo x) as lo, (it_hi x) as hi. intros lo hi L X Y X5 Y5.
      assert (G : forall m, m <> 0 -> m * (px hi - px lo) = 0 -> m * (py hi - py lo) = 0 -> False).
      { intros m M Q1 Q2. apply L. q_integral Q1; [contradiction|]. q_integral Q2; [contradiction|]. apply pt_eq; qlra. }
      assert (KT : 0 <= k * t) by qnra. assert (KT' : 0 <= k * (1 - t)) by qnra.
      destruct X5 as [-> | ->], Y5 as [-> | ->]; try congruence.
      + apply (G (1 - t + k * t)); [|rewrite X in KX|rewrite Y in KY].
        * intros Q. assert (Z : t = 1) by qlra. rewrite Z in Q. qlra.
        * transitivity ((px hi - (px lo + t * (px hi - px lo))) - k * (px lo - (px lo + t * (px hi - px lo)))); [ring|]. rewrite KX. ring.
        * transitivity ((py hi - (py lo + t * (py hi - py lo))) - k * (py lo - (py lo + t * (py hi - py lo)))); [ring|]. rewrite KY. ring.
      + apply (G (t + k * (1 - t))); [|rewrite X in KX|rewrite Y in KY].
        * intros Q. assert (Z : t = 0) by qlra. rewrite Z in Q. qlra.
        * transitivity (k * (px hi - (px lo + t * (px hi - px lo))) - (px lo - (px lo + t * (px hi - px lo)))); [ring|]. rewrite KX. ring.
        * transitivity (k * (py hi - (py lo + t * (py hi - py lo))) - (py lo - (py lo + t * (py hi - py lo)))); [ring|]. rewrite KY. ring.
    - apply ND. symmetry. exact (apart_pair inp x x' AP X1 Y1 D ltac:(congruence) p d X3 Y3 X4 Y4).
  Qed.
  (* Twins overlap. *)
  Lemma twin_shared s i k : pieces inp s -> (i < nl s)%nat -> (k < nl s)%nat -> twin eps s i k -> False.
  Proof using O IO NS.
    intros P.
    assert (G : forall i k, (i < nl s)%nat -> (k < nl s)%nat -> twin eps s i k -> t1 eps s i <= t1 eps s k -> False).
    { clear i k. intros i k Vi Vk (T1 & T2 & T3) Le. apply NS.
      assert (OS : on_left s k (lstart s i)) by (rewrite T1; apply on_segment_start).
      assert (OE : on_left s k (lend s i)).
      { apply (on_left_time eps inp s O P IO k _ Vk). assert (Z := start_end_time eps inp s O P i Vi).
        split; [unfold t0 in *; rewrite <- T1; unfold t1 in Z; qlra|]. split; [exact Le|]. rewrite (end_val eps inp s O P IO i Vi). apply same_line_val, T2. }
      pose proof (pieces_on inp s i _ P Vi (on_segment_start _ _)) as A. pose proof (pieces_on inp s i _ P Vi (on_segment_end _ _)) as B.
      pose proof (pieces_on inp s k _ P Vk OS) as A'. pose proof (pieces_on inp s k _ P Vk OE) as B'.
      pose proof (plt_neq _ _ (pc_lt _ _ P i Vi)) as Ne. pose proof (pc_orig _ _ P i Vi) as X. pose proof (pc_orig _ _ P k Vk) as Y.
      destruct (l_from_test (gl s i)) eqn:Fi, (l_from_test (gl s k)) eqn:Fk; try congruence.
      - exists (orig s i), (orig s k), (lstart s i), (lend s i). unfold orig in *; cbn [it_ft] in *. auto 10.
      - exists (orig s k), (orig s i), (lstart s i), (lend s i). unfold orig in *; cbn [it_ft] in *. auto 10. }
    intros Vi Vk T. destruct (Qclt_le_dec (t1 eps s k) (t1 eps s i)) as [H|H].
    - apply (G k i Vk Vi); [|qlra]. destruct T as (A & B & C). split; [congruence|]. split; [apply same_line_sym, B|congruence].
    - exact (G i k Vi Vk T H).
  Qed.

  Record sided (B : point -> Prop) (s : store) (acc : list levent) : Prop := {
    sd_rl : forall i, (i < nl s)%nat -> rl s i = SCROSS -> exists p, sides p;
    sd_out : forall out, In out acc -> l_relation out = SCROSS -> exists p, sides p;
    sd_found : forall e, valid_ref s e -> B (estart s e) -> sides (estart s e) -> exists out, In out acc /\ (2 <= srel_val (l_relation out))%nat
  }.
  Lemma sided_weaken (B B' : point -> Prop) s acc : (forall e, valid_ref s e -> B' (estart s e) -> B (estart s e)) -> sided B s acc -> sided B' s acc.
  Proof using Type. intros H [E1 E2 E3]. constructor; [exact E1|exact E2|]. intros e V Be. apply E3; [exact V|]. apply H; assumption. Qed.
  Lemma sided_event c q q' acc : derived c q q' -> sided (fun p => plt p c) (q_store q) acc -> sided (fun p => plt p c) (q_store q') acc.
  Proof using Type.
    intros D [E1 E2 E3]. set (s := q_store q) in *. set (s' := q_store q') in *. constructor; [|exact E2|].
    - intros i V R. destruct (Nat.lt_ge_cases i (nl s)) as [H|H].
      + apply (E1 i H). rewrite <- R. symmetry. exact (de_rel _ _ _ D i H).
      + destruct (de_new _ _ _ D i H V) as (k & X1 & X2 & _). fold s s' in X1, X2. apply (E1 k X1). unfold rl in *. congruence.
    - intros e V Be H. assert (V' : valid_ref s e).
      { destruct (valid_dec s e) as [Z|Z]; [exact Z|]. exfalso. destruct (de_refn _ _ _ D e V Z) as [Z1 _]. exact (ple_not_plt _ _ Z1 Be). }
      destruct (de_ref _ _ _ D e V') as (X1 & _). fold s s' in X1. rewrite X1 in Be, H. exact (E3 e V' Be H).
  Qed.

  Section Leave.
    Variable (c : point) (s : store) (queue : list eref) (L : list nat) (same : list eref)
             (acc : list levent) (s' : store) (outs : list levent).
    Hypothesis (St : stage eps inp c (QS s queue) L) (Gr : group c (QS s queue) same).
    Hypothesis Nx : queue = [] \/ exists c', In c' (candidates inp) /\ plt c c' /\ forall f, In f queue -> ple c' (estart s f).
    Hypothesis (Lv : leave true s same = (s', outs)).
    Hypothesis Sd : sided (fun p => plt p c) s acc.
    Let S : swept eps inp c (QS s queue) L := proj1 St.
    Let P : pieces inp s := sp_pieces _ _ _ _ _ S.
    Let W : wf s := pc_wf _ _ P.
    Let Same := lv_same inp c s queue same Gr Nx.
    Definition far (e : eref) : point := if is_left e then it_hi (orig s (left_of s e)) else it_lo (orig s (left_of s e)).
    Lemma far_branch e : In e same -> branch (efrom_test s e) c (far e) /\ same_way c (far e) (eend s e).
    Proof.
      intros I. destruct (th_pos eps inp IO c s queue L same St Gr Nx e I) as (X1 & X2 & X3 & X4 & _). assert (V := lv_left eps inp c s queue L same St Gr e I).
      set (x := orig s (left_of s e)) in *. split.
      - exists x. repeat (split; [assumption|]). unfold far. fold x. split; [congruence|]. destruct (is_left e); auto.
      - apply Same in I. destruct I as [Ve Ee]. pose proof (pc_lt _ _ P _ V) as Lt. pose proof (pc_start _ _ P _ V) as OS. pose proof (pc_end _ _ P _ V) as OE. fold x in OS, OE. pose proof (IO x X1) as Lx.
        unfold far. fold x. destruct e as [i|j]; cbn [left_of valid_ref estart eend is_left] in *.
        + apply (onward _ _ c (lend s i) Lx X3 OE). rewrite <- Ee. exact Lt.
        + destruct (wf_l _ W j Ve) as [R1 R2]. assert (Z : lend s (r_left (gr s j)) = c) by (unfold lend; rewrite R2; exact Ee).
          apply (onward _ _ c (lstart s (r_left (gr s j))) Lx X3 OS). rewrite <- Z. exact Lt.
    Qed.
    Lemma far_inj e f : In e same -> In f same -> efrom_test s e = efrom_test s f -> far e = far f -> e = f.
    Proof.
      intros Ie If F E. destruct (th_pos eps inp IO c s queue L same St Gr Nx e Ie) as (X1 & X2 & X3 & X4 & _). destruct (th_pos eps inp IO c s queue L same St Gr Nx f If) as (Y1 & Y2 & Y3 & Y4 & _).
      unfold far in E. set (x := orig s (left_of s e)) in *. set (y := orig s (left_of s f)) in *.
      assert (OX : on_item x (if is_left e then it_hi x else it_lo x)) by (destruct (is_left e); [apply on_segment_end|apply on_segment_start]).
      assert (OY : on_item y (if is_left f then it_hi y else it_lo y)) by (destruct (is_left f); [apply on_segment_end|apply on_segment_start]).
      destruct (item_eq_dec x y) as [D|D].
      2:{ exfalso. apply X4. apply (apart_pair inp x y AP X1 Y1 D ltac:(congruence)); [exact X3|exact Y3|exact OX|rewrite E; exact OY]. }
      pose proof (plt_neq _ _ (IO x X1)) as Nlh. assert (LE : is_left e = is_left f) by (rewrite <- D in E; destruct (is_left e), (is_left f); congruence).
      pose proof (lv_left eps inp c s queue L same St Gr _ Ie) as Vi. pose proof (lv_left eps inp c s queue L same St Gr _ If) as Vk.
      apply Same in Ie, If. destruct Ie as [Ve Ee], If as [Vf Ef].
      destruct e as [i|j], f as [k|l]; cbn [is_left left_of valid_ref estart] in *; try discriminate LE.
      - destruct (Nat.eq_dec i k) as [->|Nik]; [reflexivity|]. exfalso. change (lstart s i = c) in Ee. change (lstart s k = c) in Ef.
        pose proof (pc_lt _ _ P i Vi) as Li. pose proof (pc_lt _ _ P k Vk) as Lk.
        destruct (sp_part _ _ _ _ _ S i k Vi Vk Nik D) as [Z|Z]; cbn [q_store] in Z; apply (ple_not_plt _ _ Z); congruence.
      - destruct (wf_l _ W j Ve) as [_ Rj]. destruct (wf_l _ W l Vf) as [_ Rl].
        destruct (Nat.eq_dec (r_left (gr s j)) (r_left (gr s l))) as [Q|Nik]; [f_equal; rewrite <- Rj, <- Rl, Q; reflexivity|]. exfalso.
        assert (Ej : lend s (r_left (gr s j)) = c) by (unfold lend; rewrite Rj; exact Ee).
        assert (El : lend s (r_left (gr s l)) = c) by (unfold lend; rewrite Rl; exact Ef).
        pose proof (pc_lt _ _ P _ Vi) as Li. pose proof (pc_lt _ _ P _ Vk) as Lk.
        destruct (sp_part _ _ _ _ _ S _ _ Vi Vk Nik D) as [Z|Z]; cbn [q_store] in Z; apply (ple_not_plt _ _ Z); congruence.
    Qed.
    (* Pieces that meet here end here. *)
    Lemma clean_here i k : (i < nl s)%nat -> (k < nl s)%nat -> i <> k -> on_left s i c -> on_left s k c -> ends_left s i c.
    Proof.
      intros Vi Vk N Oi Ok. destruct Nx as [E|(c' & Kc & Lt & AQ)].
      - right. assert (Ei : ple (lend s i) c) by (apply (sp_right _ _ _ _ _ S i Vi); cbn [q_queue]; rewrite E; intros []).
        apply (on_segment_order _ _ _ (pc_lt _ _ P i Vi)) in Oi. destruct Oi as (_ & _ & Z). destruct Z as [Z|Z]; [exfalso; exact (ple_not_plt _ _ Ei Z)|exact Z].
      - pose proof St as (_ & G & _). assert (T : tm eps c < tm eps c') by (apply (tm_lt eps _ O); [exact (sp_c _ _ _ _ _ S)|exact Kc|exact Lt]).
        destruct (adv_clean eps inp O IO AP c c' (QS s queue) L S G Kc Lt AQ i k c Vi Vk N Oi Ok T) as [[A _]|[A _]]; [exact A|]. exfalso. exact (twin_shared s i k P Vi Vk A).
    Qed.
    Lemma far_all b z : common inp c -> branch b c z -> exists e, In e same /\ efrom_test s e = b /\ far e = z.
    Proof.
      intros Cm (x & X1 & X2 & X3 & X4 & X5).
      assert (Y : exists y, In y inp /\ it_ft y = negb b /\ on_item y c) by (destruct Cm as [Ct Cf]; destruct b; [exact Cf|exact Ct]). destruct Y as (y & Y1 & Y2 & Y3).
      destruct (pc_cover _ _ P y c Y1 Y3) as (k & Vk & Ek & Ok).
      pose proof (sp_c _ _ _ _ _ S) as Kc. pose proof (lo_hi_time eps inp O IO x X1) as Tx. pose proof (proj1 (on_item_time eps x c Tx) X3) as (Tc0 & Tc1 & Tc2).
      assert (NE : forall i, orig s i = x -> i <> k) by (intros i E ->; rewrite Ek in E; destruct b; cbn in *; congruence).
      assert (OC : forall i, (i < nl s)%nat -> orig s i = x -> t0 eps s i <= tm eps c -> tm eps c <= t1 eps s i -> ends_left s i c).
      { intros i Vi Ei L0 L1. apply (clean_here i k Vi Vk (NE i Ei)); [|exact Ok]. apply (on_left_time eps inp s O P IO i c Vi). rewrite Ei. auto. }
      assert (TE : forall q, In q (candidates inp) -> tm eps q = tm eps c -> q = c) by (intros q Iq E; exact (tm_eq eps _ O _ _ Iq Kc E)).
      destruct X5 as [EZ|EZ].
      - (* towards the start *)
        assert (Lz : tm eps (it_lo x) < tm eps c).
        { destruct (q_trichotomy (tm eps (it_lo x)) (tm eps c)) as [H|[H|H]]; [exact H| |exfalso; qlra]. exfalso. apply X4. rewrite EZ. apply TE; [apply candidate_lo; exact X1|exact H]. }
        destruct (near_below (map (tm eps) (candidates inp)) _ _ Lz) as (t & T1 & T2 & F).
        destruct (at_time eps (it_lo x) c t T1 T2) as (m & Om & Em).
        assert (Oxm : on_item x m) by (apply (on_segment_convex _ _ (it_lo x) c); [apply on_segment_start|exact X3|exact Om]).
        destruct (pc_cover _ _ P x m X1 Oxm) as (i & Vi & Ei & Oi). destruct (proj1 (on_left_time eps inp s O P IO i m Vi) Oi) as (M0 & M1 & _). rewrite Em in M0, M1.
        assert (E1 : tm eps c <= t1 eps s i).
        { destruct (Qclt_le_dec (t1 eps s i) (tm eps c)) as [H|H]; [exfalso|exact H]. assert (Z := F (t1 eps s i) (in_map _ _ _ (pc_end_in _ _ P i Vi)) H). qlra. }
        destruct (OC i Vi Ei) as [H|H]; [qlra|exact E1|exfalso; unfold t0 in M0; rewrite <- H in M0; qlra|].
        destruct (wf_r _ W i Vi) as [R1 R2]. exists (ER (l_right (gl s i))). split; [apply Same; split; [exact R1|symmetry; exact H]|].
        unfold far. rewrite lft_efrom. unfold lft. cbn [is_left left_of]. rewrite R2, Ei. auto.
      - assert (Lz : tm eps c < tm eps (it_hi x)).
        { destruct (q_trichotomy (tm eps c) (tm eps (it_hi x))) as [H|[H|H]]; [exact H| |exfalso; qlra]. exfalso. apply X4. rewrite EZ. apply TE; [apply candidate_hi; exact X1|congruence]. }
        destruct (near_above (map (tm eps) (candidates inp)) _ _ Lz) as (t & T1 & T2 & F).
        destruct (at_time eps c (it_hi x) t T1 T2) as (m & Om & Em).
        assert (Oxm : on_item x m) by (apply (on_segment_convex _ _ c (it_hi x)); [exact X3|apply on_segment_end|exact Om]).
        destruct (pc_cover _ _ P x m X1 Oxm) as (i & Vi & Ei & Oi). destruct (proj1 (on_left_time eps inp s O P IO i m Vi) Oi) as (M0 & M1 & _). rewrite Em in M0, M1.
        assert (E1 : t0 eps s i <= tm eps c).
        { destruct (Qclt_le_dec (tm eps c) (t0 eps s i)) as [H|H]; [exfalso|exact H]. assert (Z := F (t0 eps s i) (in_map _ _ _ (pc_start_in _ _ P i Vi)) H). qlra. }
        destruct (OC i Vi Ei) as [H|H]; [exact E1|qlra| |exfalso; unfold t1 in M1; rewrite <- H in M1; qlra].
        exists (EL i). split; [apply Same; split; [exact Vi|symmetry; exact H]|].
        unfold far. rewrite lft_efrom. unfold lft. cbn [is_left left_of]. rewrite Ei. auto.
    Qed.
    Lemma sides_common p : sides p -> common inp p.
    Proof. intros (u & w & q & r & (x & X1 & X2 & X3 & _) & _ & _ & (y & Y1 & Y2 & Y3 & _) & _). split; [exists y; auto|exists x; auto]. Qed.
    Lemma leave_angles : (sides c /\ forall k, In k (map (left_of s) same) -> rv (detect_crossing_angles s same) k = Nat.max (rv s k) 2)
      \/ (~ sides c /\ detect_crossing_angles s same = s).
    Proof.
      assert (V : forall e, In e same -> (left_of s e < nl s)%nat) by exact (lv_left eps inp c s queue L same St Gr).
      assert (GI : forall e, In e (filter (fun e => negb (efrom_test s e)) same) <-> In e same /\ efrom_test s e = false) by (intros e; rewrite filter_In, negb_true_iff; reflexivity).
      assert (ND : NoDup (filter (fun e => negb (efrom_test s e)) same)) by (apply NoDup_filter; exact (proj1 Gr)).
      assert (TWO : sides c -> exists gu gw, In gu (filter (fun e => negb (efrom_test s e)) same) /\ In gw (filter (fun e => negb (efrom_test s e)) same) /\ gu <> gw).
      { intros H. assert (Cm := sides_common c H). destruct H as (u & w & _ & _ & BU & BW & N & _).
        destruct (far_all false u Cm BU) as (gu & Iu & Fu & Eu). destruct (far_all false w Cm BW) as (gw & Iw & Fw & Ew). exists gu, gw. rewrite !GI. repeat split; try assumption. congruence. }
      assert (OFF : filter (efrom_test s) same = [] -> ~ sides c /\ detect_crossing_angles s same = s).
      { intros E. split.
        - intros H. assert (Cm := sides_common c H). destruct H as (_ & _ & q & _ & _ & _ & _ & BQ & _). destruct (far_all true q Cm BQ) as (e & I & F & _).
          assert (K : In e (filter (efrom_test s) same)) by (rewrite filter_In; auto). rewrite E in K. destruct K.
        - unfold detect_crossing_angles. cbv zeta. rewrite E. cbn [length]. destruct (Nat.ltb (length same) 4); reflexivity. }
      destruct (filter (fun e => negb (efrom_test s e)) same) as [|g0 [|g1 [|g2 gs]]] eqn:EG.
      - right. split; [intros H; destruct (TWO H) as (_ & _ & [] & _)|]. apply angles_few. rewrite EG. cbn. lia.
      - right. split; [intros H; destruct (TWO H) as (a & b & [A|[]] & [B|[]] & N); congruence|]. apply angles_few. rewrite EG. cbn. lia.
      - assert (N01 : g0 <> g1) by (inversion ND as [|? ? H _]; subst; intros ->; apply H; left; reflexivity).
        destruct (proj1 (GI g0) (or_introl eq_refl)) as [I0 F0]. destruct (proj1 (GI g1) (or_intror (or_introl eq_refl))) as [I1 F1].
        destruct (far_branch g0 I0) as [B0 W0]. destruct (far_branch g1 I1) as [B1 W1]. rewrite F0 in B0. rewrite F1 in B1.
        assert (NF : far g0 <> far g1) by (intros Q; apply N01, far_inj; congruence).
        assert (Gd : ~ same_way c (far g0) (far g1)) by exact (same_side false c _ _ B0 B1 NF).
        assert (Td : forall e, In e same -> efrom_test s e = true -> ~ same_way c (far g0) (far e) /\ ~ same_way c (far g1) (far e)).
        { intros e I F. destruct (far_branch e I) as [B _]. rewrite F in B. split; intros Q; [exact (other_sides c _ _ B B0 (same_way_sym _ _ _ Q))|exact (other_sides c _ _ B B1 (same_way_sym _ _ _ Q))]. }
        assert (EW : forall a b, In a same -> In b same -> same_way c (eend s a) (eend s b) -> same_way c (far a) (far b)).
        { intros a b Ia Ib Q. apply (same_way_trans c _ (eend s a)); [apply far_branch, Ia|]. apply (same_way_trans c _ (eend s b)); [exact Q|]. apply same_way_sym, far_branch, Ib. }
        assert (PS : parted_events s same c g0 g1 <-> sides c).
        { assert (AI : forall e, In e same -> angle_in c (eend s g0) (eend s g1) (eend s e) = angle_in c (far g0) (far g1) (far e)) by (intros e I; apply angle_in_ways; [exact W0|exact W1|apply far_branch, I]).
          split.
          - intros (e & f & Ie & If & Fe & Ff & N). rewrite !AI in N by assumption. exists (far g0), (far g1), (far e), (far f). split; [exact B0|]. split; [exact B1|]. split; [exact NF|].
            destruct (far_branch e Ie) as [Be _]. destruct (far_branch f If) as [Bf _]. rewrite Fe in Be. rewrite Ff in Bf. auto.
          - intros H. assert (Cm := sides_common c H). destruct H as (u & w & q & r & BU & BW & N & BQ & BR & D).
            destruct (far_all true q Cm BQ) as (e & Ie & Fe & Ee). destruct (far_all true r Cm BR) as (f & If & Ff & Ef).
            destruct (far_all false u Cm BU) as (gu & Iu & Fu & Eu). destruct (far_all false w Cm BW) as (gw & Iw & Fw & Ew).
            exists e, f. repeat (split; [assumption|]). rewrite !AI by assumption. rewrite <- Ee, <- Ef, <- Eu, <- Ew in D.
            assert (Ju : In gu [g0; g1]) by (apply GI; auto). assert (Jw : In gw [g0; g1]) by (apply GI; auto).
            destruct Ju as [<-|[<-|[]]], Jw as [<-|[<-|[]]]; [congruence|exact D| |congruence].
            intros Q. apply D. destruct (Td e Ie Fe) as [Te0 Te1]. destruct (Td f If Ff) as [Tf0 Tf1].
            assert (NQ : forall z b, branch b c z -> z <> c) by (intros z b; apply branch_neq).
            rewrite !(angle_in_swap c (far g0) (far g1)); [rewrite Q; reflexivity| | | | | | | | | | | |]; try assumption; try (eapply NQ; eassumption).
            + rewrite Ef. exact (NQ _ _ BR). + rewrite Ee. exact (NQ _ _ BQ). }
        destruct (angles_raise s same c g0 g1 V) as [[H1 H2]|[H1 H2]].
        + intros e I. apply Same in I. apply I.
        + intros e I. destruct (far_branch e I) as [B Wy]. exact (same_way_neq c _ _ (branch_neq _ _ _ B) Wy).
        + exact EG.
        + intros Q. apply Gd, EW; assumption.
        + intros e I F. destruct (Td e I F) as [T0 T1]. split; intros Q; [apply T0|apply T1]; apply EW; assumption.
        + left. split; [apply PS, H1|exact H2].
        + right. split; [rewrite <- PS; exact H1|exact H2].
      - right. destruct (filter (efrom_test s) same) as [|e es] eqn:ET; [exact (OFF eq_refl)|exfalso].
        assert (Ie : In e (filter (efrom_test s) same)) by (rewrite ET; left; reflexivity). rewrite filter_In in Ie. destruct Ie as [Ie Fe].
        destruct (far_branch e Ie) as [(x & X1 & X2 & X3 & _) _]. rewrite Fe in X2.
        destruct (proj1 (GI g0) (or_introl eq_refl)) as [I0 F0]. destruct (proj1 (GI g1) (or_intror (or_introl eq_refl))) as [I1 F1]. destruct (proj1 (GI g2) (or_intror (or_intror (or_introl eq_refl)))) as [I2 F2].
        destruct (far_branch g0 I0) as [B0 _]. destruct (far_branch g1 I1) as [B1 _]. destruct (far_branch g2 I2) as [B2 _]. rewrite F0 in B0. rewrite F1 in B1. rewrite F2 in B2.
        inversion ND as [|? ? H0 ND1]; subst. inversion ND1 as [|? ? H1 _]; subst.
        destruct (TH c (far g0) (far g1) (far g2)) as [Q|[Q|Q]]; [exists x; auto|exact B0|exact B1|exact B2| | |]; apply far_inj in Q; try congruence; subst.
        + apply H0. left. reflexivity. + apply H1. left. reflexivity. + apply H0. right. left. reflexivity.
    Qed.
    (* Both segments pass through the point. *)
    Lemma mid_sides x y : In x inp -> In y inp -> it_ft x = true -> it_ft y = false -> on_item x c -> on_item y c ->
      c <> it_lo x -> c <> it_hi x -> c <> it_lo y -> c <> it_hi y -> sides c.
    Proof.
      intros X1 Y1 X2 Y2 X3 Y3 D1 D2 D3 D4.
      assert (BU : branch false c (it_lo y)) by (exists y; repeat (split; [congruence || assumption|]); auto).
      assert (BW : branch false c (it_hi y)) by (exists y; repeat (split; [congruence || assumption|]); auto).
      assert (BQ : branch true c (it_lo x)) by (exists x; repeat (split; [congruence || assumption|]); auto).
      assert (BR : branch true c (it_hi x)) by (exists x; repeat (split; [congruence || assumption|]); auto).
      assert (NY := plt_neq _ _ (IO y Y1)). assert (NX := plt_neq _ _ (IO x X1)).
      exists (it_lo y), (it_hi y), (it_lo x), (it_hi x). split; [exact BU|]. split; [exact BW|]. split; [exact NY|]. split; [exact BQ|]. split; [exact BR|].
      assert (Z : cross c (it_lo y) (it_hi y) = 0) by (replace (cross c (it_lo y) (it_hi y)) with (cross (it_lo y) (it_hi y) c) by (unfold cross; ring); exact (on_segment_cross _ _ _ Y3)).
      assert (ZX : cross c (it_lo x) (it_hi x) = 0) by (replace (cross c (it_lo x) (it_hi x)) with (cross (it_lo x) (it_hi x) c) by (unfold cross; ring); exact (on_segment_cross _ _ _ X3)).
      assert (Gd := same_side false c _ _ BU BW NY). assert (Gx := same_side true c _ _ BQ BR NX).
      assert (N : cross c (it_lo y) (it_lo x) <> 0).
      { apply (off_line c (it_lo y) (it_hi y)); auto; try congruence; intros Q; apply same_way_sym in Q; revert Q; apply other_sides; assumption. }
      destruct (opposite c (it_lo x) (it_hi x)) as (k & K & KX & KY); [congruence|congruence|exact ZX|exact Gx|].
      destruct (cross_times c _ _ (it_lo y) k KX KY) as [_ T]. unfold angle_in. rewrite Z, !(ltb_f _ _ (Qcle_refl 0)), T.
      destruct (mul_sign k (cross c (it_lo y) (it_lo x)) K) as (M1 & M2 & _).
      destruct (q_trichotomy (cross c (it_lo y) (it_lo x)) 0) as [H|[H|H]]; [|contradiction|].
      - rewrite (ltb_f _ _ (Qclt_le_weak _ _ H)). rewrite ltb_t; [discriminate|]. apply M1, H.
      - rewrite (ltb_t _ _ H). rewrite ltb_f; [discriminate|]. apply Qclt_le_weak, M2, H.
    Qed.
    Lemma inner_item e : In e same -> estart s e <> eoriginal_start s e -> exists x, In x inp /\ it_ft x = efrom_test s e /\ on_item x c /\ c <> it_lo x /\ c <> it_hi x.
    Proof.
      intros I N. destruct (th_pos eps inp IO c s queue L same St Gr Nx e I) as (X1 & X2 & X3 & X4 & X5). apply Same in I. destruct I as [_ Ee]. rewrite X5, Ee in N.
      exists (orig s (left_of s e)). repeat (split; [assumption|]). destruct (is_left e); auto.
    Qed.
    Lemma sided_leave_e e : In e same -> (2 <= rv s' (left_of s e))%nat /\ rl s' (left_of s e) <> SOVERLAP -> exists p, sides p.
    Proof.
      intros I [R NO]. destruct (group_lefts eps inp c _ L same S Gr) as [N V]. cbn [q_store] in N, V.
      destruct (leave_spec true s same s' outs Lv N V) as (_ & _ & _ & H3 & _). unfold leave in Lv.
      assert (X1 := proj1 (crossing_spec s same V)). pose proof (ro_geo _ _ X1) as G.
      assert (LA := leave_angles). revert Lv X1 G LA. generalize (detect_crossing_angles s same) as s1. intros s1 Lv' X1 G LA.
      assert (Lo : forall g, left_of s1 g = left_of s g) by (intros g; apply (geo_left_of G)).
      destruct (complete_spec same s1 s' outs Lv') as (_ & _ & _ & Y4).
      { rewrite (map_ext _ _ Lo). exact N. }
      { intros g Ig. rewrite Lo, (sg_len _ _ G). apply V, Ig. }
      destruct LA as [[LA _]|[_ LA]]; [exists c; exact LA|]. rewrite LA in Y4. apply (Y4 e 2%nat I) in R. destruct R as [R|(f & If & Nf & R)].
      - apply (sd_rl _ _ _ Sd (left_of s e) (V e I)). unfold rv in R. destruct (rl s (left_of s e)) eqn:Q; cbn in R; try lia; [reflexivity|]. exfalso. apply NO, (H3 e I). left. exact Q.
      - exists c. unfold pair_rel in R. destruct (Bool.eqb (efrom_test s f) (efrom_test s e)) eqn:Qf; [cbn in R; lia|]. apply eqb_false_iff in Qf.
        destruct (pt_eqb (lstart s (left_of s e)) (lstart s (left_of s f)) && pt_eqb (lend s (left_of s e)) (lend s (left_of s f))) eqn:QO.
        + exfalso. apply NO, (H3 e I). right. exists f. split; [exact If|]. split; [exact Nf|]. unfold pair_rel. apply eqb_false_iff in Qf. rewrite Qf, QO. reflexivity.
        + destruct (pt_eqb_spec (estart s e) (eoriginal_start s e)) as [|Ne]; [cbn in R; lia|].
          destruct (pt_eqb_spec (estart s f) (eoriginal_start s f)) as [|Nf']; [cbn in R; lia|].
          destruct (inner_item e I Ne) as (x & A1 & A2 & A3 & A4 & A5). destruct (inner_item f If Nf') as (y & B1 & B2 & B3 & B4 & B5).
          destruct (efrom_test s e), (efrom_test s f); try congruence; [apply (mid_sides x y)|apply (mid_sides y x)]; assumption.
    Qed.
    Lemma sided_leave : sided (fun p => ple p c) s' (acc ++ outs).
    Proof.
      destruct (group_lefts eps inp c _ L same S Gr) as [N V]. cbn [q_store] in N, V. destruct (leave_spec true s same s' outs Lv N V) as (Ro & Eo & H1 & _).
      pose proof (ro_geo _ _ Ro) as Ge.
      assert (SE : forall e, In e same -> rl s' (left_of s e) = SCROSS -> exists p, sides p).
      { intros e I R. apply (sided_leave_e e I). unfold rv. rewrite R. cbn. split; [lia|discriminate]. }
      constructor.
      - intros i Vi R. rewrite (sg_len _ _ Ge) in Vi. destruct (in_dec Nat.eq_dec i (map (left_of s) same)) as [I|I].
        + apply in_map_iff in I. destruct I as (e & <- & I). exact (SE e I R).
        + rewrite (H1 i I) in R. exact (sd_rl _ _ _ Sd i Vi R).
      - intros out I R. rewrite in_app_iff in I. destruct I as [I|I]; [exact (sd_out _ _ _ Sd out I R)|].
        rewrite Eo in I. apply in_map_iff in I. destruct I as (e & <- & I). exact (SE e I R).
      - intros e Ve Be H. rewrite (geo_estart Ge) in Be, H. apply (valid_ref_geo _ _ _ (same_geo_sym _ _ Ge)) in Ve. destruct Be as [Be|Be].
        + destruct (sd_found _ _ _ Sd e Ve Be H) as (out & I & R). exists out. split; [apply in_app_iff; auto|exact R].
        + assert (I : In e same) by (apply Same; auto). rewrite Be in H.
          exists (gl s' (left_of s e)). split; [apply in_app_iff; right; rewrite Eo; apply in_map_iff; exists e; auto|].
          unfold leave in Lv. assert (X1 := proj1 (crossing_spec s same V)). pose proof (ro_geo _ _ X1) as G.
          assert (LA := leave_angles). revert Lv X1 G LA. generalize (detect_crossing_angles s same) as s1. intros s1 Lv' X1 G LA.
          assert (Lo : forall g, left_of s1 g = left_of s g) by (intros g; apply (geo_left_of G)).
          destruct (complete_spec same s1 s' outs Lv') as (_ & _ & _ & Y4).
          { rewrite (map_ext _ _ Lo). exact N. }
          { intros g Ig. rewrite Lo, (sg_len _ _ G). apply V, Ig. }
          destruct LA as [[_ LA]|[LA _]]; [|contradiction]. change (2 <= rv s' (left_of s e))%nat. rewrite <- Lo. apply (Y4 e 2%nat I). left. rewrite Lo, LA by (apply in_map, I). lia.
    Qed.
  End Leave.
End Sides.

Theorem sweep_sides inp stop b fuel outs q' : items_ok inp -> apart inp -> ends_by inp stop b -> ~ shared inp -> thin inp ->
  sweep true fuel stop (init_state inp) = (outs, Ok q') ->
  ((exists out, In out outs /\ l_relation out = SCROSS) <-> exists p, sides inp p).
Proof.
  intros IO AP EB NS TH H. destruct (ordered_exists (candidates inp)) as [eps O].
  assert (R : exists c, sided inp (fun p => ple p c) (q_store q') outs /\ exists L, done inp eps stop c q' L).
  { destruct (run_sweep eps inp O IO AP true (fun c q L same acc => sided inp (fun p => plt p c) (q_store q) acc)) with (stop := stop) (fuel := fuel) (outs := outs) (q' := q')
      as (c & s & L & same & acc & o & Fi).
    - intros c s queue L start same0 same e w' acc St Gr Pk Ec Th Ev St' D. exact (sided_event inp c _ _ acc D Th).
    - intros c c' s queue L same acc s' o St Gr Lt AQ (f & If & Ef) Lv St' Th. cbn [q_store] in *.
      assert (Kc : In c' (candidates inp)) by (exact (sp_c _ _ _ _ _ (proj1 St'))).
      assert (Nx : queue = [] \/ exists c', In c' (candidates inp) /\ plt c c' /\ forall f, In f queue -> ple c' (estart s f)) by (right; exists c'; auto).
      pose proof (sided_leave eps inp O IO AP NS TH c s queue L same acc s' o St Gr Nx Lv Th) as E.
      pose proof (lv_geo eps inp true c s queue L same s' o St Gr Lv) as Ge.
      apply (sided_weaken inp (fun p => ple p c)); [|exact E]. cbv beta.
      intros e V B. destruct (in_queue e queue) as [Q|Q].
      + exfalso. rewrite (geo_estart Ge) in B. exact (ple_not_plt _ _ (AQ e Q) B).
      + pose proof (sp_pieces _ _ _ _ _ (proj1 St)) as P. pose proof (pc_wf _ _ P) as W. cbn [q_store] in *.
        rewrite (geo_estart Ge). apply (valid_ref_geo _ _ _ (same_geo_sym _ _ Ge)) in V.
        destruct e as [i|j]; cbn [valid_ref estart] in *; [exact (sp_left _ _ _ _ _ (proj1 St) i V Q)|].
        destruct (wf_l _ W j V) as [R1 R2]. pose proof (sp_right _ _ _ _ _ (proj1 St) _ R1) as Z. cbn [q_store q_queue] in Z.
        unfold lend in Z. rewrite R2 in Z. exact (Z Q).
    - destruct EB as [(x & Ix & _) _]. intros E. rewrite E in Ix. destruct Ix.
    - intros e Pk. pose proof (stage_init eps inp O IO AP e Pk) as St. set (c := estart _ e) in *.
      set (s := q_store (init_state inp)) in *.
      assert (F : forall i, (i < nl s)%nat -> ple c (lstart s i)).
      { intros i V. apply (sp_queue _ _ _ _ _ (proj1 St) (EL i)). apply init_in_queue. exact V. }
      pose proof (sp_pieces _ _ _ _ _ (proj1 St)) as P. fold s in P.
      split.
      + destruct EB as [(x & Ix & Fx) HB]. specialize (HB x Ix Fx).
        destruct (pc_cover _ _ P x (it_lo x) Ix (on_segment_start _ _)) as (i & Vi & Ei & Oi).
        assert (Z : ple c (it_hi x)).
        { eapply ple_trans; [exact (F i Vi)|]. apply (on_segment_order _ _ _ (pc_lt _ _ P i Vi)) in Oi. destruct Oi as (_ & Z & _).
          eapply ple_trans; [exact Z|]. left. exact (IO x Ix). }
        destruct Z as [[Z|[Z _]]|Z]; [qlra|rewrite Z; exact HB|rewrite Z; exact HB].
      + constructor; [|intros out []|].
        * intros i V R. exfalso. unfold rl, s in R. unfold s in V. rewrite init_nl in V. rewrite (init_gl inp i V) in R. discriminate.
        * intros f V Bf _. exfalso. fold s in V, Bf. destruct f as [i|j]; cbn [valid_ref estart] in *; [exact (ple_not_plt _ _ (F i V) Bf)|].
          destruct (wf_l _ (pc_wf _ _ P) j V) as [R1 R2]. apply (ple_not_plt _ _ (F _ R1)). eapply plt_trans; [exact (pc_lt _ _ P _ R1)|]. unfold lend. rewrite R2. exact Bf.
    - exact H.
    - destruct Fi as [St Gr Th Lv Eo Px Sp].
      pose proof (sp_pieces _ _ _ _ _ (proj1 St)) as P. cbn [q_store] in *. pose proof (pc_wf _ _ P) as W.
      assert (VQ : forall e, In e (q_queue q') -> valid_ref s e) by (intros e; apply (qo_valid _ (sp_qok _ _ _ _ _ (proj1 St)))).
      assert (KQ : forall e, valid_ref s e -> In (estart s e) (candidates inp)).
      { intros e V. destruct e as [i|j]; cbn [valid_ref estart] in *; [exact (pc_start_in _ _ P i V)|].
        destruct (wf_l _ W j V) as [R1 R2]. pose proof (pc_end_in _ _ P _ R1) as Z. unfold lend in Z. rewrite R2 in Z. exact Z. }
      assert (Nx : q_queue q' = [] \/ exists c', In c' (candidates inp) /\ plt c c' /\ forall f, In f (q_queue q') -> ple c' (estart s f)).
      { destruct Sp as [Sp|(e & Pk & Lt)]; [left; exact Sp|right]. exists (estart s e). split; [apply KQ, VQ; eapply q_peek_in; exact Pk|].
        split; [left; qlra|]. intros f If. apply key_le_ple. eapply q_peek_key; eassumption. }
      exists c. split; [rewrite Eo; exact (sided_leave eps inp O IO AP NS TH c s _ L same acc _ o St Gr Nx Lv Th)|].
      pose proof (lv_geo eps inp true c s _ L same _ o St Gr Lv) as Ge. exists L. constructor.
      + apply (stage_geo eps inp c (QS s (q_queue q'))); [|exact St]. exists (q_store q'). split; [exact Ge|]. destruct q'; reflexivity.
      + destruct Sp as [Sp|(e & Pk & Lt)]; [left; exact Sp|right]. exists e. rewrite (q_peek_geo _ _ _ Ge), !(geo_estart Ge).
        split; [exact Pk|]. split; [exact Lt|]. split; [left; qlra|]. split; [apply KQ, VQ; eapply q_peek_in; exact Pk|].
        intros f If. rewrite (geo_estart Ge). apply key_le_ple. eapply q_peek_key; eassumption. }
  destruct R as (c & Sd & L & Dn). split; [intros (out & I & R); exact (sd_out _ _ _ _ Sd out I R)|].
  intros (p & Hp). destruct (sweep_finds inp IO AP true stop b fuel outs q' EB H) as (_ & Over & _).
  assert (NOV : forall out, In out outs -> l_relation out <> SOVERLAP).
  { intros out I R. destruct (final_done inp IO AP eps true stop b fuel outs q' O EB H) as (c' & L' & _ & Em). apply NS. exact (em_over _ _ _ _ _ Em out I R). }
  pose proof (sp_pieces _ _ _ _ _ (proj1 (dn_stage _ _ _ _ _ _ Dn))) as P.
  destruct (dn_pieces inp eps stop b c q' L EB Dn p (sides_common inp p Hp)) as (i & k & Vi & Vk & F & Fb & Oi & Ok).
  destruct (dn_clean inp IO AP eps stop b c q' L O EB Dn i k p Vi Vk F Fb Oi Ok) as [(A & B & C)|[A B]]; [|exfalso; exact (twin_shared eps inp O IO NS _ i k P Vi Vk A)].
  destruct (dn_event inp eps stop c q' L Dn i p Vi A) as (e & Ve & Ee & Fe).
  destruct (sd_found _ _ _ _ Sd e Ve) as (out & I & R); [rewrite Ee; exact C|rewrite Ee; exact Hp|].
  exists out. split; [exact I|]. assert (N := NOV out I). destruct (l_relation out); cbn in R; try lia; congruence.
Qed.
