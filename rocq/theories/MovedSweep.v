(* Sweeps over moved and stretched segments: everything happens at the moved places. *)
From Coq Require Import QArith Qcanon List Bool ZArith Lia.
From Verif Require Import Scalar Base Ground MLinear MSweep MCompound Planar Spec SpecMore SpecMoved SweepStore Moved.
Import ListNotations.
Open Scope Qc_scope.

Definition in_store (s : store) (e : eref) : Prop := match e with EL i => (i < nl s)%nat | ER j => (j < nr s)%nat end.
(* References stay in the store. *)
Definition linked (s : store) : Prop := Forall (fun e => (l_right e < nr s)%nat) (lefts s) /\ Forall (fun e => (r_left e < nl s)%nat) (rights s).
Definition bigger (s s' : store) : Prop := (nl s <= nl s')%nat /\ (nr s <= nr s')%nat.
Lemma bigger_refl s : bigger s s. Proof. split; apply le_n. Qed.
Lemma bigger_trans s s' s'' : bigger s s' -> bigger s' s'' -> bigger s s''.
Proof. intros [A B] [C D]. split; lia. Qed.
Lemma bigger_ref s s' e : bigger s s' -> in_store s e -> in_store s' e.
Proof. intros [A B]. destruct e; cbn; lia. Qed.
Lemma linked_right s i : linked s -> (i < nl s)%nat -> (l_right (gl s i) < nr s)%nat.
Proof. intros [L _] H. rewrite Forall_forall in L. apply L. apply nth_In. exact H. Qed.
Lemma linked_left s j : linked s -> (j < nr s)%nat -> (r_left (gr s j) < nl s)%nat.
Proof. intros [_ L] H. rewrite Forall_forall in L. apply L. apply nth_In. exact H. Qed.
Lemma linked_left_of s e : linked s -> in_store s e -> (left_of s e < nl s)%nat.
Proof. intros L H. destruct e as [i|j]; [exact H|apply linked_left; assumption]. Qed.
Lemma forall_upd {A} (Q : A -> Prop) (l : list A) i g : (forall x, Q x -> Q (g x)) -> Forall Q l -> Forall Q (upd l i g).
Proof. intros H F. revert i. induction F as [|x l Hx F IH]; intros [|i]; cbn; try constructor; auto. Qed.
Lemma upd_nl s i g : nl (upd_left s i g) = nl s. Proof. unfold nl, upd_left. cbn. apply upd_length. Qed.
Lemma upd_linked s i g : (forall e, l_right (g e) = l_right e) -> linked s -> linked (upd_left s i g).
Proof.
  intros H [L R]. unfold linked. rewrite upd_nl. change (nr (upd_left s i g)) with (nr s). cbn [upd_left lefts rights]. split; [|exact R]. apply forall_upd; [|exact L]. intros x. rewrite H. auto.
Qed.
Lemma upd_bigger s i g : bigger s (upd_left s i g) /\ bigger (upd_left s i g) s.
Proof. unfold bigger. rewrite upd_nl. change (nr (upd_left s i g)) with (nr s). repeat split; apply le_n. Qed.
Lemma divide_linked s i p : linked s -> (i < nl s)%nat -> linked (fst (fst (divide s i p))) /\ bigger s (fst (fst (divide s i p))).
Proof.
  intros L H. assert (B : bigger s (fst (fst (divide s i p)))) by (unfold bigger; rewrite div_nl, div_nr; lia). split; [|exact B].
  pose proof (linked_right s i L H) as R. destruct L as [L1 L2]. unfold linked. rewrite div_nl, div_nr. cbn [divide fst lefts rights]. split; apply Forall_app; split.
  - apply forall_upd; [intros x _; cbn; unfold nr; lia|]. eapply Forall_impl; [|exact L1]. cbn. intros; lia.
  - constructor; [cbn; lia|constructor].
  - apply forall_upd; [intros x _; cbn; unfold nl; lia|]. eapply Forall_impl; [|exact L2]. cbn. intros; lia.
  - constructor; [cbn; lia|constructor].
Qed.

Lemma scale_lt k x y : 0 < k -> qltb (k * x) (k * y) = qltb x y.
Proof. intros K. destruct (qltb_spec (k * x) (k * y)) as [P|P], (qltb_spec x y) as [Q|Q]; auto; exfalso; [apply Q|apply P]; qnra. Qed.
Lemma pos_scale k x : 0 < k -> 0 < x -> 0 < k * x. Proof. intros. qnra. Qed.
Lemma pos_unscale k x : 0 < k -> 0 < k * x -> 0 < x. Proof. intros. destruct (qltb_spec 0 x) as [H1|H1]; [exact H1|]. exfalso. qnra. Qed.
Section MovedSweep.
  Variables (a b t u : Qc).
  Hypothesis (Ha : 0 < a) (Hb : 0 < b).
  Let fm := fm a b t u.
  Let fs := fs a b t u.
  Let fe := fe a b t u.
  Definition ml (e : levent) : levent :=
    LE (fm (l_start e)) (l_right e) (fm (l_original_start e)) (l_from_test e) (l_relation e) (l_interior_to_left e) (l_other_interior_to_left e) (l_overlap_kind e).
  Definition mr (e : revent) : revent := RE (fm (r_start e)) (r_left e) (fm (r_original_start e)).
  Definition mst (s : store) : store := St (map ml (lefts s)) (map mr (rights s)).
  Lemma m_nl s : nl (mst s) = nl s. Proof using Type. unfold nl, mst. cbn. apply map_length. Qed.
  Lemma m_nr s : nr (mst s) = nr s. Proof using Type. unfold nr, mst. cbn. apply map_length. Qed.
  Lemma m_gl s i : (i < nl s)%nat -> gl (mst s) i = ml (gl s i).
  Proof using Type. intros H. unfold gl, mst. cbn [lefts]. rewrite (nth_indep _ dummy_left (ml dummy_left)) by (rewrite map_length; exact H). apply map_nth. Qed.
  Lemma m_gr s j : (j < nr s)%nat -> gr (mst s) j = mr (gr s j).
  Proof using Type. intros H. unfold gr, mst. cbn [rights]. rewrite (nth_indep _ dummy_right (mr dummy_right)) by (rewrite map_length; exact H). apply map_nth. Qed.
  Lemma map_upd {A B} (h : A -> B) (l : list A) i g g' : (forall x, h (g x) = g' (h x)) -> upd (map h l) i g' = map h (upd l i g).
  Proof using Type. intros H. revert i. induction l as [|x l IH]; intros [|i]; cbn; [reflexivity|reflexivity|rewrite H; reflexivity|rewrite IH; reflexivity]. Qed.
  Lemma m_upd s i g : (forall x, ml (g x) = g (ml x)) -> upd_left (mst s) i g = mst (upd_left s i g).
  Proof using Type. intros H. unfold upd_left, mst. cbn [lefts rights]. rewrite (map_upd ml _ _ g g H). reflexivity. Qed.

  Section Reading.
    Variable (s : store).
    Hypothesis (L : linked s).
    Lemma m_lstart i : (i < nl s)%nat -> lstart (mst s) i = fm (lstart s i).
    Proof using Type. intros H. unfold lstart. rewrite m_gl by exact H. reflexivity. Qed.
    Lemma m_lend i : (i < nl s)%nat -> lend (mst s) i = fm (lend s i).
    Proof using L. intros H. unfold lend. rewrite m_gl by exact H. cbn [ml l_right]. rewrite m_gr by (apply linked_right; assumption). reflexivity. Qed.
    Lemma m_lseg i : (i < nl s)%nat -> lseg (mst s) i = fs (lseg s i).
    Proof using L. intros H. unfold lseg. rewrite m_lstart, m_lend by exact H. reflexivity. Qed.
    Lemma m_left_of e : in_store s e -> left_of (mst s) e = left_of s e.
    Proof using Type. intros H. destruct e as [i|j]; [reflexivity|]. cbn [left_of]. rewrite m_gr by exact H. reflexivity. Qed.
    Lemma m_estart e : in_store s e -> estart (mst s) e = fm (estart s e).
    Proof using Type. intros H. destruct e as [i|j]; [apply m_lstart, H|]. cbn [estart]. rewrite m_gr by exact H. reflexivity. Qed.
    Lemma m_eend e : in_store s e -> eend (mst s) e = fm (eend s e).
    Proof using L. intros H. destruct e as [i|j]; [apply m_lend, H|]. cbn [eend]. rewrite m_gr by exact H. cbn [mr r_left]. apply m_lstart, linked_left; assumption. Qed.
    Lemma m_eostart e : in_store s e -> eoriginal_start (mst s) e = fm (eoriginal_start s e).
    Proof using Type. intros H. destruct e as [i|j]; cbn [eoriginal_start]; [rewrite m_gl by exact H|rewrite m_gr by exact H]; reflexivity. Qed.
    Lemma m_ft i : (i < nl s)%nat -> l_from_test (gl (mst s) i) = l_from_test (gl s i).
    Proof using Type. intros H. rewrite m_gl by exact H. reflexivity. Qed.
    Lemma m_efrom e : in_store s e -> efrom_test (mst s) e = efrom_test s e.
    Proof using L. intros H. unfold efrom_test. rewrite m_left_of by exact H. apply m_ft, linked_left_of; assumption. Qed.
    Lemma m_sweep_lt i k : (i < nl s)%nat -> (k < nl s)%nat -> sweep_lt (mst s) i k = sweep_lt s i k.
    Proof using L Ha Hb.
      intros H K. unfold sweep_lt. rewrite !m_lstart, !m_lend, m_ft by assumption. unfold fm. rewrite !(f_orient a b t u Ha Hb). reflexivity.
    Qed.
    Lemma m_queue_lt e e' : in_store s e -> in_store s e' -> queue_lt (mst s) e e' = queue_lt s e e'.
    Proof using L Ha Hb.
      intros H K. unfold queue_lt. rewrite !m_estart, !m_eend, m_efrom by assumption. unfold fm. rewrite !fx, !fy, (gx_eq a b t Ha Hb), (gx_lt a b t Ha Hb), (gy_eq a b u Ha Hb), (gy_lt a b u Ha Hb), (f_orient a b t u Ha Hb). reflexivity.
    Qed.
    Definition on_line (l : sweep_line) : Prop := Forall (fun k => (k < nl s)%nat) l.
    Lemma m_add i l : (i < nl s)%nat -> on_line l -> sl_add (mst s) i l = sl_add s i l /\ on_line (sl_add s i l).
    Proof using L Ha Hb.
      intros H F. induction F as [|k l K F IH]; cbn [sl_add]; [split; [reflexivity|constructor; [exact H|constructor]]|]. rewrite !m_sweep_lt by assumption. destruct IH as [-> IH].
      split; [reflexivity|]. destruct (sweep_lt s i k); [constructor; [exact H|constructor; assumption]|]. destruct (sweep_lt s k i); constructor; assumption.
    Qed.
    Lemma m_mem i l : (i < nl s)%nat -> on_line l -> sl_mem (mst s) i l = sl_mem s i l.
    Proof using L Ha Hb. intros H F. induction F as [|k l K F IH]; cbn [sl_mem]; [reflexivity|]. rewrite !m_sweep_lt, IH by assumption. reflexivity. Qed.
    Lemma m_remove i l : (i < nl s)%nat -> on_line l -> sl_remove (mst s) i l = sl_remove s i l /\ on_line (sl_remove s i l).
    Proof using L Ha Hb.
      intros H F. induction F as [|k l K F IH]; cbn [sl_remove]; [split; [reflexivity|constructor]|]. rewrite !m_sweep_lt by assumption. destruct IH as [-> IH].
      split; [reflexivity|]. destruct (sweep_lt s i k); [constructor; assumption|]. destruct (sweep_lt s k i); [constructor; assumption|exact F].
    Qed.
    Lemma m_above i l : (i < nl s)%nat -> on_line l -> sl_above (mst s) i l = sl_above s i l /\ (forall k, sl_above s i l = Some k -> (k < nl s)%nat).
    Proof using L Ha Hb.
      intros H F. induction F as [|k l K F IH]; cbn [sl_above]; [split; [reflexivity|discriminate]|]. rewrite !m_sweep_lt by assumption. destruct IH as [-> IH].
      split; [reflexivity|]. destruct (sweep_lt s i k); [discriminate|]. destruct (sweep_lt s k i); [exact IH|]. destruct F; [discriminate|]. intros n E. injection E as <-. assumption.
    Qed.
    Lemma m_below_from i l : (i < nl s)%nat -> on_line l -> forall o, (forall k, o = Some k -> (k < nl s)%nat) ->
      sl_below_from (mst s) i o l = sl_below_from s i o l /\ (forall k, sl_below_from s i o l = Some k -> (k < nl s)%nat).
    Proof using L Ha Hb.
      intros H F. induction F as [|k l K F IH]; intros o Q; cbn [sl_below_from]; [split; [reflexivity|discriminate]|]. rewrite !m_sweep_lt by assumption.
      destruct (IH (Some k) ltac:(intros n E; injection E as <-; exact K)) as [-> I]. split; [reflexivity|]. destruct (sweep_lt s i k); [discriminate|]. destruct (sweep_lt s k i); [exact I|exact Q].
    Qed.
    Lemma m_below i l : (i < nl s)%nat -> on_line l -> sl_below (mst s) i l = sl_below s i l /\ (forall k, sl_below s i l = Some k -> (k < nl s)%nat).
    Proof using L Ha Hb. intros H F. apply m_below_from; [exact H|exact F|discriminate]. Qed.
    Lemma m_min_from q : Forall (in_store s) q -> forall e, in_store s e -> q_min_from (mst s) e q = q_min_from s e q /\ in_store s (q_min_from s e q).
    Proof using L Ha Hb.
      intros F. induction F as [|x q X F IH]; intros e H; cbn [q_min_from]; [split; [reflexivity|exact H]|]. rewrite m_queue_lt by assumption. apply IH. destruct (queue_lt s x e); assumption.
    Qed.
    Lemma m_peek q : Forall (in_store s) q -> q_peek (mst s) q = q_peek s q /\ (forall e, q_peek s q = Some e -> in_store s e).
    Proof using L Ha Hb.
      intros F. destruct F as [|x q X F]; cbn [q_peek]; [split; [reflexivity|discriminate]|]. destruct (m_min_from q F x X) as [-> I]. split; [reflexivity|]. intros e E. injection E as <-. exact I.
    Qed.
  End Reading.

  (** * Writing *)
  Definition mq (q : qstate) : qstate := QS (mst (q_store q)) (q_queue q).
  Definition okm (q : qstate) : Prop := linked (q_store q) /\ Forall (in_store (q_store q)) (q_queue q).
  Definition more (q q' : qstate) : Prop := bigger (q_store q) (q_store q').
  Lemma m_divide s i p : linked s -> (i < nl s)%nat -> divide (mst s) i (fm p) = (mst (fst (fst (divide s i p))), nl s, nr s).
  Proof using Type.
    intros L H. unfold divide. cbn [fst]. rewrite m_gl by exact H. cbn [ml l_right l_original_start l_from_test l_relation l_interior_to_left]. rewrite m_gr by (apply linked_right; assumption). cbn [mr r_original_start].
    change (length (lefts (mst s))) with (nl (mst s)). change (length (rights (mst s))) with (nr (mst s)). rewrite m_nl, m_nr. f_equal. f_equal. unfold mst. cbn [lefts rights]. rewrite !map_app. f_equal; f_equal; try reflexivity.
    - apply map_upd. reflexivity.
    - apply map_upd. reflexivity.
  Qed.
  Lemma m_divide_segment q i p : okm q -> (i < nl (q_store q))%nat ->
    divide_segment (mq q) i (fm p) = mq (divide_segment q i p) /\ okm (divide_segment q i p) /\ more q (divide_segment q i p).
  Proof using Type.
    intros [L F] H. destruct (divide_linked (q_store q) i p L H) as [L' B]. unfold divide_segment. cbn [mq q_store q_queue]. rewrite m_divide by assumption.
    rewrite (divide_refs (q_store q) i p). cbv beta iota zeta. split; [reflexivity|]. split; [|exact B]. split; [exact L'|]. cbn [q_store q_queue]. apply Forall_app. split.
    - eapply Forall_impl; [|exact F]. intros e. apply bigger_ref. exact B.
    - constructor; [cbn [in_store]; rewrite div_nl; lia|]. constructor; [cbn [in_store]; rewrite div_nr; lia|constructor].
  Qed.
  Lemma okm_upd q i g : (forall e, l_right (g e) = l_right e) -> okm q -> okm (QS (upd_left (q_store q) i g) (q_queue q)).
  Proof using Type.
    intros H [L F]. split; cbn [q_store q_queue]; [apply upd_linked; assumption|]. eapply Forall_impl; [|exact F]. intros e. apply bigger_ref, upd_bigger.
  Qed.
  (* Results of a step. *)
  Definition simr (q : qstate) (r r' : res (qstate * bool)) : Prop :=
    match r, r' with
    | Ok (q1, x), Ok (q1', x') => q1' = mq q1 /\ x' = x /\ okm q1 /\ more q q1
    | Raise e, Raise e' => e' = e
    | _, _ => False
    end.
  Lemma simr_div q q0 i p x : okm q0 -> more q q0 -> (i < nl (q_store q0))%nat -> simr q (Ok (divide_segment q0 i p, x)) (Ok (divide_segment (mq q0) i (fm p), x)).
  Proof using Type.
    intros K M H. destruct (m_divide_segment q0 i p K H) as (E & O & B). cbn. split; [exact E|]. split; [reflexivity|]. split; [exact O|exact (bigger_trans _ _ _ M B)].
  Qed.
  Lemma m_overlap mark q i k : okm q -> (i < nl (q_store q))%nat -> (k < nl (q_store q))%nat -> simr q (detect_overlap mark q i k) (detect_overlap mark (mq q) i k).
  Proof using Ha Hb.
    intros K Hi Hk. destruct K as [L F]. assert (K : okm q) by (split; assumption). set (s := q_store q) in *.
    pose proof (linked_right s i L Hi) as Ri. pose proof (linked_right s k L Hk) as Rk.
    unfold detect_overlap. cbn [mq q_store]. fold s. rewrite !m_ft by assumption. destruct (Bool.eqb (l_from_test (gl s k)) (l_from_test (gl s i))); [reflexivity|].
    rewrite !m_lstart, !m_lend by assumption. unfold fm. rewrite !(f_eqb a b t u Ha Hb). fold fm. rewrite !m_queue_lt by (try assumption; exact L). rewrite !m_gl by assumption. cbn [ml l_right l_interior_to_left].
    rewrite !m_queue_lt by (try assumption; exact L).
    set (se := pt_eqb (lstart s i) (lstart s k)). set (ee := pt_eqb (lend s i) (lend s k)).
    destruct (if se || queue_lt s (EL k) (EL i) then (k, i) else (i, k)) as [smin smax] eqn:E1.
    destruct (if ee || queue_lt s (ER (l_right (gl s k))) (ER (l_right (gl s i))) then (l_right (gl s k), l_right (gl s i)) else (l_right (gl s i), l_right (gl s k))) as [emin emax] eqn:E2.
    assert (S1 : (smin < nl s)%nat /\ (smax < nl s)%nat) by (destruct (se || _); injection E1 as <- <-; split; assumption).
    assert (S2 : (emin < nr s)%nat /\ (emax < nr s)%nat) by (destruct (ee || _); injection E2 as <- <-; split; assumption).
    destruct S1 as [S1 S1'], S2 as [S2 S2']. clear E1 E2. rewrite !m_lstart, !m_gr by assumption. cbn [mr r_start r_left]. pose proof (linked_left s emax L S2') as S3.
    destruct se.
    - set (kind := if Bool.eqb _ _ then OSAME else ODIFFERENT).
      assert (Q1 : exists q1, okm q1 /\ more q q1 /\ more q1 q /\ (if mark then QS (upd_left (upd_left s i (set_overlap_kind kind)) k (set_overlap_kind kind)) (q_queue q) else q) = q1
        /\ (if mark then QS (upd_left (upd_left (mst s) i (set_overlap_kind kind)) k (set_overlap_kind kind)) (q_queue (mq q)) else mq q) = mq q1).
      { destruct mark.
        - eexists. split; [|split; [|split; [|split; [reflexivity|]]]].
          + apply (okm_upd (QS (upd_left s i _) (q_queue q))); [reflexivity|]. apply okm_upd; [reflexivity|exact K].
          + unfold more. cbn [q_store]. eapply bigger_trans; apply upd_bigger.
          + unfold more. cbn [q_store]. eapply bigger_trans; apply upd_bigger.
          + unfold mq. cbn [q_store q_queue]. f_equal. rewrite !m_upd by reflexivity. reflexivity.
        - exists q. split; [exact K|]. split; [apply bigger_refl|]. split; [apply bigger_refl|]. split; reflexivity. }
      destruct Q1 as (q1 & K1 & M1 & M1' & -> & ->). destruct ee; cbn [negb].
      + cbn. repeat split; try reflexivity; try apply K1; apply M1.
      + apply simr_div; [exact K1|exact M1|]. destruct M1 as [M1 _]. fold s in M1. lia.
    - destruct ee; [apply simr_div; [exact K|apply bigger_refl|exact S1]|]. destruct (Nat.eqb smin (r_left (gr s emax))).
      + destruct (m_divide_segment q smin (r_start (gr s emin)) K S1) as (E & O & B). rewrite E. apply simr_div; [exact O|exact B|]. destruct B as [B _]. fold s in B. lia.
      + destruct (m_divide_segment q smax (r_start (gr s emin)) K S1') as (E & O & B). rewrite E. apply simr_div; [exact O|exact B|]. destruct B as [B _]. fold s in B. lia.
  Qed.
  Lemma m_detect mark q i k : okm q -> (i < nl (q_store q))%nat -> (k < nl (q_store q))%nat -> simr q (detect_intersection mark q i k) (detect_intersection mark (mq q) i k).
  Proof using Ha Hb.
    intros K Hi Hk. unfold detect_intersection. cbn [mq q_store]. set (s := q_store q) in *. assert (L : linked s) by apply K. rewrite !m_lseg by assumption. unfold fs. rewrite (f_relation a b t u Ha Hb), (f_intersection a b t u Ha Hb).
    set (p := segments_intersection (lseg s i) (lseg s k)). change (Moved.fm a b t u p) with (fm p).
    assert (D : simr q (Ok (q, false)) (Ok (mq q, false))) by (cbn; split; [reflexivity|]; split; [reflexivity|]; split; [exact K|apply bigger_refl]).
    assert (X : simr q
      (let st := if negb (pt_eqb p (lstart s i)) && negb (pt_eqb p (lend s i)) then divide_segment q i p else q in
       let st := if negb (pt_eqb p (lstart (q_store st) k)) && negb (pt_eqb p (lend (q_store st) k)) then divide_segment st k p else st in Ok (st, false))
      (let st := if negb (pt_eqb (fm p) (lstart (mst s) i)) && negb (pt_eqb (fm p) (lend (mst s) i)) then divide_segment (mq q) i (fm p) else mq q in
       let st := if negb (pt_eqb (fm p) (lstart (q_store st) k)) && negb (pt_eqb (fm p) (lend (q_store st) k)) then divide_segment st k (fm p) else st in Ok (st, false))).
    { rewrite m_lstart, m_lend by assumption. unfold fm at 2 3 4 5. rewrite !(f_eqb a b t u Ha Hb). fold fm.
      assert (Q1 : exists q1, okm q1 /\ more q q1 /\ (if negb (pt_eqb p (lstart s i)) && negb (pt_eqb p (lend s i)) then divide_segment q i p else q) = q1
        /\ (if negb (pt_eqb p (lstart s i)) && negb (pt_eqb p (lend s i)) then divide_segment (mq q) i (fm p) else mq q) = mq q1).
      { destruct (_ && _).
        - destruct (m_divide_segment q i p K Hi) as (E & O & B). exists (divide_segment q i p). split; [exact O|]. split; [exact B|]. split; [reflexivity|exact E].
        - exists q. split; [exact K|]. split; [apply bigger_refl|]. split; reflexivity. }
      destruct Q1 as (q1 & K1 & M1 & -> & ->). cbv zeta. assert (Hk1 : (k < nl (q_store q1))%nat) by (destruct M1 as [M1 _]; fold s in M1; lia).
      cbn [mq q_store]. rewrite m_lstart, m_lend by (try exact Hk1; apply K1). unfold fm at 1 2 3 4. rewrite !(f_eqb a b t u Ha Hb). fold fm. destruct (_ && _).
      - apply simr_div; assumption.
      - cbn. split; [reflexivity|]. split; [reflexivity|]. split; assumption. }
    destruct (segments_relation (lseg s i) (lseg s k)); try exact D; try exact X; apply m_overlap; assumption.
  Qed.
  Lemma m_position q o i : okm q -> (i < nl (q_store q))%nat -> (forall k, o = Some k -> (k < nl (q_store q))%nat) ->
    compute_position (mq q) o i = mq (compute_position q o i) /\ okm (compute_position q o i) /\ more q (compute_position q o i) /\ more (compute_position q o i) q.
  Proof using Type.
    intros K Hi Ho. destruct o as [k|]; cbn [compute_position].
    - specialize (Ho k eq_refl). cbn [mq q_store q_queue]. rewrite !m_gl by assumption. cbn [ml l_from_test l_other_interior_to_left l_interior_to_left]. split; [unfold mq; cbn [q_store q_queue]; f_equal; apply m_upd; reflexivity|].
      split; [apply okm_upd; [reflexivity|exact K]|]. split; apply upd_bigger.
    - split; [reflexivity|]. split; [exact K|]. split; apply bigger_refl.
  Qed.
  (* Stores with the same references. *)
  Definition equally (s s' : store) : Prop := bigger s s' /\ bigger s' s.
  Lemma equally_refl s : equally s s. Proof using Type. split; apply bigger_refl. Qed.
  Lemma equally_trans s s' s'' : equally s s' -> equally s' s'' -> equally s s''.
  Proof using Type. intros [A B] [C D]. split; eapply bigger_trans; eassumption. Qed.
  Lemma equally_upd s i g : equally s (upd_left s i g). Proof using Type. split; apply upd_bigger. Qed.
  Lemma equally_refs s s' l : equally s s' -> Forall (in_store s) l -> Forall (in_store s') l.
  Proof using Type. intros [A _] F. eapply Forall_impl; [|exact F]. intros e. apply bigger_ref. exact A. Qed.
  Definition sims (s s1 s1' : store) : Prop := s1' = mst s1 /\ linked s1 /\ equally s s1.
  Lemma m_pair s e e' : linked s -> in_store s e -> in_store s e' -> sims s (complete_pair s e e') (complete_pair (mst s) e e').
  Proof using Ha Hb.
    intros L H H'. unfold complete_pair. rewrite !m_left_of by assumption. pose proof (linked_left_of s e L H) as I. pose proof (linked_left_of s e' L H') as I'.
    rewrite !m_ft by assumption. destruct (Bool.eqb _ _); [split; [reflexivity|]; split; [exact L|apply equally_refl]|].
    rewrite !m_lstart, !m_lend, !m_estart, !m_eostart by assumption. unfold fm. rewrite !(f_eqb a b t u Ha Hb). fold fm. destruct (_ && _).
    - split; [rewrite !m_upd by reflexivity; reflexivity|]. split; [apply upd_linked; [reflexivity|]; apply upd_linked; [reflexivity|exact L]|]. eapply equally_trans; apply equally_upd.
    - set (rel := if _ || _ then STOUCH else SCROSS). set (g := set_relation (srel_max (l_relation (gl s (left_of s e))) rel)).
      replace (set_relation (srel_max (l_relation (gl (mst s) (left_of s e))) rel)) with g by (unfold g; rewrite m_gl by exact I; reflexivity).
      rewrite (m_upd s _ g) by reflexivity. rewrite (m_gl (upd_left s (left_of s e) g)) by (rewrite upd_nl; exact I'). cbn [ml l_relation]. rewrite m_upd by reflexivity.
      split; [reflexivity|]. split; [apply upd_linked; [reflexivity|]; apply upd_linked; [reflexivity|exact L]|]. eapply equally_trans; apply equally_upd.
  Qed.
  Lemma m_row e rest : forall s, linked s -> in_store s e -> Forall (in_store s) rest ->
    sims s (fold_left (fun s e' => complete_pair s e e') rest s) (fold_left (fun s e' => complete_pair s e e') rest (mst s)).
  Proof using Ha Hb.
    induction rest as [|x rest IH]; intros s L H F; cbn [fold_left]; [split; [reflexivity|]; split; [exact L|apply equally_refl]|]. inversion F as [|? ? X F']; subst.
    destruct (m_pair s e x L H X) as (-> & L1 & E1). destruct (IH (complete_pair s e x) L1 (bigger_ref _ _ _ (proj1 E1) H) (equally_refs _ _ _ E1 F')) as (-> & L2 & E2).
    split; [reflexivity|]. split; [exact L2|]. eapply equally_trans; eassumption.
  Qed.
  Lemma m_complete ev : forall s, linked s -> Forall (in_store s) ev ->
    sims s (fst (complete_events_relations s ev)) (fst (complete_events_relations (mst s) ev)) /\ snd (complete_events_relations (mst s) ev) = map ml (snd (complete_events_relations s ev)).
  Proof using Ha Hb.
    induction ev as [|e ev IH]; intros s L F; cbn [complete_events_relations fst snd map]; [split; [split; [reflexivity|]; split; [exact L|apply equally_refl]|reflexivity]|]. inversion F as [|? ? X F']; subst.
    destruct (m_row e ev s L X F') as (-> & L1 & E1). set (s1 := fold_left (fun s e' => complete_pair s e e') ev s) in *. pose proof (bigger_ref _ _ _ (proj1 E1) X) as X1.
    rewrite m_left_of, m_gl by (try exact X1; apply linked_left_of; assumption). destruct (IH s1 L1 (equally_refs _ _ _ E1 F')) as ((E & L2 & E2) & O).
    destruct (complete_events_relations (mst s1) ev) as [s2' o']. destruct (complete_events_relations s1 ev) as [s2 o]. cbn [fst snd] in *. subst s2' o'. split; [|reflexivity]. split; [reflexivity|]. split; [exact L2|eapply equally_trans; eassumption].
  Qed.

  (** ** Angles *)
  Section Angles.
    Hypothesis (Eab : a = b).
    Lemma m_dot p q r w : dot_product (fm p) (fm q) (fm r) (fm w) = a * a * dot_product p q r w.
    Proof using Eab. unfold dot_product, fm. rewrite !fx, !fy. unfold gx, gy. rewrite <- Eab. ring. Qed.
    Lemma m_distance p q : points_squared_distance (fm p) (fm q) = a * a * points_squared_distance p q.
    Proof using Eab. unfold points_squared_distance, fm. rewrite !fx, !fy. unfold gx, gy. rewrite <- Eab. ring. Qed.
    Lemma aa_pos : 0 < a * a. Proof using Ha. pose proof Ha as H. clear - H. qnra. Qed.
    Lemma div_by (k x y : Qc) : 0 < k -> k * k * x / (k * y) = k * (x / y).
    Proof using Type.
      intros K. destruct (Qc_eq_dec y 0) as [->|N].
      - replace (k * 0) with (Q2Qc 0) by ring. unfold Qcdiv. replace (/ 0) with (Q2Qc 0) by reflexivity. ring.
      - field. split; [exact N|]. intros ->. exact (Qlt_irrefl _ K).
    Qed.
    Lemma m_cosine s p e : linked s -> in_store s e -> signed_squared_cosine (mst s) (fm p) e = a * a * signed_squared_cosine s p e.
    Proof using Eab Ha.
      intros L H. unfold signed_squared_cosine. rewrite !m_estart, !m_eend, m_dot, m_distance by assumption. rewrite <- (div_by _ _ _ aa_pos). f_equal.
      generalize (dot_product (estart s e) p (estart s e) (eend s e)). intros d. pose proof aa_pos as K. destruct (qltb_spec 0 d) as [P|P], (qltb_spec 0 (a * a * d)) as [P'|P']; try ring; exfalso; [apply P'; apply pos_scale; assumption|apply P; exact (pos_unscale _ _ K P')].
    Qed.
    Lemma m_min_by s p l : linked s -> Forall (in_store s) l -> forall e, in_store s e ->
      min_by_from (signed_squared_cosine (mst s) (fm p)) e l = min_by_from (signed_squared_cosine s p) e l /\ in_store s (min_by_from (signed_squared_cosine s p) e l).
    Proof using Eab Ha Hb.
      intros L F. induction F as [|x l X F IH]; intros e H; cbn [min_by_from]; [split; [reflexivity|exact H]|]. rewrite !m_cosine, (scale_lt _ _ _ aa_pos) by assumption. apply IH. destruct (qltb _ _); assumption.
    Qed.
    Lemma m_in_angle p v q r o : point_in_angle (fm p) (fm v) (fm q) (fm r) o = point_in_angle p v q r o.
    Proof using Ha Hb. unfold point_in_angle, fm. rewrite !(f_orient a b t u Ha Hb). reflexivity. Qed.
    Lemma filter_same {A} (g h : A -> bool) l : (forall x, In x l -> g x = h x) -> filter g l = filter h l.
    Proof using Type. intros H. induction l as [|x l IH]; [reflexivity|]. cbn [filter]. rewrite (H x (or_introl eq_refl)), IH by (intros y Y; apply H; right; exact Y). reflexivity. Qed.
    Lemma filter_refs s g l : Forall (in_store s) l -> Forall (in_store s) (filter g l).
    Proof using Type. intros F. rewrite Forall_forall in *. intros x I. apply filter_In in I. apply F, I. Qed.
    Lemma m_mark l : forall s, linked s -> Forall (in_store s) l ->
      sims s (fold_left (fun s e => let i := left_of s e in upd_left s i (set_relation (srel_max (l_relation (gl s i)) SCROSS))) l s)
        (fold_left (fun s e => let i := left_of s e in upd_left s i (set_relation (srel_max (l_relation (gl s i)) SCROSS))) l (mst s)).
    Proof using Type.
      induction l as [|x l IH]; intros s L F; cbn [fold_left]; [split; [reflexivity|]; split; [exact L|apply equally_refl]|]. inversion F as [|? ? X F']; subst. cbv zeta.
      rewrite m_left_of, m_gl by (try exact X; apply linked_left_of; assumption). cbn [ml l_relation]. set (g := set_relation _). rewrite m_upd by reflexivity.
      destruct (IH (upd_left s (left_of s x) g) (upd_linked _ _ g (fun _ => eq_refl) L) (equally_refs _ _ _ (equally_upd _ _ _) F')) as (E & L2 & E2). cbv zeta in E. split; [exact E|]. split; [exact L2|]. eapply equally_trans; [apply equally_upd|exact E2].
    Qed.
    Lemma m_angles s ev : linked s -> Forall (in_store s) ev -> sims s (detect_crossing_angles s ev) (detect_crossing_angles (mst s) ev).
    Proof using Eab Ha Hb.
      intros L F. assert (D : sims s s (mst s)) by (split; [reflexivity|]; split; [exact L|apply equally_refl]). assert (F' := F). rewrite Forall_forall in F'. unfold detect_crossing_angles.
      rewrite (filter_same (efrom_test (mst s)) (efrom_test s) ev) by (intros x I; apply m_efrom; [exact L|apply F', I]).
      rewrite (filter_same (fun e => negb (efrom_test (mst s) e)) (fun e => negb (efrom_test s e)) ev) by (intros x I; rewrite m_efrom by (try exact L; apply F', I); reflexivity).
      destruct (_ || _); [exact D|]. destruct ev as [|e0 ev]; [exact D|]. pose proof (filter_refs s (fun e => negb (efrom_test s e)) _ F) as FG. pose proof (filter_refs s (efrom_test s) _ F) as FT.
      destruct (filter (fun e => negb (efrom_test s e)) (e0 :: ev)) as [|g0 gs]; [exact D|]. inversion FG as [|? ? G0 GS]; subst. cbv zeta. rewrite (m_eend s L g0 G0).
      destruct (m_min_by s (eend s g0) gs L GS g0 G0) as [-> B]. set (base := min_by_from _ g0 gs) in *. rewrite (m_eend s L base B).
      destruct (m_min_by s (eend s base) gs L GS g0 G0) as [-> B2]. set (largest := min_by_from (signed_squared_cosine s (eend s base)) g0 gs) in *. rewrite (m_eend s L largest B2).
      rewrite (m_estart s e0) by (apply F'; left; reflexivity). assert (AO : angle_orientation (fm (estart s e0)) (fm (eend s base)) (fm (eend s largest)) = angle_orientation (estart s e0) (eend s base) (eend s largest)) by apply (f_orient a b t u Ha Hb). rewrite AO. clear AO.
      replace (map (fun e => point_in_angle (eend (mst s) e) (fm (estart s e0)) (fm (eend s base)) (fm (eend s largest)) (angle_orientation (estart s e0) (eend s base) (eend s largest))) (filter (efrom_test s) (e0 :: ev)))
        with (map (fun e => point_in_angle (eend s e) (estart s e0) (eend s base) (eend s largest) (angle_orientation (estart s e0) (eend s base) (eend s largest))) (filter (efrom_test s) (e0 :: ev))).
      2:{ apply map_ext_in. intros x I. rewrite (m_eend s L x) by (rewrite Forall_forall in FT; apply FT, I). symmetry. apply m_in_angle. }
      destruct (negb _); [|exact D]. apply m_mark; assumption.
    Qed.
  End Angles.

  (** * Sweeps *)
  Definition mw (w : swstate) : swstate := SW (mq (sw_q w)) (sw_line w) (option_map fm (sw_start w)) (sw_same w).
  Definition okw (w : swstate) : Prop := okm (sw_q w) /\ on_line (q_store (sw_q w)) (sw_line w) /\ Forall (in_store (q_store (sw_q w))) (sw_same w).
  Lemma m_flush (linear : bool) s ev : (linear = true -> a = b) -> linked s -> Forall (in_store s) ev ->
    let r := complete_events_relations (if linear then detect_crossing_angles s ev else s) ev in
    let r' := complete_events_relations (if linear then detect_crossing_angles (mst s) ev else mst s) ev in
    sims s (fst r) (fst r') /\ snd r' = map ml (snd r).
  Proof using Ha Hb.
    intros E L F. cbv zeta. assert (X : sims s (if linear then detect_crossing_angles s ev else s) (if linear then detect_crossing_angles (mst s) ev else mst s)).
    { destruct linear; [apply m_angles; [apply E; reflexivity|exact L|exact F]|split; [reflexivity|]; split; [exact L|apply equally_refl]]. }
    destruct X as (-> & L1 & E1). destruct (m_complete ev _ L1 (equally_refs _ _ _ E1 F)) as ((Q & L2 & E2) & O). split; [|exact O]. split; [exact Q|]. split; [exact L2|eapply equally_trans; eassumption].
  Qed.
  Lemma on_line_bigger s s' l : bigger s s' -> on_line s l -> on_line s' l.
  Proof using Type. intros [B _] F. eapply Forall_impl; [|exact F]. cbn. intros; lia. Qed.
  Lemma refs_bigger s s' l : bigger s s' -> Forall (in_store s) l -> Forall (in_store s') l.
  Proof using Type. intros B F. eapply Forall_impl; [|exact F]. intros e. apply bigger_ref, B. Qed.
  Lemma m_group linear w e : (linear = true -> a = b) -> okw w -> in_store (q_store (sw_q w)) e ->
    sw_group linear (mw w) e = (mw (fst (sw_group linear w e)), map ml (snd (sw_group linear w e))) /\ okw (fst (sw_group linear w e)) /\ in_store (q_store (sw_q (fst (sw_group linear w e)))) e.
  Proof using Ha Hb.
    intros E ((L & Fq) & Fl & Fs) H. unfold sw_group. cbn [mw sw_q sw_line sw_start sw_same mq q_store q_queue]. set (s := q_store (sw_q w)) in *. rewrite m_estart by exact H.
    replace (match option_map fm (sw_start w) with Some p => pt_eqb (fm (estart s e)) p | None => false end) with (match sw_start w with Some p => pt_eqb (estart s e) p | None => false end)
      by (destruct (sw_start w); [cbn; unfold fm; rewrite (f_eqb a b t u Ha Hb)|]; reflexivity).
    destruct (match sw_start w with Some p => _ | None => false end).
    - cbn [fst snd map]. split; [reflexivity|]. split; [|exact H]. split; [split; assumption|]. split; [exact Fl|]. apply Forall_app. split; [exact Fs|constructor; [exact H|constructor]].
    - destruct (m_flush linear s (sw_same w) E L Fs) as ((Q & L1 & E1) & O).
      destruct (complete_events_relations (if linear then detect_crossing_angles (mst s) (sw_same w) else mst s) (sw_same w)) as [s2 o2].
      destruct (complete_events_relations (if linear then detect_crossing_angles s (sw_same w) else s) (sw_same w)) as [s1 o1]. cbn [fst snd] in *. subst s2 o2.
      pose proof (bigger_ref _ _ _ (proj1 E1) H) as H1. split; [unfold mw, mq; cbn; rewrite m_estart by exact H1; reflexivity|]. split; [|exact H1]. cbn [sw_q sw_line sw_same q_store q_queue].
      split; [split; [exact L1|exact (equally_refs _ _ _ E1 Fq)]|]. split; [exact (on_line_bigger _ _ _ (proj1 E1) Fl)|]. constructor; [exact H1|constructor].
  Qed.
  Definition simw (r r' : res swstate) : Prop :=
    match r, r' with Ok w, Ok w' => w' = mw w /\ okw w | Raise e, Raise e' => e' = e | _, _ => False end.
  Definition simq_ (q : qstate) (r r' : res qstate) : Prop :=
    match r, r' with Ok q1, Ok q1' => q1' = mq q1 /\ okm q1 /\ more q q1 | Raise e, Raise e' => e' = e | _, _ => False end.
  Lemma simq_bind q (r r' : res qstate) k k' : simq_ q r r' -> (forall q1, okm q1 -> more q q1 -> simw (k q1) (k' (mq q1))) -> simw (bind r k) (bind r' k').
  Proof using Type. unfold simq_. destruct r as [q1|e], r' as [q1'|e']; cbn; try tauto. intros (-> & K & M) H. apply H; assumption. Qed.
  Lemma simr_fst q (r r' : res (qstate * bool)) : simr q r r' -> simq_ q (do x <- r; Ok (fst x)) (do x <- r'; Ok (fst x)).
  Proof using Type. destruct r as [[q1 x]|e], r' as [[q1' x']|e']; cbn; try tauto. Qed.
  Lemma simq_ok q q0 : okm q0 -> more q q0 -> simq_ q (Ok q0) (Ok (mq q0)).
  Proof using Type. intros K M. cbn. auto. Qed.
  Lemma simq_more q q0 r r' : more q q0 -> simq_ q0 r r' -> simq_ q r r'.
  Proof using Type. unfold simq_. intros M. destruct r as [q1|e], r' as [q1'|e']; try tauto. intros (E & K & M'). split; [exact E|]. split; [exact K|]. eapply bigger_trans; eassumption. Qed.
  Lemma m_event linear w e : okw w -> in_store (q_store (sw_q w)) e -> simw (sw_event linear w e) (sw_event linear (mw w) e).
  Proof using Ha Hb.
    intros (K & Fl & Fs) H. set (q := sw_q w) in *. assert (L : linked (q_store q)) by apply K.
    assert (Done : forall line q1, okm q1 -> more q q1 -> on_line (q_store q) line -> simw (Ok (SW q1 line (sw_start w) (sw_same w))) (Ok (SW (mq q1) line (option_map fm (sw_start w)) (sw_same w)))).
    { intros line q1 K1 M1 Fl1. cbn [simw]. split; [reflexivity|]. split; [exact K1|]. cbn [sw_q sw_line sw_same]. split; [exact (on_line_bigger _ _ _ M1 Fl1)|exact (refs_bigger _ _ _ M1 Fs)]. }
    destruct e as [i|j].
    - cbn [in_store] in H. assert (X : forall o q1, okm q1 -> more q q1 -> (forall k, o = Some k -> (k < nl (q_store q))%nat) -> forall k, o = Some k -> (k < nl (q_store q1))%nat).
      { intros o q1 _ [M1 _] Q k Z. specialize (Q k Z). lia. }
      destruct linear; unfold sw_event, sw_event_compound, sw_event_linear; cbn [mw sw_q sw_line sw_start sw_same mq q_store]; fold q;
        destruct (m_add (q_store q) L i (sw_line w) H Fl) as [-> Fa]; set (line := sl_add (q_store q) i (sw_line w)) in *;
        destruct (m_above (q_store q) L i line H Fa) as [-> Ia]; destruct (m_below (q_store q) L i line H Fa) as [-> Ib];
        set (above := sl_above (q_store q) i line) in *; set (below := sl_below (q_store q) i line) in *.
      + apply (simq_bind q).
        { destruct above as [k|]; [|apply simq_ok; [exact K|apply bigger_refl]]. apply simr_fst, m_detect; [exact K|exact H|apply Ia; reflexivity]. }
        intros q1 K1 M1. assert (H1 : (i < nl (q_store q1))%nat) by (destruct M1; lia). apply (simq_bind q1).
        { destruct below as [k|]; [|apply simq_ok; [exact K1|apply bigger_refl]]. apply simr_fst, m_detect; [exact K1| |exact H1]. exact (X (Some k) q1 K1 M1 Ib k eq_refl). }
        intros q2 K2 M2. apply Done; [exact K2|exact (bigger_trans _ _ _ M1 M2)|exact Fa].
      + destruct (m_position q below i K H Ib) as (E0 & K0 & M0 & M0'). change (QS (mst (q_store q)) (q_queue q)) with (mq q). rewrite E0. set (q0 := compute_position q below i) in *.
        assert (H0 : (i < nl (q_store q0))%nat) by (destruct M0; lia). apply (simq_bind q).
        { destruct above as [k|]; [|apply simq_ok; assumption]. pose proof (X (Some k) q0 K0 M0 Ia k eq_refl) as Hk. pose proof (m_detect true q0 i k K0 H0 Hk) as D.
          destruct (detect_intersection true q0 i k) as [[q1 x]|e1], (detect_intersection true (mq q0) i k) as [[q1' x']|e1']; cbn [simr bind fst snd] in *; try tauto. destruct D as (-> & -> & K1 & M1).
          destruct x; [|cbn; repeat split; try apply K1; apply (bigger_trans _ _ _ M0 M1)].
          destruct (m_position q1 (Some i) k K1) as (E1 & K2 & M2 & _); [destruct M1; lia|intros n Z; injection Z as <-; destruct M1; lia|]. rewrite E1. cbn. split; [reflexivity|]. split; [exact K2|]. exact (bigger_trans _ _ _ M0 (bigger_trans _ _ _ M1 M2)). }
        intros q1 K1 M1. assert (H1 : (i < nl (q_store q1))%nat) by (destruct M1; lia). apply (simq_bind q1).
        { destruct below as [k|]; [|apply simq_ok; [exact K1|apply bigger_refl]]. pose proof (X (Some k) q1 K1 M1 Ib k eq_refl) as Hk. pose proof (m_detect true q1 k i K1 Hk H1) as D.
          destruct (detect_intersection true q1 k i) as [[q2 x]|e1], (detect_intersection true (mq q1) k i) as [[q2' x']|e1']; cbn [simr bind fst snd] in *; try tauto. destruct D as (-> & -> & K2 & M2).
          destruct x; [|cbn; repeat split; try apply K2; apply M2]. cbn [mq q_store].
          assert (Hk2 : (k < nl (q_store q2))%nat) by (destruct M2; lia).
          destruct (m_below (q_store q2) (proj1 K2) k line Hk2) as [-> I2]; [exact (on_line_bigger _ _ _ (bigger_trans _ _ _ M1 M2) Fa)|]. change (QS (mst (q_store q2)) (q_queue q2)) with (mq q2).
          destruct (m_position q2 (sl_below (q_store q2) k line) k K2 Hk2 I2) as (E1 & K3 & M3 & _). rewrite E1. cbn. split; [reflexivity|]. split; [exact K3|]. exact (bigger_trans _ _ _ M2 M3). }
        intros q2 K2 M2. apply Done; [exact K2|exact (bigger_trans _ _ _ M1 M2)|exact Fa].
    - cbn [in_store] in H. set (i := r_left (gr (q_store q) j)). assert (Hi : (i < nl (q_store q))%nat) by (apply linked_left; assumption).
      assert (Common : forall mark, simw
        (if sl_mem (q_store q) i (sw_line w) then
          let above := sl_above (q_store q) i (sw_line w) in let below := sl_below (q_store q) i (sw_line w) in let line := sl_remove (q_store q) i (sw_line w) in
          do q <- match above, below with Some a, Some b => do r <- detect_intersection mark q b a; Ok (fst r) | _, _ => Ok q end; Ok (SW q line (sw_start w) (sw_same w)) else Ok w)
        (if sl_mem (mst (q_store q)) i (sw_line w) then
          let above := sl_above (mst (q_store q)) i (sw_line w) in let below := sl_below (mst (q_store q)) i (sw_line w) in let line := sl_remove (mst (q_store q)) i (sw_line w) in
          do q <- match above, below with Some a, Some b => do r <- detect_intersection mark (mq q) b a; Ok (fst r) | _, _ => Ok (mq q) end; Ok (SW q line (option_map fm (sw_start w)) (sw_same w)) else Ok (mw w))).
      { intros mark. rewrite (m_mem (q_store q) L i _ Hi Fl). destruct (sl_mem (q_store q) i (sw_line w)).
        - cbv zeta. destruct (m_above (q_store q) L i _ Hi Fl) as [-> Ia]. destruct (m_below (q_store q) L i _ Hi Fl) as [-> Ib]. destruct (m_remove (q_store q) L i _ Hi Fl) as [-> Fr].
          apply (simq_bind q).
          + destruct (sl_above (q_store q) i (sw_line w)) as [k|]; [|apply simq_ok; [exact K|apply bigger_refl]]. destruct (sl_below (q_store q) i (sw_line w)) as [n|]; [|apply simq_ok; [exact K|apply bigger_refl]].
            apply simr_fst, m_detect; [exact K|apply Ib; reflexivity|apply Ia; reflexivity].
          + intros q1 K1 M1. apply Done; assumption.
        - cbn. split; [reflexivity|]. split; [exact K|]. split; assumption. }
      destruct linear; unfold sw_event, sw_event_compound, sw_event_linear; cbn [mw sw_q sw_line sw_start sw_same mq q_store]; fold q; rewrite m_gr by exact H; cbn [mr r_left]; fold i; [exact (Common false)|exact (Common true)].
  Qed.
  Lemma q_remove_refs s e l : Forall (in_store s) l -> Forall (in_store s) (q_remove e l).
  Proof using Type. intros F. induction F as [|x l X F IH]; cbn [q_remove]; [constructor|]. destruct (eref_eqb e x); [exact F|constructor; assumption]. Qed.
  Definition simo (x x' : list levent * res qstate) : Prop :=
    fst x' = map ml (fst x) /\ match snd x, snd x' with Ok q, Ok q' => q' = mq q /\ okm q | Raise e, Raise e' => e' = e | _, _ => False end.
  Lemma m_loop (linear : bool) stop : (linear = true -> a = b) -> forall fuel w, okw w -> simo (sw_loop linear fuel stop w) (sw_loop linear fuel (gx a t stop) (mw w)).
  Proof using Ha Hb.
    intros E fuel. induction fuel as [|fuel IH]; intros w K; [split; reflexivity|]. destruct K as ((L & Fq) & Fl & Fs). assert (K : okw w) by (split; [split|split]; assumption).
    cbn [sw_loop]. cbn [mw sw_q sw_line sw_start sw_same mq q_store q_queue]. set (s := q_store (sw_q w)) in *.
    assert (Fl1 : simo (let (s, outs) := complete_events_relations (if linear then detect_crossing_angles s (sw_same w) else s) (sw_same w) in (outs, Ok (QS s (q_queue (sw_q w)))))
      (let (s, outs) := complete_events_relations (if linear then detect_crossing_angles (mst s) (sw_same w) else mst s) (sw_same w) in (outs, Ok (QS s (q_queue (sw_q w)))))).
    { destruct (m_flush linear s (sw_same w) E L Fs) as ((Q & L1 & E1) & O).
      destruct (complete_events_relations (if linear then detect_crossing_angles (mst s) (sw_same w) else mst s) (sw_same w)) as [s2 o2].
      destruct (complete_events_relations (if linear then detect_crossing_angles s (sw_same w) else s) (sw_same w)) as [s1 o1]. cbn [fst snd] in *. subst s2 o2. split; [reflexivity|]. cbn. split; [reflexivity|]. split; [exact L1|exact (equally_refs _ _ _ E1 Fq)]. }
    cbv zeta. destruct (m_peek s L (q_queue (sw_q w)) Fq) as [-> P]. destruct (q_peek s (q_queue (sw_q w))) as [e|]; [|exact Fl1]. specialize (P e eq_refl). rewrite m_estart by exact P. unfold fm at 1. rewrite fx, (gx_lt a b t Ha Hb).
    destruct (qltb stop (px (estart s e))); [exact Fl1|]. set (w0 := SW (QS s (q_remove e (q_queue (sw_q w)))) (sw_line w) (sw_start w) (sw_same w)).
    assert (K0 : okw w0) by (split; [split; [exact L|apply q_remove_refs, Fq]|split; assumption]).
    change (SW (QS (mst s) (q_remove e (q_queue (sw_q w)))) (sw_line w) (option_map fm (sw_start w)) (sw_same w)) with (mw w0).
    destruct (m_group linear w0 e E K0 P) as (G & K1 & P1). rewrite G. destruct (sw_group linear w0 e) as [w1 o1]. cbn [fst snd] in *.
    pose proof (m_event linear w1 e K1 P1) as D. destruct (sw_event linear w1 e) as [w2|ex], (sw_event linear (mw w1) e) as [w2'|ex']; cbn [simw] in D; try tauto.
    - destruct D as [-> K2]. destruct (IH w2 K2) as [O R]. destruct (sw_loop linear fuel stop w2) as [o r]. destruct (sw_loop linear fuel (gx a t stop) (mw w2)) as [o' r']. cbn [fst snd] in *. subst o'.
      split; [cbn [fst]; rewrite map_app; reflexivity|exact R].
    - subst ex'. split; reflexivity.
  Qed.
  Lemma m_sweep (linear : bool) fuel stop q : (linear = true -> a = b) -> okm q -> simo (sweep linear fuel stop q) (sweep linear fuel (gx a t stop) (mq q)).
  Proof using Ha Hb.
    intros E K. unfold sweep. cbn [mq q_store q_queue]. destruct (m_peek (q_store q) (proj1 K) (q_queue q) (proj2 K)) as [-> P].
    replace (match q_peek (q_store q) (q_queue q) with Some e => Some (estart (mst (q_store q)) e) | None => None end) with (option_map fm (match q_peek (q_store q) (q_queue q) with Some e => Some (estart (q_store q) e) | None => None end))
      by (destruct (q_peek (q_store q) (q_queue q)) as [e|]; [rewrite (m_estart _ e (P e eq_refl))|]; reflexivity).
    apply (m_loop linear stop E fuel (SW q [] _ [])). split; [exact K|]. split; constructor.
  Qed.

  (** * Runs *)
  Lemma m_process {A} (f : A -> levent -> relation + A) acc fin x x' : (forall c e, f c (ml e) = f c e) -> simo x x' -> process f acc fin x' = process f acc fin x.
  Proof using Ha Hb.
    intros H [O R]. destruct x as [o r], x' as [o' r']. cbn [fst snd] in *. subst o'. unfold process.
    assert (C : forall c, consume f c (map ml o) = consume f c o).
    { induction o as [|e o IH]; intros c; [reflexivity|]. cbn [map consume]. rewrite H. destruct (f c e); [reflexivity|apply IH]. }
    rewrite C. destruct (consume f acc o); [reflexivity|]. destruct r as [q|ex], r' as [q'|ex']; try tauto; [|subst ex'; reflexivity]. destruct R as [-> K]. cbn [bind]. f_equal. f_equal. unfold queue_rest. cbn [mq q_store q_queue].
    destruct (m_peek (q_store q) (proj1 K) (q_queue q) (proj2 K)) as [-> P]. destruct (q_peek (q_store q) (q_queue q)) as [e|]; [|reflexivity]. rewrite m_efrom; [reflexivity|apply K|apply P; reflexivity].
  Qed.
  Lemma m_fuel q : sweep_fuel (mq q) = sweep_fuel q.
  Proof using Type. unfold sweep_fuel. cbn [mq q_store]. change (length (lefts (mst (q_store q)))) with (nl (mst (q_store q))). rewrite m_nl. reflexivity. Qed.
  Lemma m_run_closed q stop : okm q -> run_closed (mq q) (gx a t stop) = run_closed q stop.
  Proof using Ha Hb. intros K. unfold run_closed, process_closed_linear_queue. rewrite m_fuel. apply m_process; [reflexivity|]. apply m_sweep; [discriminate|exact K]. Qed.
  Lemma m_run_lc q stop : okm q -> run_linear_compound (mq q) (gx a t stop) = run_linear_compound q stop.
  Proof using Ha Hb. intros K. unfold run_linear_compound, process_linear_compound_queue. rewrite m_fuel. apply m_process; [reflexivity|]. apply m_sweep; [discriminate|exact K]. Qed.
  Lemma m_run_compound q stop : okm q -> run_compound (mq q) (gx a t stop) = run_compound q stop.
  Proof using Ha Hb. intros K. unfold run_compound, process_compound_queue. rewrite m_fuel. apply m_process; [reflexivity|]. apply m_sweep; [discriminate|exact K]. Qed.
  Lemma m_run_open q stop : a = b -> okm q -> run_open (mq q) (gx a t stop) = run_open q stop.
  Proof using Ha Hb. intros E K. unfold run_open, process_open_linear_queue. rewrite m_fuel. apply m_process; [reflexivity|]. apply m_sweep; [intros _; exact E|exact K]. Qed.
  Lemma m_register l ft : forall q, okm q -> register (mq q) (map fe l) ft = mq (register q l ft) /\ okm (register q l ft).
  Proof using Ha Hb.
    induction l as [|[x y] l IH]; intros q [L F]; [split; [reflexivity|split; assumption]|]. cbn [map]. unfold register. cbn [fold_left]. fold (register (mq q)).
    set (q1 := QS (fst (fst (from_endpoints (q_store q) (x, y) ft))) (q_queue q ++ [EL (nl (q_store q)); ER (nr (q_store q))])).
    assert (E : (let '(s, i, j) := from_endpoints (q_store (mq q)) (fe (x, y)) ft in QS s (q_queue (mq q) ++ [EL i; ER j])) = mq q1).
    { unfold q1, mq. unfold from_endpoints. cbn [q_store q_queue fe Moved.fe fst snd]. replace (pt_ltb (Moved.fm a b t u y) (Moved.fm a b t u x)) with (pt_ltb y x) by (symmetry; apply (f_ltb a b t u Ha Hb)).
      destruct (pt_ltb y x); unfold mst, nl, nr; cbn [fst snd lefts rights]; rewrite !map_app, !map_length; reflexivity. }
    rewrite E. change (let '(s, i, j) := from_endpoints (q_store q) (x, y) ft in QS s (q_queue q ++ [EL i; ER j])) with q1. apply IH.
    assert (N : nl (q_store q1) = S (nl (q_store q)) /\ nr (q_store q1) = S (nr (q_store q))) by (unfold q1, nl, nr; cbn; rewrite !app_length; cbn; lia). destruct N as [N1 N2].
    destruct L as [L1 L2]. split.
    - unfold linked. rewrite N1, N2. unfold q1. cbn [q_store from_endpoints fst lefts rights]. split; apply Forall_app; split.
      + eapply Forall_impl; [|exact L1]. cbn; intros; lia.
      + constructor; [cbn; unfold nr; lia|constructor].
      + eapply Forall_impl; [|exact L2]. cbn; intros; lia.
      + constructor; [cbn; unfold nl; lia|constructor].
    - change (q_queue q1) with (q_queue q ++ [EL (nl (q_store q)); ER (nr (q_store q))]). apply Forall_app. split.
      + apply (refs_bigger (q_store q)); [split; lia|exact F].
      + constructor; [unfold in_store; rewrite N1; lia|]. constructor; [unfold in_store; rewrite N2; lia|constructor].
  Qed.
  Lemma okm_empty : okm q_empty. Proof using Type. split; [split|]; constructor. Qed.
  Lemma mq_empty : mq q_empty = q_empty. Proof using Type. reflexivity. Qed.
End MovedSweep.
