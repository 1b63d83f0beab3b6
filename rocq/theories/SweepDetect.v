(* What [detect_intersection] does to the state: at most two divisions, at
   common points of the two segments, after which the segments have no common
   point except common end points (or they coincide). *)
From Coq Require Import QArith Qcanon List Bool ZArith Lia.
From Verif Require Import Scalar Base Ground MLinear MSweep Spec Geom SegProofs SweepStore.
Import ListNotations.
Open Scope Qc_scope.

(** * Collinear segments *)
Lemma overlap_line b0 b1 e0 e1 : plt b0 b1 -> plt e0 e1 ->
  share_segment (on_segment b0 b1) (on_segment e0 e1) ->
  cross b0 b1 e0 = 0 /\ cross b0 b1 e1 = 0 /\ plt b0 e1 /\ plt e0 b1.
Proof.
  intros Lb Le (x & y & N & S).
  destruct (S x (on_segment_start x y)) as [Xb Xe]. destruct (S y (on_segment_end x y)) as [Yb Ye].
  apply (on_segment_order _ _ _ Lb) in Xb, Yb. apply (on_segment_order _ _ _ Le) in Xe, Ye.
  destruct Xb as (Xb & Xb1 & Xb2), Yb as (Yb & Yb1 & Yb2), Xe as (Xe & Xe1 & Xe2), Ye as (Ye & Ye1 & Ye2).
  assert (T : forall r, cross e0 e1 r = 0 -> cross b0 b1 r = 0).
  { intros r H. apply (cross_line_change b0 b1 x y); auto using plt_neq.
    apply (cross_line_change e0 e1 x y); auto using plt_neq. }
  split; [apply T; unfold cross; ring|]. split; [apply T; unfold cross; ring|].
  destruct (plt_total x y) as [H|[H|H]]; [|congruence|].
  - split; [apply ple_plt_trans with x|apply ple_plt_trans with x]; eauto using plt_ple_trans.
  - split; [apply ple_plt_trans with y|apply ple_plt_trans with y]; eauto using plt_ple_trans.
Qed.
Lemma col_on b0 b1 e0 e1 q : plt b0 b1 -> plt e0 e1 -> cross b0 b1 e0 = 0 -> cross b0 b1 e1 = 0 ->
  (on_segment e0 e1 q <-> cross b0 b1 q = 0 /\ ple e0 q /\ ple q e1).
Proof.
  intros Lb Le A B. rewrite (on_segment_order _ _ _ Le).
  rewrite (cross_line_change b0 b1 e0 e1); auto using plt_neq. tauto.
Qed.

Lemma parallel_line a b c d p : dirs a b c d = 0 -> on_segment a b p -> on_segment c d p ->
  cross a b c = 0 /\ cross a b d = 0.
Proof.
  intros Z A B. assert (Ca := on_segment_cross _ _ _ A). destruct B as (t & T0 & T1 & E).
  assert (Q : cross a b c - cross a b d = 0) by (unfold dirs, cross in *; qlra).
  rewrite E, cross_on_line_lerp in Ca. split; qnra.
Qed.
Lemma collinear_common a b c d p : plt a b -> plt c d -> cross a b c = 0 -> cross a b d = 0 ->
  on_segment a b p -> on_segment c d p -> ple a c /\ on_segment a b c \/ ple c a /\ on_segment c d a.
Proof.
  intros Ll Lr L2 L3 A B.
  assert (A' := proj1 (on_segment_order _ _ _ Ll) A). destruct A' as (A0 & A1 & A2).
  assert (B' := proj1 (col_on _ _ _ _ p Ll Lr L2 L3) B). destruct B' as (B0 & B1 & B2).
  destruct (ple_total a c) as [D|D].
  - left. split; [exact D|]. apply (on_segment_order _ _ _ Ll). split; [exact L2|]. split; [exact D|]. eauto using ple_trans.
  - right. split; [exact D|]. apply (col_on _ _ _ _ _ Ll Lr L2 L3). split; [unfold cross; ring|].
    split; [exact D|]. eauto using ple_trans.
Qed.
Lemma head_on a b p q : on_segment a b p -> plt a p -> plt p b -> (on_segment a p q <-> on_segment a b q /\ ple q p).
Proof.
  intros A L1 L2. assert (L := plt_trans _ _ _ L1 L2).
  apply (on_segment_order _ _ _ L) in A. rewrite (on_segment_order _ _ _ L), (on_segment_order _ _ _ L1).
  rewrite (cross_line_change a b a p); try tauto; auto using plt_neq; [|unfold cross; ring].
  split; [|tauto]. intros (X & Y & Z). split; [|exact Z]. split; [exact X|]. split; [exact Y|].
  left; eauto using ple_plt_trans.
Qed.
Lemma tail_on a b p q : on_segment a b p -> plt a p -> plt p b -> (on_segment p b q <-> on_segment a b q /\ ple p q).
Proof.
  intros A L1 L2. assert (L := plt_trans _ _ _ L1 L2).
  apply (on_segment_order _ _ _ L) in A. rewrite (on_segment_order _ _ _ L), (on_segment_order _ _ _ L2).
  rewrite (cross_line_change a b p b); try tauto; auto using plt_neq; [|unfold cross; ring].
  split; [|tauto]. intros (X & Y & Z). split; [|exact Y]. split; [exact X|]. split; [|exact Z].
  left; eauto using plt_ple_trans.
Qed.

Definition shares (r : relation) : bool :=
  match r with EQUAL | COMPONENT | COMPOSITE | OVERLAP => true | _ => false end.
Lemma shares_spec l r : nondegenerate l -> nondegenerate r -> shares (segments_relation l r) = true ->
  share_segment (in_segment l) (in_segment r).
Proof.
  intros Nl Nr H. assert (S := segments_relation_sound l r Nl Nr).
  assert (Own : forall s p, on_segment (s_start s) (s_end s) p -> in_segment s p) by auto.
  destruct (segments_relation l r); try discriminate; cbn in S.
  - apply S.
  - exists (s_start r), (s_end r). split; [exact Nr|]. intros p Hp. split; [apply S|]; exact Hp.
  - exists (s_start l), (s_end l). split; [exact Nl|]. intros p Hp. split; [|apply S]; exact Hp.
  - exists (s_start l), (s_end l). split; [exact Nl|]. intros p Hp. split; [|apply S]; exact Hp.
Qed.
Lemma segments_relation_refl s : segments_relation s s = EQUAL.
Proof. unfold segments_relation. rewrite !pt_eqb_refl. reflexivity. Qed.
Lemma segments_relation_cases l r :
  (segments_relation l r = DISJOINT) \/ (segments_relation l r = TOUCH) \/ (segments_relation l r = CROSS)
  \/ shares (segments_relation l r) = true.
Proof.
  unfold segments_relation.
  repeat match goal with |- context [if ?c then _ else _] => destruct c end; cbn; auto.
Qed.

(* The point computed by [segments_intersection] is a common point. *)
Lemma segments_intersection_on l r : nondegenerate l -> nondegenerate r ->
  (exists p, meet_at (in_segment l) (in_segment r) p) ->
  meet_at (in_segment l) (in_segment r) (segments_intersection l r).
Proof.
  intros Nl Nr (p & M). assert (M' := M). destruct M as (A & B & U).
  assert (R : forall q, in_segment l q -> in_segment r q -> meet_at (in_segment l) (in_segment r) q).
  { intros q Q1 Q2. rewrite (U q Q1 Q2). exact M'. }
  unfold segments_intersection.
  destruct (segment_contains_point_spec l (s_start r)) as [H|H1].
  { apply R; [exact H|apply on_segment_start]. }
  destruct (segment_contains_point_spec l (s_end r)) as [H|H2].
  { apply R; [exact H|apply on_segment_end]. }
  destruct (segment_contains_point_spec r (s_start l)) as [H|H3].
  { apply R; [apply on_segment_start|exact H]. }
  destruct (segment_contains_point_spec r (s_end l)) as [H|H4].
  { apply R; [apply on_segment_end|exact H]. }
  set (a := s_start l) in *. set (b := s_end l) in *. set (c := s_start r) in *. set (d := s_end r) in *.
  destruct (qeqb_spec (dirs a b c d) 0) as [Z|NZ].
  - (* parallel: then an endpoint would be common *)
    exfalso. unfold in_segment in A, B. fold a b in A. fold c d in B.
    destruct (seg_lo_hi l Nl) as (Ll & Il & El). destruct (seg_lo_hi r Nr) as (Lr & Ir & Er).
    destruct (parallel_line a b c d p Z A B) as [Kc Kd].
    assert (Klo : cross a b (seg_lo r) = 0 /\ cross a b (seg_hi r) = 0)
      by (destruct Er as [[-> ->]|[-> ->]]; fold c d; auto).
    destruct Klo as [Klo Khi].
    assert (L2 : cross (seg_lo l) (seg_hi l) (seg_lo r) = 0 /\ cross (seg_lo l) (seg_hi l) (seg_hi r) = 0).
    { destruct El as [[-> ->]|[-> ->]]; fold a b; [auto|]. rewrite !(cross_flip a b). split; qlra. }
    destruct L2 as [L2 L3].
    apply Il in A. apply Ir in B.
    destruct (collinear_common _ _ _ _ p Ll Lr L2 L3 A B) as [[_ D]|[_ D]].
    + apply Il in D. destruct Er as [[E1 E2]|[E1 E2]]; rewrite E1 in D; tauto.
    + apply Ir in D. destruct El as [[E1 E2]|[E1 E2]]; rewrite E1 in D; tauto.
  - change (Pt _ _) with (line_int a b c d).
    rewrite <- (line_int_unique a b c d p NZ A B). exact M'.
Qed.

(** * Sequences of divisions *)
Fixpoint divs (st : qstate) (l : list (nat * point)) : qstate :=
  match l with
  | [] => st
  | (i, p) :: l' => divs (divide_segment st i p) l'
  end.
Fixpoint split_seq (inp : list item) (st : qstate) (l : list (nat * point)) : Prop :=
  match l with
  | [] => True
  | (i, p) :: l' => (i < nl (q_store st))%nat /\ splits (q_store st) i p /\ In p (candidates inp)
                    /\ split_seq inp (divide_segment st i p) l'
  end.
Lemma divide_segment_store st i p : q_store (divide_segment st i p) = fst (fst (divide (q_store st) i p)).
Proof. reflexivity. Qed.
Lemma divide_segment_queue st i p :
  q_queue (divide_segment st i p) = q_queue st ++ [EL (nl (q_store st)); ER (nr (q_store st))].
Proof. reflexivity. Qed.

Lemma qstate_eta st : st = QS (q_store st) (q_queue st).
Proof. destruct st; reflexivity. Qed.
Lemma divs_nl st l : nl (q_store (divs st l)) = (nl (q_store st) + length l)%nat.
Proof.
  revert st. induction l as [|[i q] l IH]; intros st; cbn [divs length]; [lia|].
  rewrite IH, divide_segment_store, div_nl. lia.
Qed.

Lemma divs_pieces inp l st : pieces inp (q_store st) -> split_seq inp st l -> pieces inp (q_store (divs st l)).
Proof.
  revert st; induction l as [|[i p] l IH]; intros st P H; cbn [divs split_seq] in *; [exact P|].
  destruct H as (A & B & C & D). apply IH; [|exact D]. rewrite divide_segment_store. apply divide_pieces; assumption.
Qed.
Lemma divs_partitioned inp l st : pieces inp (q_store st) -> split_seq inp st l ->
  partitioned (q_store st) -> partitioned (q_store (divs st l)).
Proof.
  revert st; induction l as [|[i p] l IH]; intros st P H Q; cbn [divs split_seq] in *; [exact Q|].
  destruct H as (A & B & C & D). apply IH; [|exact D|]; rewrite divide_segment_store.
  - apply divide_pieces; assumption.
  - eapply divide_partitioned; eassumption.
Qed.

(** * Checked pairs *)
Definition ends_left (s : store) (i : nat) (q : point) : Prop := q = lstart s i \/ q = lend s i.
Definition only_ends (s : store) (b e : nat) : Prop :=
  forall q, on_left s b q -> on_left s e q -> ends_left s b q /\ ends_left s e q.
Definition coincide (s : store) (b e : nat) : Prop := lstart s b = lstart s e /\ lend s b = lend s e.

Lemma only_ends_seq s b e : plt (lstart s b) (lend s b) -> plt (lstart s e) (lend s e) ->
  lend s b = lstart s e -> only_ends s b e.
Proof.
  intros A B E q Q1 Q2. apply (on_segment_order _ _ _ A) in Q1. apply (on_segment_order _ _ _ B) in Q2.
  assert (K : q = lend s b) by (apply ple_antisym; [|rewrite E]; tauto).
  split; [right; exact K|left; congruence].
Qed.
Lemma only_ends_sym s b e : only_ends s b e -> only_ends s e b.
Proof. intros H q A B. destruct (H q B A). tauto. Qed.
Lemma coincide_sym s b e : coincide s b e -> coincide s e b.
Proof. intros [A B]. split; congruence. Qed.

(** * One division, as seen on the state *)
Section OneDiv.
  Variable (st : qstate) (i : nat) (p : point).
  Hypothesis (W : wf (q_store st)) (Hi : (i < nl (q_store st))%nat).
  Let s := q_store st.
  Let s' := q_store (divide_segment st i p).
  Lemma od_wf : wf s'.
  Proof. apply div_wf; assumption. Qed.
  Lemma od_nl : nl s' = S (nl s).
  Proof. apply div_nl. Qed.
  Lemma od_start k : (k < nl s)%nat -> lstart s' k = lstart s k.
  Proof. intros. apply div_lstart_old; assumption. Qed.
  Lemma od_end k : (k < nl s)%nat -> k <> i -> lend s' k = lend s k.
  Proof. intros. apply div_lend_old; assumption. Qed.
  Lemma od_end_i : lend s' i = p.
  Proof. apply div_lend_i; assumption. Qed.
  Lemma od_start_new : lstart s' (nl s) = p.
  Proof. apply div_lstart_new. Qed.
  Lemma od_end_new : lend s' (nl s) = lend s i.
  Proof. apply div_lend_new; assumption. Qed.
  Lemma od_on k q : (k < nl s)%nat -> k <> i -> (on_left s' k q <-> on_left s k q).
  Proof. intros A B. unfold on_left. rewrite od_start, od_end by assumption. reflexivity. Qed.
  Hypothesis (Sp : splits s i p).
  Lemma od_on_i q : on_left s' i q <-> on_left s i q /\ ple q p.
  Proof. unfold on_left. rewrite od_start, od_end_i by assumption. apply head_on; apply Sp. Qed.
  Lemma od_on_new q : on_left s' (nl s) q <-> on_left s i q /\ ple p q.
  Proof. unfold on_left. rewrite od_start_new, od_end_new by assumption. apply tail_on; apply Sp. Qed.
  Lemma od_sub k q : (k < nl s)%nat -> on_left s' k q -> on_left s k q.
  Proof.
    intros A H. destruct (Nat.eq_dec k i) as [->|N]; [apply od_on_i in H; tauto|]. apply od_on in H; assumption.
  Qed.
  Lemma od_splits_same q : splits s i q -> plt q p -> splits s' i q.
  Proof.
    intros (A & B & C) D. split; [apply od_on_i; split; [exact A|left; exact D]|].
    rewrite od_start, od_end_i by assumption. split; [exact B|exact D].
  Qed.
  Lemma od_splits_other k q : (k < nl s)%nat -> k <> i -> splits s k q -> splits s' k q.
  Proof.
    intros A N (B & C & D). split; [apply od_on; assumption|]. rewrite od_start, od_end by assumption. auto.
  Qed.
End OneDiv.

(* A common point of two pieces at which one of them is divided is a candidate. *)
Lemma common_candidate inp s b e p : pieces inp s -> (b < nl s)%nat -> (e < nl s)%nat ->
  meet_at (on_left s b) (on_left s e) p -> In p (candidates inp).
Proof.
  intros P Hb He (A & B & U). assert (Lb := pc_lt _ _ P b Hb). assert (Le := pc_lt _ _ P e He).
  destruct (qeqb_spec (dirs (it_lo (orig s b)) (it_hi (orig s b)) (it_lo (orig s e)) (it_hi (orig s e))) 0) as [Z|N].
  - assert (Ob := pieces_on _ _ _ _ P Hb A). assert (Oe := pieces_on _ _ _ _ P He B).
    destruct (parallel_line _ _ _ _ p Z Ob Oe) as [K1 K2].
    assert (L : forall q, on_item (orig s e) q -> cross (it_lo (orig s b)) (it_hi (orig s b)) q = 0).
    { intros q (t & _ & _ & ->). rewrite cross_on_line_lerp, K1, K2. ring. }
    assert (Nb : it_lo (orig s b) <> it_hi (orig s b)).
    { intros E. assert (Q1 := pc_start _ _ P b Hb). assert (Q2 := pc_end _ _ P b Hb). unfold on_item in Q1, Q2.
      rewrite E in Q1, Q2. apply on_segment_refl in Q1, Q2. apply (plt_neq _ _ Lb). congruence. }
    assert (T : forall q, on_item (orig s e) q -> cross (lstart s b) (lend s b) q = 0).
    { intros q Q.
      assert (C1 := on_segment_cross _ _ _ (pc_start _ _ P b Hb)).
      assert (C2 := on_segment_cross _ _ _ (pc_end _ _ P b Hb)).
      exact (proj1 (cross_line_change _ _ (lstart s b) (lend s b) q Nb (plt_neq _ _ Lb) C1 C2) (L q Q)). }
    destruct (collinear_common _ _ _ _ p Lb Le (T _ (pc_start _ _ P e He)) (T _ (pc_end _ _ P e He)) A B)
      as [[_ D]|[_ D]].
    + rewrite <- (U _ D (on_segment_start _ _)). apply (pc_start_in _ _ P e He).
    + rewrite <- (U _ (on_segment_start _ _) D). apply (pc_start_in _ _ P b Hb).
  - apply (candidate_int inp (orig s b) (orig s e)); try apply (pc_orig _ _ P); try assumption.
    + apply (pieces_on _ _ _ _ P Hb A).
    + apply (pieces_on _ _ _ _ P He B).
Qed.

Section Detect.
  Variable (inp : list item) (mark : bool) (st : qstate) (b e : nat).
  Let s := q_store st.
  Hypothesis (P : pieces inp s) (Hb : (b < nl s)%nat) (He : (e < nl s)%nat).
  Let b0 := lstart s b. Let b1 := lend s b. Let e0 := lstart s e. Let e1 := lend s e.
  Let W := pc_wf _ _ P.
  Let Lb : plt b0 b1 := pc_lt _ _ P b Hb.
  Let Le : plt e0 e1 := pc_lt _ _ P e He.
  Let Nb : nondegenerate (lseg s b) := plt_neq _ _ Lb.
  Let Ne : nondegenerate (lseg s e) := plt_neq _ _ Le.

  (* The mark of the compound variant. *)
  Definition marked (s0 : store) : Prop :=
    let kind := if Bool.eqb (l_interior_to_left (gl s e)) (l_interior_to_left (gl s b)) then OSAME else ODIFFERENT in
    s0 = if mark then upd_left (upd_left s b (set_overlap_kind kind)) e (set_overlap_kind kind) else s.
  Lemma marked_geo s0 : marked s0 -> same_geo s s0.
  Proof.
    intros ->. destruct mark; [|apply same_geo_refl].
    eapply same_geo_trans; apply set_kind_geo.
  Qed.

  Lemma queue_lt_starts : b0 <> e0 -> (queue_lt s (EL e) (EL b) = true <-> plt e0 b0).
  Proof.
    intros N. unfold queue_lt. cbn [estart]. fold b0 e0.
    destruct (qeqb_spec (px e0) (px b0)) as [E|E]; cbn [negb].
    - destruct (qeqb_spec (py e0) (py b0)) as [F|F]; cbn [negb].
      + exfalso. apply N. apply pt_eq; auto.
      + rewrite <- (reflect_iff _ _ (qltb_spec _ _)). unfold plt. split; [auto|].
        intros [K|[_ K]]; [|exact K]. exfalso. qlra.
    - rewrite <- (reflect_iff _ _ (qltb_spec _ _)). unfold plt. split; [auto|].
      intros [K|[K _]]; [exact K|]. exfalso. auto.
  Qed.
  Lemma queue_lt_ends : b1 <> e1 ->
    (queue_lt s (ER (l_right (gl s e))) (ER (l_right (gl s b))) = true <-> plt e1 b1).
  Proof.
    intros N. unfold queue_lt. cbn [estart]. fold (lend s b) (lend s e). fold b1 e1.
    destruct (qeqb_spec (px e1) (px b1)) as [E|E]; cbn [negb].
    - destruct (qeqb_spec (py e1) (py b1)) as [F|F]; cbn [negb].
      + exfalso. apply N. apply pt_eq; auto.
      + rewrite <- (reflect_iff _ _ (qltb_spec _ _)). unfold plt. split; [auto|].
        intros [K|[_ K]]; [|exact K]. exfalso. qlra.
    - rewrite <- (reflect_iff _ _ (qltb_spec _ _)). unfold plt. split; [auto|].
      intros [K|[K _]]; [exact K|]. exfalso. auto.
  Qed.

  (* The nine cases of the overlap branch. *)
  Lemma detect_overlap_cases st' flag :
    detect_overlap mark st b e = Ok (st', flag) ->
    l_from_test (gl s e) <> l_from_test (gl s b) /\
    ((b0 = e0 /\ flag = true /\ exists s0, marked s0 /\ let st0 := QS s0 (q_queue st) in
        (b1 = e1 /\ st' = st0 \/ plt e1 b1 /\ st' = divs st0 [(b, e1)] \/ plt b1 e1 /\ st' = divs st0 [(e, b1)]))
     \/ (flag = false /\
         (plt e0 b0 /\ b1 = e1 /\ st' = divs st [(e, b0)]
          \/ plt b0 e0 /\ b1 = e1 /\ st' = divs st [(b, e0)]
          \/ plt e0 b0 /\ plt b1 e1 /\ st' = divs st [(e, b1); (e, b0)]
          \/ plt b0 e0 /\ plt e1 b1 /\ st' = divs st [(b, e1); (b, e0)]
          \/ plt e0 b0 /\ plt e1 b1 /\ st' = divs st [(b, e1); (e, b0)]
          \/ plt b0 e0 /\ plt b1 e1 /\ st' = divs st [(e, b1); (b, e0)]))).
  Proof.
    unfold detect_overlap. fold s.
    destruct (Bool.eqb_spec (l_from_test (gl s e)) (l_from_test (gl s b))) as [F|F]; [discriminate|].
    intros D. split; [exact F|].
    assert (NE : e <> b) by congruence.
    destruct (wf_r s W b Hb) as [Rb Rb']. destruct (wf_r s W e He) as [Re Re'].
    assert (QS1 := queue_lt_starts). assert (QE1 := queue_lt_ends). fold b0 b1 e0 e1 in QS1, QE1, D |- .
    destruct (pt_eqb_spec b0 e0) as [ES|ES]; cbn [orb] in D.
    - left. split; [exact ES|].
      destruct (pt_eqb_spec b1 e1) as [EE|EE]; cbn [orb negb] in D.
      + injection D as <- <-. split; [reflexivity|].
        eexists. split; [reflexivity|]. left. split; [exact EE|]. destruct mark; [reflexivity|].
        subst s. destruct st; reflexivity.
      + destruct (queue_lt s (ER (l_right (gl s e))) (ER (l_right (gl s b)))) eqn:Q.
        * assert (Q' := proj1 (QE1 EE) eq_refl). injection D as <- <-. split; [reflexivity|].
          eexists. split; [reflexivity|]. right; left. split; [exact Q'|]. cbn [divs].
          rewrite Rb'. fold (lend s e). fold e1. destruct mark; [reflexivity|].
          subst s. destruct st; reflexivity.
        * assert (Q' : plt b1 e1).
          { destruct (plt_total b1 e1) as [K|[K|K]]; [exact K|congruence|].
            apply QE1 in K; [discriminate|exact EE]. }
          injection D as <- <-. split; [reflexivity|].
          eexists. split; [reflexivity|]. right; right. split; [exact Q'|]. cbn [divs].
          rewrite Re'. fold (lend s b). fold b1. destruct mark; [reflexivity|].
          subst s. destruct st; reflexivity.
    - right. specialize (QS1 ES).
      assert (QS2 : queue_lt s (EL e) (EL b) = false -> plt b0 e0).
      { intros Q. destruct (plt_total b0 e0) as [K|[K|K]]; [exact K|congruence|]. apply QS1 in K. congruence. }
      destruct (pt_eqb_spec b1 e1) as [EE|EE]; cbn [orb negb] in D.
      + destruct (queue_lt s (EL e) (EL b)) eqn:Q; injection D as <- <-; split; try reflexivity.
        * left. split; [apply QS1; reflexivity|]. split; [exact EE|]. reflexivity.
        * right; left. split; [apply QS2; reflexivity|]. split; [exact EE|]. reflexivity.
      + specialize (QE1 EE).
        assert (QE2 : queue_lt s (ER (l_right (gl s e))) (ER (l_right (gl s b))) = false -> plt b1 e1).
        { intros Q. destruct (plt_total b1 e1) as [K|[K|K]]; [exact K|congruence|]. apply QE1 in K. congruence. }
        destruct (queue_lt s (EL e) (EL b)) eqn:Q;
          destruct (queue_lt s (ER (l_right (gl s e))) (ER (l_right (gl s b)))) eqn:R;
          rewrite ?Rb', ?Re', ?Nat.eqb_refl in D;
          repeat match type of D with context [Nat.eqb ?x ?y] =>
            replace (Nat.eqb x y) with false in D by (symmetry; apply Nat.eqb_neq; congruence) end;
          injection D as <- <-; split; try reflexivity.
        * right; right; right; right; left. split; [apply QS1; reflexivity|]. split; [apply QE1; reflexivity|]. reflexivity.
        * right; right; left. split; [apply QS1; reflexivity|]. split; [apply QE2; reflexivity|]. reflexivity.
        * right; right; right; left. split; [apply QS2; reflexivity|]. split; [apply QE1; reflexivity|]. reflexivity.
        * right; right; right; right; right. split; [apply QS2; reflexivity|]. split; [apply QE2; reflexivity|]. reflexivity.
  Qed.

  (* Break points are single common points or end points. *)
  Definition break_at (p : point) : Prop :=
    meet_at (on_left s b) (on_left s e) p \/ p = b0 \/ p = b1 \/ p = e0 \/ p = e1.
  Definition detected (st' : qstate) (flag : bool) : Prop :=
    b <> e /\ exists s0 l,
      (if flag then (b0 = e0 /\ l_from_test (gl s e) <> l_from_test (gl s b)) /\ marked s0 else s0 = s)
      /\ st' = divs (QS s0 (q_queue st)) l /\ split_seq inp (QS s0 (q_queue st)) l /\ (length l <= 2)%nat
      /\ (forall i p, In (i, p) l -> (i = b \/ i = e) /\ splits s i p /\ on_left s b p /\ on_left s e p /\ break_at p)
      /\ (if flag then coincide (q_store st') b e else only_ends (q_store st') b e).

  Lemma detect_overlap_spec st' flag :
    share_segment (on_left s b) (on_left s e) ->
    detect_overlap mark st b e = Ok (st', flag) -> detected st' flag.
  Proof.
    intros Sh D. apply detect_overlap_cases in D. destruct D as [F D].
    assert (NE : b <> e) by congruence. split; [exact NE|].
    destruct (overlap_line _ _ _ _ Lb Le Sh) as (C0 & C1 & X0 & X1). fold b0 b1 e0 e1 in C0, C1, X0, X1, D.
    assert (Oe : forall q, on_left s e q <-> cross b0 b1 q = 0 /\ ple e0 q /\ ple q e1)
      by (intros q; apply (col_on b0 b1 e0 e1 q Lb Le C0 C1)).
    assert (Ob : forall q, on_left s b q <-> cross b0 b1 q = 0 /\ ple b0 q /\ ple q b1)
      by (intros q; apply (on_segment_order b0 b1 q Lb)).
    assert (Kb0 : In b0 (candidates inp)) by apply (pc_start_in _ _ P b Hb).
    assert (Kb1 : In b1 (candidates inp)) by apply (pc_end_in _ _ P b Hb).
    assert (Ke0 : In e0 (candidates inp)) by apply (pc_start_in _ _ P e He).
    assert (Ke1 : In e1 (candidates inp)) by apply (pc_end_in _ _ P e He).
    assert (Z0 : cross b0 b1 b0 = 0) by (unfold cross; ring).
    assert (Z1 : cross b0 b1 b1 = 0) by (unfold cross; ring).
    assert (Sb : forall q, cross b0 b1 q = 0 -> plt b0 q -> plt q b1 -> splits s b q).
    { intros q Q0 Q1 Q2. split; [apply Ob; repeat split; [exact Q0|left; exact Q1|left; exact Q2]|]. split; assumption. }
    assert (Se : forall q, cross b0 b1 q = 0 -> plt e0 q -> plt q e1 -> splits s e q).
    { intros q Q0 Q1 Q2. split; [apply Oe; repeat split; [exact Q0|left; exact Q1|left; exact Q2]|]. split; assumption. }
    assert (Cb : forall q, splits s b q -> on_left s b q) by (intros q Q; apply Q).
    assert (Ce : forall q, splits s e q -> on_left s e q) by (intros q Q; apply Q).
    assert (G : forall s0, marked s0 -> pieces inp s0 /\ same_geo s s0).
    { intros s0 M. apply marked_geo in M. split; [exact (same_geo_pieces _ _ _ M P)|exact M]. }
    assert (Gs : forall s0 i q, same_geo s s0 -> splits s i q -> splits s0 i q).
    { intros s0 i q M (Q0 & Q1 & Q2). unfold splits, on_left. rewrite (geo_lstart M), (geo_lend M). auto. }
    destruct D as [(E0 & -> & s0 & M & D)|(-> & D)].
    - destruct (G s0 M) as [P0 G0]. assert (W0 := pc_wf _ _ P0).
      assert (Hb0 : (b < nl s0)%nat) by (rewrite (sg_len _ _ G0); exact Hb).
      assert (He0 : (e < nl s0)%nat) by (rewrite (sg_len _ _ G0); exact He).
      exists s0. destruct D as [[E1 ->]|[[L ->]|[L ->]]].
      + exists []. repeat apply conj; try assumption; try exact I.
        * reflexivity.
        * cbn; lia.
        * intros i p [].
        * cbn [q_store]. rewrite !(geo_lstart G0). exact E0.
        * cbn [q_store]. rewrite !(geo_lend G0). exact E1.
      + assert (S1 : splits s b e1) by (apply Sb; assumption).
        exists [(b, e1)]. repeat apply conj; try assumption; try exact I; cbn [divs q_store].
        * reflexivity.
        * apply (Gs s0 b e1 G0 S1).
        * apply (Gs s0 b e1 G0 S1).
        * apply (Gs s0 b e1 G0 S1).
        * cbn; lia.
        * intros i p [Q|[]]. injection Q as <- <-. split; [auto|]. split; [exact S1|]. split; [apply S1|].
          split; [apply on_segment_end|unfold break_at; auto].
        * rewrite !od_start by assumption. cbn [q_store]. rewrite !(geo_lstart G0). exact E0.
        * rewrite od_end_i, od_end by (assumption || congruence). cbn [q_store]. rewrite (geo_lend G0). reflexivity.
      + assert (S1 : splits s e b1) by (apply Se; [exact Z1| |exact L]; rewrite <- E0; exact Lb).
        exists [(e, b1)]. repeat apply conj; try assumption; try exact I; cbn [divs q_store].
        * reflexivity.
        * apply (Gs s0 e b1 G0 S1).
        * apply (Gs s0 e b1 G0 S1).
        * apply (Gs s0 e b1 G0 S1).
        * cbn; lia.
        * intros i p [Q|[]]. injection Q as <- <-. split; [auto|]. split; [exact S1|]. split; [apply on_segment_end|].
          split; [apply S1|unfold break_at; auto].
        * rewrite !od_start by assumption. cbn [q_store]. rewrite !(geo_lstart G0). exact E0.
        * rewrite od_end_i, od_end by (assumption || congruence). cbn [q_store]. rewrite (geo_lend G0). reflexivity.
    - assert (Est : st = QS s (q_queue st)) by exact (qstate_eta st).
      exists s. rewrite <- Est.
      assert (One : forall i q, i = b \/ i = e -> splits s i q -> on_left s b q -> on_left s e q -> In q (candidates inp) ->
                break_at q ->
                split_seq inp st [(i, q)] /\ (length [(i, q)] <= 2)%nat
                /\ (forall i0 p, In (i0, p) [(i, q)] -> (i0 = b \/ i0 = e) /\ splits s i0 p /\ on_left s b p /\ on_left s e p /\ break_at p)).
      { intros i q Ii Q1 Q2 Q3 Q4 Q5. assert (Hi : (i < nl s)%nat) by (destruct Ii as [->| ->]; assumption).
        split; [cbn [split_seq]; auto|]. split; [cbn; lia|].
        intros i0 p [K|[]]. injection K as <- <-. auto. }
      assert (Two : forall i q i' q', i = b \/ i = e -> i' = b \/ i' = e -> splits s i q -> splits s i' q' ->
                on_left s b q -> on_left s e q -> on_left s b q' -> on_left s e q' ->
                In q (candidates inp) -> In q' (candidates inp) ->
                (i = i' -> plt q' q) -> break_at q -> break_at q' ->
                split_seq inp st [(i, q); (i', q')] /\ (length [(i, q); (i', q')] <= 2)%nat
                /\ (forall i0 p, In (i0, p) [(i, q); (i', q')] ->
                       (i0 = b \/ i0 = e) /\ splits s i0 p /\ on_left s b p /\ on_left s e p /\ break_at p)).
      { intros i q i' q' Ii Ii' Q1 Q1' Q2 Q3 Q2' Q3' K K' O Q5 Q5'.
        assert (Hi : (i < nl s)%nat) by (destruct Ii as [->| ->]; assumption).
        assert (Hi' : (i' < nl s)%nat) by (destruct Ii' as [->| ->]; assumption).
        split; [cbn [split_seq]|split; [cbn; lia|]].
        - split; [exact Hi|]. split; [exact Q1|]. split; [exact K|]. split; [rewrite od_nl; fold s; lia|].
          split; [|auto]. destruct (Nat.eq_dec i i') as [<-|N].
          + apply od_splits_same; auto.
          + apply od_splits_other; auto.
        - intros i0 p [J|[J|[]]]; injection J as <- <-; auto. }
      assert (Fin : forall l, split_seq inp st l -> plt (lstart (q_store (divs st l)) b) (lend (q_store (divs st l)) b)
                                          /\ plt (lstart (q_store (divs st l)) e) (lend (q_store (divs st l)) e)).
      { intros l Hl. assert (P1 := divs_pieces inp l st P Hl).
        assert (NL : (nl s <= nl (q_store (divs st l)))%nat).
        { rewrite divs_nl. fold s. lia. }
        split; apply (pc_lt _ _ P1); lia. }
      assert (Sq : forall l, split_seq inp st l ->
                lend (q_store (divs st l)) b = lstart (q_store (divs st l)) e
                \/ lend (q_store (divs st l)) e = lstart (q_store (divs st l)) b -> only_ends (q_store (divs st l)) b e).
      { intros l Hl [E|E]; destruct (Fin l Hl).
        - apply only_ends_seq; assumption.
        - apply only_ends_sym, only_ends_seq; assumption. }
      assert (Main : forall l, st' = divs st l ->
                split_seq inp st l /\ (length l <= 2)%nat
                /\ (forall i0 p, In (i0, p) l -> (i0 = b \/ i0 = e) /\ splits s i0 p /\ on_left s b p /\ on_left s e p /\ break_at p) ->
                lend (q_store (divs st l)) b = lstart (q_store (divs st l)) e
                \/ lend (q_store (divs st l)) e = lstart (q_store (divs st l)) b ->
                exists l, s = s /\ st' = divs st l /\ split_seq inp st l /\ (length l <= 2)%nat
                /\ (forall i0 p, In (i0, p) l -> (i0 = b \/ i0 = e) /\ splits s i0 p /\ on_left s b p /\ on_left s e p /\ break_at p)
                /\ only_ends (q_store st') b e).
      { intros l E (H1 & H2 & H3) H4. exists l. split; [reflexivity|]. split; [exact E|]. split; [exact H1|].
        split; [exact H2|]. split; [exact H3|]. rewrite E. apply Sq; assumption. }
      assert (Ub0 : ple e0 b0 -> on_left s e b0) by (intros Q; apply Oe; split; [exact Z0|]; split; [exact Q|left; exact X0]).
      assert (Ub1 : ple b1 e1 -> on_left s e b1) by (intros Q; apply Oe; split; [exact Z1|]; split; [left; exact X1|exact Q]).
      assert (Ue0 : ple b0 e0 -> on_left s b e0) by (intros Q; apply Ob; split; [exact C0|]; split; [exact Q|left; exact X1]).
      assert (Ue1 : ple e1 b1 -> on_left s b e1) by (intros Q; apply Ob; split; [exact C1|]; split; [left; exact X0|exact Q]).
      assert (Vb0 : on_left s b b0) by apply on_segment_start.
      assert (Vb1 : on_left s b b1) by apply on_segment_end.
      assert (Ve0 : on_left s e e0) by apply on_segment_start.
      assert (Ve1 : on_left s e e1) by apply on_segment_end.
      assert (PL : forall x y, plt x y -> ple x y) by (intros x y Q; left; exact Q).
      assert (NE' := not_eq_sym NE).
      assert (Bb0 : break_at b0) by (unfold break_at; auto). assert (Bb1 : break_at b1) by (unfold break_at; auto).
      assert (Be0 : break_at e0) by (unfold break_at; auto). assert (Be1 : break_at e1) by (unfold break_at; auto 6).
      destruct D as [(L & E1 & D)|[(L & E1 & D)|[(L & L' & D)|[(L & L' & D)|[(L & L' & D)|(L & L' & D)]]]]].
      + apply (Main [(e, b0)] D).
        * apply One; auto.
        * right. cbn [divs]. rewrite od_end_i, od_start by assumption. reflexivity.
      + apply (Main [(b, e0)] D).
        * apply One; auto.
        * left. cbn [divs]. rewrite od_end_i, od_start by assumption. reflexivity.
      + apply (Main [(e, b1); (e, b0)] D).
        * apply Two; auto.
        * right. cbn [divs]. assert (W1 := od_wf st e b1 W He).
          rewrite od_end_i by (auto || (rewrite od_nl; fold s; lia)).
          rewrite !od_start by (auto || (rewrite od_nl; fold s; lia)). reflexivity.
      + apply (Main [(b, e1); (b, e0)] D).
        * apply Two; auto.
        * left. cbn [divs]. assert (W1 := od_wf st b e1 W Hb).
          rewrite od_end_i by (auto || (rewrite od_nl; fold s; lia)).
          rewrite !od_start by (auto || (rewrite od_nl; fold s; lia)). reflexivity.
      + apply (Main [(b, e1); (e, b0)] D).
        * apply Two; auto; intros; congruence.
        * right. cbn [divs]. assert (W1 := od_wf st b e1 W Hb).
          rewrite od_end_i by (auto || (rewrite od_nl; fold s; lia)).
          rewrite !od_start by (auto || (rewrite od_nl; fold s; lia)). reflexivity.
      + apply (Main [(e, b1); (b, e0)] D).
        * apply Two; auto; intros; congruence.
        * left. cbn [divs]. assert (W1 := od_wf st e b1 W He).
          rewrite od_end_i by (auto || (rewrite od_nl; fold s; lia)).
          rewrite !od_start by (auto || (rewrite od_nl; fold s; lia)). reflexivity.
  Qed.

  Lemma split_or_end s' i p : plt (lstart s' i) (lend s' i) -> on_left s' i p ->
    negb (pt_eqb p (lstart s' i)) && negb (pt_eqb p (lend s' i)) = true /\ splits s' i p
    \/ negb (pt_eqb p (lstart s' i)) && negb (pt_eqb p (lend s' i)) = false /\ ends_left s' i p.
  Proof using Type.
    clear. intros L O.
    destruct (pt_eqb_spec p (lstart s' i)) as [E1|E1]; cbn [negb andb]; [right; split; [reflexivity|left; exact E1]|].
    destruct (pt_eqb_spec p (lend s' i)) as [E2|E2]; cbn [negb andb]; [right; split; [reflexivity|right; exact E2]|].
    left. split; [reflexivity|]. assert (O' := O). apply (on_segment_order _ _ _ L) in O'.
    destruct O' as (_ & [O1|O1] & [O2|O2]); try congruence. split; [exact O|]. split; assumption.
  Qed.
  Lemma detect_point_spec p : meet_at (on_left s b) (on_left s e) p -> b <> e ->
    detected (let st := if negb (pt_eqb p (lstart s b)) && negb (pt_eqb p (lend s b))
                        then divide_segment st b p else st in
              if negb (pt_eqb p (lstart (q_store st) e)) && negb (pt_eqb p (lend (q_store st) e))
              then divide_segment st e p else st) false.
  Proof.
    intros M NE. assert (Kp := common_candidate _ _ _ _ _ P Hb He M).
    assert (Bp : break_at p) by (left; exact M). destruct M as (A & B & U).
    assert (NE' := not_eq_sym NE).
    split; [exact NE|]. exists s. replace (QS s (q_queue st)) with st by exact (qstate_eta st).
    destruct (split_or_end s b p Lb A) as [[-> Sb]|[-> Eb]].
    - assert (Ls : lstart (q_store (divide_segment st b p)) e = e0) by (apply od_start; assumption).
      assert (Le' : lend (q_store (divide_segment st b p)) e = e1) by (apply od_end; assumption).
      assert (Wb := od_wf st b p W Hb).
      cbv zeta. rewrite Ls, Le'. destruct (split_or_end s e p Le B) as [[Q Se]|[Q Ee]]; unfold e0, e1; rewrite Q.
      + exists [(b, p); (e, p)]. cbn [divs]. split; [reflexivity|]. split; [reflexivity|].
        split; [|split; [cbn; lia|split]].
        * cbn [split_seq]. split; [exact Hb|]. split; [exact Sb|]. split; [exact Kp|].
          split; [rewrite od_nl; fold s; lia|]. split; [apply od_splits_other; assumption|]. auto.
        * intros i q [K|[K|[]]]; injection K as <- <-; auto.
        * intros q Q1 Q2.
          assert (He' : (e < nl (q_store (divide_segment st b p)))%nat) by (rewrite od_nl; fold s; lia).
          assert (Hb' : (b < nl (q_store (divide_segment st b p)))%nat) by (rewrite od_nl; fold s; lia).
          assert (Se' : splits (q_store (divide_segment st b p)) e p) by (apply od_splits_other; assumption).
          apply od_sub in Q1, Q2; try assumption. apply od_sub in Q1, Q2; try assumption.
          rewrite (U q Q1 Q2). unfold ends_left. split; right.
          -- rewrite od_end, od_end_i by assumption. reflexivity.
          -- rewrite od_end_i by assumption. reflexivity.
      + exists [(b, p)]. cbn [divs]. split; [reflexivity|]. split; [reflexivity|].
        split; [|split; [cbn; lia|split]].
        * cbn [split_seq]. auto.
        * intros i q [K|[]]; injection K as <- <-; auto.
        * intros q Q1 Q2. apply od_sub in Q1, Q2; try assumption. rewrite (U q Q1 Q2). unfold ends_left. split.
          -- right. rewrite od_end_i by assumption. reflexivity.
          -- rewrite Ls, Le'. exact Ee.
    - cbv zeta. destruct (split_or_end s e p Le B) as [[Q Se]|[Q Ee]]; fold s; rewrite Q.
      + exists [(e, p)]. cbn [divs]. split; [reflexivity|]. split; [reflexivity|].
        split; [|split; [cbn; lia|split]].
        * cbn [split_seq]. auto.
        * intros i q [K|[]]; injection K as <- <-; auto.
        * intros q Q1 Q2. apply od_sub in Q1, Q2; try assumption. rewrite (U q Q1 Q2). unfold ends_left. split.
          -- rewrite od_start, od_end by assumption. exact Eb.
          -- right. rewrite od_end_i by assumption. reflexivity.
      + exists []. cbn [divs]. split; [reflexivity|]. split; [reflexivity|].
        split; [exact I|split; [cbn; lia|split]].
        * intros ? ? [].
        * intros q Q1 Q2. rewrite (U q Q1 Q2). split; assumption.
  Qed.

  Lemma detect_spec st' flag :
    detect_intersection mark st b e = Ok (st', flag) -> detected st' flag.
  Proof.
    unfold detect_intersection. fold s.
    assert (So := segments_relation_sound _ _ Nb Ne).
    assert (NE : segments_relation (lseg s b) (lseg s e) <> EQUAL -> b <> e)
      by (intros R E; apply R; rewrite E; apply segments_relation_refl).
    destruct (segments_relation_cases (lseg s b) (lseg s e)) as [R|[R|[R|R]]].
    - rewrite R in So, NE |- *. intros D. injection D as <- <-.
      split; [apply NE; discriminate|]. exists s, []. split; [reflexivity|].
      split; [exact (qstate_eta st)|]. split; [exact I|]. split; [cbn; lia|]. split; [intros ? ? []|].
      intros q A B. exfalso. apply So. exists q; split; assumption.
    - rewrite R in So, NE |- *. destruct So as (p & M & _).
      generalize (detect_point_spec (segments_intersection (lseg s b) (lseg s e))
                    (segments_intersection_on _ _ Nb Ne (ex_intro _ p M)) (NE ltac:(discriminate))).
      cbv zeta. generalize (segments_intersection (lseg s b) (lseg s e)). intros p0 K D.
      match type of K with detected ?x false => generalize x K D end.
      intros x K' D'. inversion D'. subst. exact K'.
    - rewrite R in So, NE |- *. destruct So as (p & M & _).
      generalize (detect_point_spec (segments_intersection (lseg s b) (lseg s e))
                    (segments_intersection_on _ _ Nb Ne (ex_intro _ p M)) (NE ltac:(discriminate))).
      cbv zeta. generalize (segments_intersection (lseg s b) (lseg s e)). intros p0 K D.
      match type of K with detected ?x false => generalize x K D end.
      intros x K' D'. inversion D'. subst. exact K'.
    - intros D. apply detect_overlap_spec; [apply (shares_spec _ _ Nb Ne R)|].
      destruct (segments_relation (lseg s b) (lseg s e)); try discriminate; exact D.
  Qed.
  (* The only failure is the overlap of two segments of the same side. *)
  Lemma detect_raise ex :
    detect_intersection mark st b e = Raise ex ->
    ex = ValueError /\ l_from_test (gl s b) = l_from_test (gl s e)
    /\ share_segment (on_left s b) (on_left s e).
  Proof.
    unfold detect_intersection. fold s.
    destruct (segments_relation_cases (lseg s b) (lseg s e)) as [R|[R|[R|R]]]; try (rewrite R; discriminate).
    intros D. assert (D' : detect_overlap mark st b e = Raise ex)
      by (destruct (segments_relation (lseg s b) (lseg s e)); try discriminate; exact D).
    unfold detect_overlap in D'. fold s in D'.
    destruct (Bool.eqb_spec (l_from_test (gl s e)) (l_from_test (gl s b))) as [F|F].
    - injection D' as <-. split; [reflexivity|]. split; [auto|]. apply (shares_spec _ _ Nb Ne R).
    - exfalso. revert D'.
      repeat match goal with |- context [if ?c then _ else _] => destruct c end; discriminate.
  Qed.
End Detect.
