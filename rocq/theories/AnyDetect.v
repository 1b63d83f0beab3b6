(* [detect_intersection] performs the same divisions whatever the queue is made of. *)
From Coq Require Import QArith Qcanon List Bool ZArith Lia Permutation.
From Verif Require Import Scalar Base Ground MLinear MSweep MCompound Planar Spec Geom RayParity SegProofs
  SweepStore SweepDetect SweepSteps MContainers.
Import ListNotations.
Open Scope Qc_scope.

Fixpoint c_divs Q (st : cstate Q) (l : list (nat * point)) : cstate Q :=
  match l with
  | [] => st
  | (i, p) :: l' => c_divs Q (c_divide Q st i p) l'
  end.

(* The marked store and the divisions to be done. *)
Definition overlap_plan (mark : bool) (s : store) (below event : nat) : res (store * list (nat * point) * bool) :=
  if Bool.eqb (l_from_test (gl s event)) (l_from_test (gl s below)) then Raise ValueError
  else
    let starts_equal := pt_eqb (lstart s below) (lstart s event) in
    let ends_equal := pt_eqb (lend s below) (lend s event) in
    let '(start_min, start_max) :=
      if starts_equal || queue_lt s (EL event) (EL below) then (event, below) else (below, event) in
    let r_event := l_right (gl s event) in
    let r_below := l_right (gl s below) in
    let '(end_min, end_max) :=
      if ends_equal || queue_lt s (ER r_event) (ER r_below) then (r_event, r_below) else (r_below, r_event) in
    let end_min_start := r_start (gr s end_min) in
    let start_max_start := lstart s start_max in
    if starts_equal then
      let kind := if Bool.eqb (l_interior_to_left (gl s event)) (l_interior_to_left (gl s below))
                  then OSAME else ODIFFERENT in
      let s0 := if mark
                then upd_left (upd_left s below (set_overlap_kind kind)) event (set_overlap_kind kind)
                else s in
      Ok (s0, if negb ends_equal then [(r_left (gr s end_max), end_min_start)] else [], true)
    else if ends_equal then Ok (s, [(start_min, start_max_start)], false)
    else if Nat.eqb start_min (r_left (gr s end_max))
         then Ok (s, [(start_min, end_min_start); (start_min, start_max_start)], false)
         else Ok (s, [(start_max, end_min_start); (start_min, start_max_start)], false).
Definition plan (mark : bool) (s : store) (below event : nat) : res (store * list (nat * point) * bool) :=
  match segments_relation (lseg s below) (lseg s event) with
  | TOUCH | CROSS =>
      let p := segments_intersection (lseg s below) (lseg s event) in
      let l := if negb (pt_eqb p (lstart s below)) && negb (pt_eqb p (lend s below)) then [(below, p)] else [] in
      let s1 := q_store (divs (QS s []) l) in
      let l' := if negb (pt_eqb p (lstart s1 event)) && negb (pt_eqb p (lend s1 event)) then [(event, p)] else [] in
      Ok (s, l ++ l', false)
  | DISJOINT => Ok (s, [], false)
  | _ => overlap_plan mark s below event
  end.

Lemma divs_store l : forall s q1 q2, q_store (divs (QS s q1) l) = q_store (divs (QS s q2) l).
Proof. induction l as [|[i p] l IH]; intros s q1 q2; cbn [divs]; [reflexivity|]. apply IH. Qed.
Lemma divs_snoc st l i p : divs st (l ++ [(i, p)]) = divide_segment (divs st l) i p.
Proof. revert st. induction l as [|[k r] l IH]; intros st; cbn [divs app]; [reflexivity|]. apply IH. Qed.

Lemma detect_plan mark st b e : detect_intersection mark st b e =
  do r <- plan mark (q_store st) b e; Ok (divs (QS (fst (fst r)) (q_queue st)) (snd (fst r)), snd r).
Proof.
  assert (Ov : detect_overlap mark st b e =
    do r <- overlap_plan mark (q_store st) b e; Ok (divs (QS (fst (fst r)) (q_queue st)) (snd (fst r)), snd r)).
  { unfold detect_overlap, overlap_plan. destruct st as [s queue]. cbn [q_store q_queue].
    repeat match goal with |- context [if ?c then _ else _] => destruct c end; reflexivity. }
  unfold detect_intersection, plan. destruct st as [s queue]. cbn [q_store q_queue] in *.
  destruct (segments_relation (lseg s b) (lseg s e)); try exact Ov; cbn [bind fst snd]; try reflexivity;
    set (p := segments_intersection (lseg s b) (lseg s e));
    destruct (negb (pt_eqb p (lstart s b)) && negb (pt_eqb p (lend s b))); cbn [divs app q_store];
    try (change (q_store (divide_segment (QS s queue) b p)) with (q_store (divide_segment (QS s []) b p)));
    match goal with |- context [if ?c then [_] else []] => destruct c end; reflexivity.
Qed.
Lemma c_detect_plan Q mark (g : cstate Q) b e : c_detect_intersection Q mark g b e =
  do r <- plan mark (c_store Q g) b e; Ok (c_divs Q (CQ Q (fst (fst r)) (c_heap Q g)) (snd (fst r)), snd r).
Proof.
  assert (Ov : c_detect_overlap Q mark g b e =
    do r <- overlap_plan mark (c_store Q g) b e; Ok (c_divs Q (CQ Q (fst (fst r)) (c_heap Q g)) (snd (fst r)), snd r)).
  { unfold c_detect_overlap, overlap_plan. destruct g as [s queue]. cbn [c_store c_heap].
    repeat match goal with |- context [if ?c then _ else _] => destruct c end; reflexivity. }
  unfold c_detect_intersection, plan. destruct g as [s queue]. cbn [c_store c_heap] in *.
  destruct (segments_relation (lseg s b) (lseg s e)); try exact Ov; cbn [bind fst snd]; try reflexivity;
    set (p := segments_intersection (lseg s b) (lseg s e));
    destruct (negb (pt_eqb p (lstart s b)) && negb (pt_eqb p (lend s b))); cbn [divs c_divs app c_store q_store];
    try (change (c_store Q (c_divide Q (CQ Q s queue) b p)) with (q_store (divide_segment (QS s []) b p)));
    match goal with |- context [if ?c then [_] else []] => destruct c end; reflexivity.
Qed.

(** * The divisions are proper *)
Section Proper.
  Variable (inp : list item) (mark : bool) (st : qstate) (b e : nat).
  Let s := q_store st.
  Hypothesis (P : pieces inp s) (Hb : (b < nl s)%nat) (He : (e < nl s)%nat).
  Let b0 := lstart s b. Let b1 := lend s b. Let e0 := lstart s e. Let e1 := lend s e.
  Let W := pc_wf _ _ P.
  Let Lb : plt b0 b1 := pc_lt _ _ P b Hb.
  Let Le : plt e0 e1 := pc_lt _ _ P e He.
  Let Nb : nondegenerate (lseg s b) := plt_neq _ _ Lb.
  Let Ne : nondegenerate (lseg s e) := plt_neq _ _ Le.

  Lemma overlap_cases s0 l flag : overlap_plan mark s b e = Ok (s0, l, flag) ->
    l_from_test (gl s e) <> l_from_test (gl s b) /\
    (b0 = e0 /\ marked mark st b e s0 /\ (l = [] \/ plt e1 b1 /\ l = [(b, e1)] \/ plt b1 e1 /\ l = [(e, b1)])
     \/ s0 = s /\
         (plt e0 b0 /\ b1 = e1 /\ l = [(e, b0)]
          \/ plt b0 e0 /\ b1 = e1 /\ l = [(b, e0)]
          \/ plt e0 b0 /\ plt b1 e1 /\ l = [(e, b1); (e, b0)]
          \/ plt b0 e0 /\ plt e1 b1 /\ l = [(b, e1); (b, e0)]
          \/ plt e0 b0 /\ plt e1 b1 /\ l = [(b, e1); (e, b0)]
          \/ plt b0 e0 /\ plt b1 e1 /\ l = [(e, b1); (b, e0)])).
  Proof.
    unfold overlap_plan.
    destruct (Bool.eqb_spec (l_from_test (gl s e)) (l_from_test (gl s b))) as [F|F]; [discriminate|].
    intros D. split; [exact F|].
    assert (NE : e <> b) by congruence.
    destruct (wf_r s W b Hb) as [Rb Rb']. destruct (wf_r s W e He) as [Re Re'].
    assert (QS1 := queue_lt_starts st b e). assert (QE1 := queue_lt_ends st b e). fold s in QS1, QE1.
    fold b0 b1 e0 e1 in QS1, QE1, D |- .
    destruct (pt_eqb_spec b0 e0) as [ES|ES]; cbn [orb] in D.
    - left. split; [exact ES|].
      destruct (pt_eqb_spec b1 e1) as [EE|EE]; cbn [orb negb] in D.
      + injection D as <- <- <-. split; [reflexivity|auto].
      + destruct (queue_lt s (ER (l_right (gl s e))) (ER (l_right (gl s b)))) eqn:Q.
        * assert (Q' := proj1 (QE1 EE) eq_refl). injection D as <- <- <-. split; [reflexivity|]. right; left.
          split; [exact Q'|]. rewrite Rb'. reflexivity.
        * assert (Q' : plt b1 e1).
          { destruct (plt_total b1 e1) as [K|[K|K]]; [exact K|congruence|].
            apply QE1 in K; [discriminate|exact EE]. }
          injection D as <- <- <-. split; [reflexivity|]. right; right. split; [exact Q'|]. rewrite Re'. reflexivity.
    - right. specialize (QS1 ES).
      assert (QS2 : queue_lt s (EL e) (EL b) = false -> plt b0 e0).
      { intros Q. destruct (plt_total b0 e0) as [K|[K|K]]; [exact K|congruence|]. apply QS1 in K. congruence. }
      destruct (pt_eqb_spec b1 e1) as [EE|EE]; cbn [orb negb] in D.
      + destruct (queue_lt s (EL e) (EL b)) eqn:Q; injection D as <- <- <-; split; try reflexivity.
        * left. split; [apply QS1; reflexivity|]. split; [exact EE|]. reflexivity.
        * right; left. split; [apply QS2; reflexivity|]. split; [exact EE|]. reflexivity.
      + specialize (QE1 EE).
        assert (QE2 : queue_lt s (ER (l_right (gl s e))) (ER (l_right (gl s b))) = false -> plt b1 e1).
        { intros Q. destruct (plt_total b1 e1) as [K|[K|K]]; [exact K|congruence|]. apply QE1 in K. congruence. }
        destruct (queue_lt s (EL e) (EL b)) eqn:Q;
          destruct (queue_lt s (ER (l_right (gl s e))) (ER (l_right (gl s b)))) eqn:R;
          rewrite ?Rb', ?Re', ?Nat.eqb_refl in D;
          repeat match type of D with context [Nat.eqb ?x ?y] =>
            replace (Nat.eqb x y) with false in D by (symmetry; apply Nat.eqb_neq; congruence) end;
          injection D as <- <- <-; split; try reflexivity.
        * right; right; right; right; left. split; [apply QS1; reflexivity|]. split; [apply QE1; reflexivity|]. reflexivity.
        * right; right; left. split; [apply QS1; reflexivity|]. split; [apply QE2; reflexivity|]. reflexivity.
        * right; right; right; left. split; [apply QS2; reflexivity|]. split; [apply QE1; reflexivity|]. reflexivity.
        * right; right; right; right; right. split; [apply QS2; reflexivity|]. split; [apply QE2; reflexivity|]. reflexivity.
  Qed.

  Lemma overlap_proper s0 l flag : share_segment (on_left s b) (on_left s e) ->
    overlap_plan mark s b e = Ok (s0, l, flag) -> same_geo s s0 /\ split_seq inp (QS s0 (q_queue st)) l.
  Proof.
    intros Sh D. apply overlap_cases in D. destruct D as [F D]. assert (NE : b <> e) by congruence.
    destruct (overlap_line _ _ _ _ Lb Le Sh) as (C0 & C1 & X0 & X1). fold b0 b1 e0 e1 in C0, C1, X0, X1, D.
    assert (Oe : forall q, on_left s e q <-> cross b0 b1 q = 0 /\ ple e0 q /\ ple q e1)
      by (intros q; apply (col_on b0 b1 e0 e1 q Lb Le C0 C1)).
    assert (Ob : forall q, on_left s b q <-> cross b0 b1 q = 0 /\ ple b0 q /\ ple q b1)
      by (intros q; apply (on_segment_order b0 b1 q Lb)).
    assert (Kb0 : In b0 (candidates inp)) by apply (pc_start_in _ _ P b Hb).
    assert (Kb1 : In b1 (candidates inp)) by apply (pc_end_in _ _ P b Hb).
    assert (Ke0 : In e0 (candidates inp)) by apply (pc_start_in _ _ P e He).
    assert (Ke1 : In e1 (candidates inp)) by apply (pc_end_in _ _ P e He).
    assert (Z0 : cross b0 b1 b0 = 0) by (unfold cross; ring).
    assert (Z1 : cross b0 b1 b1 = 0) by (unfold cross; ring).
    assert (Sb : forall q, cross b0 b1 q = 0 -> plt b0 q -> plt q b1 -> splits s b q).
    { intros q Q0 Q1 Q2. split; [apply Ob; repeat split; [exact Q0|left; exact Q1|left; exact Q2]|]. split; assumption. }
    assert (Se : forall q, cross b0 b1 q = 0 -> plt e0 q -> plt q e1 -> splits s e q).
    { intros q Q0 Q1 Q2. split; [apply Oe; repeat split; [exact Q0|left; exact Q1|left; exact Q2]|]. split; assumption. }
    assert (Gs : forall s0 i q, same_geo s s0 -> splits s i q -> splits s0 i q).
    { intros s1 i q M (Q0 & Q1 & Q2). unfold splits, on_left. rewrite (geo_lstart M), (geo_lend M). auto. }
    destruct D as [(E0 & M & D)|(-> & D)].
    - apply marked_geo in M. split; [exact M|].
      assert (Hb0 : (b < nl s0)%nat) by (rewrite (sg_len _ _ M); exact Hb).
      assert (He0 : (e < nl s0)%nat) by (rewrite (sg_len _ _ M); exact He).
      destruct D as [->|[[L ->]|[L ->]]]; cbn [split_seq q_store].
      + exact I.
      + split; [exact Hb0|]. split; [|auto]. apply (Gs _ _ _ M), Sb; assumption.
      + split; [exact He0|]. split; [|auto]. apply (Gs _ _ _ M), Se; [exact Z1| |exact L]. rewrite <- E0. exact Lb.
    - split; [apply same_geo_refl|].
      assert (Est : st = QS s (q_queue st)) by exact (qstate_eta st). rewrite <- Est.
      assert (One : forall i q, i = b \/ i = e -> splits s i q -> In q (candidates inp) -> split_seq inp st [(i, q)]).
      { intros i q Ii Q1 Q4. assert (Hi : (i < nl s)%nat) by (destruct Ii as [->| ->]; assumption).
        cbn [split_seq]. auto. }
      assert (Two : forall i q i' q', i = b \/ i = e -> i' = b \/ i' = e -> splits s i q -> splits s i' q' ->
                In q (candidates inp) -> In q' (candidates inp) ->
                (i = i' -> plt q' q) -> split_seq inp st [(i, q); (i', q')]).
      { intros i q i' q' Ii Ii' Q1 Q1' K K' O.
        assert (Hi : (i < nl s)%nat) by (destruct Ii as [->| ->]; assumption).
        assert (Hi' : (i' < nl s)%nat) by (destruct Ii' as [->| ->]; assumption).
        cbn [split_seq].
        split; [exact Hi|]. split; [exact Q1|]. split; [exact K|]. split; [rewrite od_nl; fold s; lia|].
        split; [|auto]. destruct (Nat.eq_dec i i') as [<-|N].
        - apply od_splits_same; auto.
        - apply od_splits_other; auto. }
      assert (NE' := not_eq_sym NE).
      destruct D as [(L & E1 & ->)|[(L & E1 & ->)|[(L & L' & ->)|[(L & L' & ->)|[(L & L' & ->)|(L & L' & ->)]]]]].
      + apply One; auto.
      + apply One; auto.
      + apply Two; auto.
      + apply Two; auto.
      + apply Two; auto; intros; congruence.
      + apply Two; auto; intros; congruence.
  Qed.

  Lemma point_proper p : meet_at (on_left s b) (on_left s e) p -> b <> e ->
    let l := if negb (pt_eqb p (lstart s b)) && negb (pt_eqb p (lend s b)) then [(b, p)] else [] in
    let s1 := q_store (divs (QS s []) l) in
    let l' := if negb (pt_eqb p (lstart s1 e)) && negb (pt_eqb p (lend s1 e)) then [(e, p)] else [] in
    split_seq inp st (l ++ l').
  Proof.
    intros M NE. assert (Kp := common_candidate _ _ _ _ _ P Hb He M). destruct M as (A & B & U).
    assert (NE' := not_eq_sym NE). cbv zeta.
    destruct (split_or_end s b p Lb A) as [[-> Sb]|[-> Eb]]; cbn [divs q_store app].
    - change (q_store (divide_segment (QS s []) b p)) with (q_store (divide_segment st b p)).
      assert (Ls : lstart (q_store (divide_segment st b p)) e = e0) by (apply od_start; assumption).
      assert (Le' : lend (q_store (divide_segment st b p)) e = e1) by (apply od_end; assumption).
      rewrite Ls, Le'. destruct (split_or_end s e p Le B) as [[Q Se]|[Q Ee]]; unfold e0, e1; rewrite Q; cbn [split_seq].
      + split; [exact Hb|]. split; [exact Sb|]. split; [exact Kp|].
        split; [rewrite od_nl; fold s; lia|]. split; [apply od_splits_other; assumption|]. auto.
      + auto.
    - destruct (split_or_end s e p Le B) as [[Q Se]|[Q Ee]]; rewrite Q; cbn [split_seq]; auto.
  Qed.

  Lemma plan_proper s0 l flag : plan mark s b e = Ok (s0, l, flag) ->
    same_geo s s0 /\ split_seq inp (QS s0 (q_queue st)) l.
  Proof.
    unfold plan.
    assert (So := segments_relation_sound _ _ Nb Ne).
    assert (NE : segments_relation (lseg s b) (lseg s e) <> EQUAL -> b <> e)
      by (intros R E; apply R; rewrite E; apply segments_relation_refl).
    assert (Pt : (exists p, meet_at (on_left s b) (on_left s e) p) -> b <> e ->
      let p := segments_intersection (lseg s b) (lseg s e) in
      let l := if negb (pt_eqb p (lstart s b)) && negb (pt_eqb p (lend s b)) then [(b, p)] else [] in
      let s1 := q_store (divs (QS s []) l) in
      let l' := if negb (pt_eqb p (lstart s1 e)) && negb (pt_eqb p (lend s1 e)) then [(e, p)] else [] in
      split_seq inp (QS s (q_queue st)) (l ++ l')).
    { intros M N. replace (QS s (q_queue st)) with st by exact (qstate_eta st).
      apply point_proper; [exact (segments_intersection_on _ _ Nb Ne M)|exact N]. }
    cbv zeta in Pt |- *. revert Pt. generalize (segments_intersection (lseg s b) (lseg s e)). intros p0 Pt.
    destruct (segments_relation_cases (lseg s b) (lseg s e)) as [R|[R|[R|R]]].
    - rewrite R. intros D. injection D as <- <- <-. split; [apply same_geo_refl|exact I].
    - rewrite R in So, NE |- *. destruct So as (p & M & _). intros D. injection D as <- <- <-.
      split; [apply same_geo_refl|]. apply Pt; [exists p; exact M|apply NE; discriminate].
    - rewrite R in So, NE |- *. destruct So as (p & M & _). intros D. injection D as <- <- <-.
      split; [apply same_geo_refl|]. apply Pt; [exists p; exact M|apply NE; discriminate].
    - intros D. apply (overlap_proper _ _ flag); [apply (shares_spec _ _ Nb Ne R)|].
      destruct (segments_relation (lseg s b) (lseg s e)); try discriminate; exact D.
  Qed.
End Proper.
