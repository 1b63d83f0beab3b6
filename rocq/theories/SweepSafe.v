(* One event of the sweep as a sequence of checks, and the absence of failures
   when no two input segments of the same side overlap (property C38). *)
From Coq Require Import QArith Qcanon List Bool ZArith Lia Permutation.
From Verif Require Import Scalar Base Ground MLinear MSweep MCompound Planar Spec Geom RayParity SegProofs
  SweepStore SweepDetect SweepSteps Termination.
Import ListNotations.
Open Scope Qc_scope.

(** * The shape of one event *)
Definition geoq (q q' : qstate) : Prop :=
  exists s', same_geo (q_store q) s' /\ q' = QS s' (q_queue q).
Lemma geoq_refl q : geoq q q.
Proof. exists (q_store q). split; [apply same_geo_refl|apply qstate_eta]. Qed.
Lemma geoq_reach inp q q' : geoq q q' -> reach inp q q'.
Proof. intros (s' & G & ->). apply reach_geo, G. Qed.
Lemma geoq_compute q o i : geoq q (compute_position q o i).
Proof. exact (compute_position_geo q o i). Qed.
Definition dstep (mark : bool) (q : qstate) (b e : option nat) (q' : qstate) : Prop :=
  match b, e with
  | Some b, Some e => exists r, detect_intersection mark q b e = Ok r /\ geoq (fst r) q'
  | _, _ => geoq q q'
  end.
Definition left_step (mark : bool) (q : qstate) (i : nat) (oa ob : option nat) (q' : qstate) : Prop :=
  exists q0 q1, geoq q q0 /\ dstep mark q0 (Some i) oa q1 /\ dstep mark q1 ob (Some i) q'.

Lemma sw_event_left linear w i w' : sw_event linear w (EL i) = Ok w' ->
  let s := q_store (sw_q w) in
  let line := sl_add s i (sw_line w) in
  left_step (negb linear) (sw_q w) i (sl_above s i line) (sl_below s i line) (sw_q w')
  /\ sw_line w' = line /\ sw_start w' = sw_start w /\ sw_same w' = sw_same w.
Proof.
  intros H s line. destruct w as [q l start same]. cbn [sw_q sw_line sw_start sw_same] in *.
  destruct linear; cbn [sw_event sw_event_linear sw_event_compound negb] in *; cbv zeta in H;
    cbn [sw_q sw_line sw_start sw_same] in H; fold s in H; fold line in H; revert H;
    generalize (sl_above s i line) (sl_below s i line); intros oa ob H.
  - destruct (match oa with None => Ok q | Some a => _ end) as [q1|] eqn:D1; [|discriminate]. cbn [bind] in H.
    destruct (match ob with None => Ok q1 | Some a => _ end) as [q2|] eqn:D2; [|discriminate]. injection H as <-.
    cbn [sw_q sw_line sw_start sw_same]. split; [|auto]. exists q, q1. split; [apply geoq_refl|]. split.
    + destruct oa as [a|]; cbn [dstep].
      * destruct (detect_intersection false q i a) as [r|]; [|discriminate]. injection D1 as <-.
        exists r. split; [reflexivity|apply geoq_refl].
      * injection D1 as <-. apply geoq_refl.
    + destruct ob as [b|]; cbn [dstep].
      * destruct (detect_intersection false q1 b i) as [r|]; [|discriminate]. injection D2 as <-.
        exists r. split; [reflexivity|apply geoq_refl].
      * injection D2 as <-. apply geoq_refl.
  - set (q0 := compute_position q ob i) in *.
    destruct (match oa with None => Ok q0 | Some a => _ end) as [q1|] eqn:D1; [|discriminate]. cbn [bind] in H.
    destruct (match ob with None => Ok q1 | Some a => _ end) as [q2|] eqn:D2; [|discriminate]. injection H as <-.
    cbn [sw_q sw_line sw_start sw_same]. split; [|auto]. exists q0, q1. split; [apply geoq_compute|]. split.
    + destruct oa as [a|]; cbn [dstep].
      * destruct (detect_intersection true q0 i a) as [r|]; [|discriminate]. injection D1 as <-.
        exists r. split; [reflexivity|]. destruct (snd r); [exact (geoq_compute (fst r) (Some i) a)|apply geoq_refl].
      * injection D1 as <-. apply geoq_refl.
    + destruct ob as [b|]; cbn [dstep].
      * destruct (detect_intersection true q1 b i) as [r|]; [|discriminate]. injection D2 as <-.
        exists r. split; [reflexivity|]. destruct (snd r); [apply geoq_compute|apply geoq_refl].
      * injection D2 as <-. apply geoq_refl.
Qed.
Lemma sw_event_left_raise linear w i ex : sw_event linear w (EL i) = Raise ex ->
  let s := q_store (sw_q w) in
  let line := sl_add s i (sw_line w) in
  let mark := negb linear in
  exists q0, geoq (sw_q w) q0 /\
    ((exists a, sl_above s i line = Some a /\ detect_intersection mark q0 i a = Raise ex)
     \/ (exists q1 b, dstep mark q0 (Some i) (sl_above s i line) q1
                      /\ sl_below s i line = Some b /\ detect_intersection mark q1 b i = Raise ex)).
Proof.
  intros H s line. destruct w as [q l start same]. cbn [sw_q sw_line sw_start sw_same] in *.
  destruct linear; cbn [sw_event sw_event_linear sw_event_compound negb] in *; cbv zeta in H |- *;
    cbn [sw_q sw_line sw_start sw_same] in H; fold s in H; fold line in H; revert H;
    generalize (sl_above s i line) (sl_below s i line); intros oa ob H.
  - exists q. split; [apply geoq_refl|].
    destruct oa as [a|]; cbn [bind] in H.
    + destruct (detect_intersection false q i a) as [r|] eqn:D; cbn [bind] in H.
      * right. destruct ob as [b|]; [|discriminate].
        exists (fst r), b. split; [exists r; split; [exact D|apply geoq_refl]|]. split; [reflexivity|].
        destruct (detect_intersection false (fst r) b i); [discriminate|]. injection H as ->. reflexivity.
      * left. exists a. injection H as ->. auto.
    + right. destruct ob as [b|]; [|discriminate].
      exists q, b. split; [apply geoq_refl|]. split; [reflexivity|].
      destruct (detect_intersection false q b i); [discriminate|]. injection H as ->. reflexivity.
  - set (q0 := compute_position q ob i) in *. exists q0. split; [apply geoq_compute|].
    destruct oa as [a|]; cbn [bind] in H.
    + destruct (detect_intersection true q0 i a) as [r|] eqn:D; cbn [bind] in H.
      * right. destruct ob as [b|]; [|discriminate].
        match type of H with context [detect_intersection true ?x b i] => exists x, b end.
        split; [exists r; split; [exact D|]; destruct (snd r); [exact (geoq_compute (fst r) (Some i) a)|apply geoq_refl]|]. split; [reflexivity|].
        destruct (detect_intersection true _ b i); [discriminate|]. injection H as ->. reflexivity.
      * left. exists a. injection H as ->. auto.
    + right. destruct ob as [b|]; [|discriminate].
      exists q0, b. split; [apply geoq_refl|]. split; [reflexivity|].
      destruct (detect_intersection true q0 b i); [discriminate|]. injection H as ->. reflexivity.
Qed.
Lemma sw_event_right linear w j w' : sw_event linear w (ER j) = Ok w' ->
  let s := q_store (sw_q w) in
  let i := r_left (gr s j) in
  let line := sw_line w in
  (if sl_mem s i line
   then dstep (negb linear) (sw_q w) (sl_below s i line) (sl_above s i line) (sw_q w')
        /\ sw_line w' = sl_remove s i line
   else w' = w) /\ sw_start w' = sw_start w /\ sw_same w' = sw_same w.
Proof.
  intros H s i line. destruct w as [q l start same]. cbn [sw_q sw_line sw_start sw_same] in *.
  destruct linear; cbn [sw_event sw_event_linear sw_event_compound negb] in *; cbv zeta in H;
    cbn [sw_q sw_line sw_start sw_same] in H; fold s in H; fold i in H; fold line in H;
    (destruct (sl_mem s i line); [|injection H as <-; auto]); revert H;
    generalize (sl_above s i line) (sl_below s i line); intros oa ob H.
  - destruct oa as [a|], ob as [b|]; cbn [bind] in H; try (injection H as <-; cbn; repeat apply conj; try reflexivity; apply geoq_refl).
    destruct (detect_intersection false q b a) as [r|] eqn:D; [|discriminate]. injection H as <-. cbn.
    repeat apply conj; try reflexivity. exists r. split; [exact D|apply geoq_refl].
  - destruct oa as [a|], ob as [b|]; cbn [bind] in H; try (injection H as <-; cbn; repeat apply conj; try reflexivity; apply geoq_refl).
    destruct (detect_intersection true q b a) as [r|] eqn:D; [|discriminate]. injection H as <-. cbn.
    repeat apply conj; try reflexivity. exists r. split; [exact D|apply geoq_refl].
Qed.
Lemma sw_event_right_raise linear w j ex : sw_event linear w (ER j) = Raise ex ->
  let s := q_store (sw_q w) in
  let i := r_left (gr s j) in
  exists a b, sl_above s i (sw_line w) = Some a /\ sl_below s i (sw_line w) = Some b
              /\ detect_intersection (negb linear) (sw_q w) b a = Raise ex.
Proof.
  intros H s i. destruct w as [q l start same]. cbn [sw_q sw_line sw_start sw_same] in *.
  destruct linear; cbn [sw_event sw_event_linear sw_event_compound negb] in *; cbv zeta in H;
    cbn [sw_q sw_line sw_start sw_same] in H; fold s in H; fold i in H;
    (destruct (sl_mem s i l); [|discriminate]);
    destruct (sl_above s i l) as [a|], (sl_below s i l) as [b|]; try discriminate; exists a, b;
    repeat apply conj; try reflexivity;
    destruct (detect_intersection _ q b a); try discriminate; injection H as ->; reflexivity.
Qed.

(** * Neighbours are different *)
Lemma sl_add_nodup s i l : NoDup l -> ~ In i l -> NoDup (sl_add s i l).
Proof.
  induction l as [|x l IH]; cbn; intros N I; [constructor; [tauto|constructor]|].
  destruct (sweep_lt s i x); [constructor; [exact I|exact N]|]. inversion N; subst.
  destruct (sweep_lt s x i); [|exact N]. constructor.
  - intros K. apply sl_add_in in K. destruct K as [->|K]; [apply I; auto|contradiction].
  - apply IH; [assumption|tauto].
Qed.
Lemma sl_remove_nodup s i l : NoDup l -> NoDup (sl_remove s i l).
Proof.
  induction l as [|x l IH]; cbn; intros N; [exact N|].
  destruct (sweep_lt s i x); [exact N|]. inversion N; subst. destruct (sweep_lt s x i); [|assumption].
  constructor; [|auto]. intros K. apply sl_remove_in in K. contradiction.
Qed.
Lemma sweep_lt_irrefl s i : sweep_lt s i i = false.
Proof. unfold sweep_lt. rewrite Nat.eqb_refl. reflexivity. Qed.
Lemma sl_above_add s i l a : sl_above s i (sl_add s i l) = Some a -> In a l.
Proof.
  induction l as [|x l IH]; cbn [sl_add].
  - cbn. rewrite sweep_lt_irrefl. discriminate.
  - destruct (sweep_lt s i x) eqn:E1.
    + cbn. rewrite sweep_lt_irrefl. injection 1 as <-. auto.
    + destruct (sweep_lt s x i) eqn:E2; cbn; rewrite E1, E2; [intros H; auto|].
      destruct l as [|y l]; [discriminate|]. injection 1 as <-. cbn; auto.
Qed.
Lemma sl_below_add s i l b : sl_below s i (sl_add s i l) = Some b -> In b l.
Proof.
  unfold sl_below. assert (H : forall prev, sl_below_from s i prev (sl_add s i l) = Some b -> prev = Some b \/ In b l).
  { induction l as [|x l IH]; intros prev; cbn [sl_add].
    - cbn. rewrite sweep_lt_irrefl. auto.
    - destruct (sweep_lt s i x) eqn:E1.
      + cbn. rewrite sweep_lt_irrefl. auto.
      + destruct (sweep_lt s x i) eqn:E2; cbn; rewrite E1, E2; [|auto].
        intros K. destruct (IH _ K) as [E|E]; [injection E as ->|]; auto. }
  intros K. destruct (H None K) as [E|E]; [discriminate|exact E].
Qed.
Lemma sl_neighbours s i l a b : NoDup l -> sl_above s i l = Some a -> sl_below s i l = Some b -> a <> b.
Proof.
  unfold sl_below. intros N A B E. subst b.
  assert (H : forall prev, sl_above s i l = Some a -> sl_below_from s i prev l = Some a -> prev = Some a /\ In a l).
  { clear A B. induction l as [|x l IH]; intros prev A B; cbn in A, B |- *; [discriminate|]. inversion N; subst.
    destruct (sweep_lt s i x); [discriminate|]. destruct (sweep_lt s x i).
    - destruct (IH ltac:(assumption) (Some x) A B) as (E & K). injection E as ->. contradiction.
    - destruct l as [|y l]; [discriminate|]. injection A as ->. cbn. auto. }
  destruct (H None A B) as (E & _). discriminate.
Qed.

(** * The sides are free of overlaps *)
Definition apart2 (x y : item) : Prop :=
  it_ft x = it_ft y -> forall p q, on_item x p -> on_item y p -> on_item x q -> on_item y q -> p = q.
Definition apart (inp : list item) : Prop := ForallOrdPairs apart2 inp.
Lemma on_item_ends x : plt (it_lo x) (it_hi x) -> on_item x (it_lo x) /\ on_item x (it_hi x).
Proof. intros _. split; [apply on_segment_start|apply on_segment_end]. Qed.
Lemma apart_nodup inp : items_ok inp -> apart inp -> NoDup inp.
Proof.
  intros Ok H. induction H as [|x l F H IH]; constructor.
  - intros I. rewrite Forall_forall in F. assert (L := Ok x (or_introl eq_refl)).
    destruct (on_item_ends x L) as [A B]. apply plt_neq in L. apply L.
    apply (F x I eq_refl); assumption.
  - apply IH. intros y I. apply Ok. right; exact I.
Qed.
Lemma apart_pair inp x y : apart inp -> In x inp -> In y inp -> x <> y -> apart2 x y.
Proof.
  intros H Ix Iy N. assert (S : forall a b, apart2 a b -> apart2 b a).
  { intros a b K F p q A B C D. apply (K (eq_sym F)); assumption. }
  destruct (ForallOrdPairs_In H x y Ix Iy) as [E|[E|E]]; [contradiction|exact E|apply S, E].
Qed.
Definition side_clean (s : store) : Prop :=
  forall i k, (i < nl s)%nat -> (k < nl s)%nat -> i <> k -> l_from_test (gl s i) = l_from_test (gl s k) ->
    forall p q, on_left s i p -> on_left s k p -> on_left s i q -> on_left s k q -> p = q.
Lemma orig_ft s i : it_ft (orig s i) = l_from_test (gl s i).
Proof. reflexivity. Qed.
Definition item_dec (x y : item) : {x = y} + {x <> y}.
Proof. decide equality; try apply bool_dec; apply pt_dec. Defined.
Lemma pieces_side_clean inp s : apart inp -> pieces inp s -> partitioned s -> side_clean s.
Proof.
  intros Ap P Q i k Hi Hk N F p q A B C D.
  destruct (item_dec (orig s i) (orig s k)) as [E|E].
  - assert (Li := pc_lt _ _ P i Hi). assert (Lk := pc_lt _ _ P k Hk).
    unfold on_left in A, B, C, D.
    apply (on_segment_order _ _ _ Li) in A. apply (on_segment_order _ _ _ Li) in C.
    apply (on_segment_order _ _ _ Lk) in B. apply (on_segment_order _ _ _ Lk) in D.
    destruct A as (_ & A1 & A2), B as (_ & B1 & B2), C as (_ & C1 & C2), D as (_ & D1 & D2).
    assert (U : forall x y z, ple x y -> ple y z -> ple z x -> x = y).
    { intros x y z X Y Z. apply ple_antisym; [exact X|]. eapply ple_trans; eassumption. }
    destruct (Q i k Hi Hk N E) as [H|H].
    + transitivity (lend s i); [apply (U _ _ (lstart s k)); assumption|].
      symmetry. apply (U _ _ (lstart s k)); assumption.
    + transitivity (lend s k); [apply (U _ _ (lstart s i)); assumption|].
      symmetry. apply (U _ _ (lstart s i)); assumption.
  - apply (apart_pair inp _ _ Ap (pc_orig _ _ P i Hi) (pc_orig _ _ P k Hk) E);
      rewrite ?orig_ft; try assumption; eapply pieces_on; eassumption.
Qed.
Lemma side_clean_no_overlap s i k : side_clean s -> (i < nl s)%nat -> (k < nl s)%nat -> i <> k ->
  l_from_test (gl s i) = l_from_test (gl s k) -> ~ share_segment (on_left s i) (on_left s k).
Proof.
  intros H Hi Hk N F (a & b & D & S). apply D.
  destruct (S a (on_segment_start a b)), (S b (on_segment_end a b)). apply (H i k Hi Hk N F); assumption.
Qed.

(** * The sweep does not fail *)
Record safe (inp : list item) (w : swstate) : Prop := {
  sf_inv : inv inp w;
  sf_part : partitioned (q_store (sw_q w));
  sf_nodup : NoDup (sw_line w);
  sf_popped : forall i, In i (sw_line w) -> ~ In (EL i) (q_queue (sw_q w))
}.
Lemma reach_old_refs inp q q' i : reach inp q q' -> (i < nl (q_store q))%nat ->
  In (EL i) (q_queue q') -> In (EL i) (q_queue q).
Proof.
  induction 1 as [st|st s' st' G R IH|st k p st' Hk S Kp R IH]; intros Hi H; [exact H| |].
  - apply IH; [|exact H]. cbn [q_store]. rewrite (sg_len _ _ G). exact Hi.
  - assert (X : In (EL i) (q_queue (divide_segment st k p))).
    { apply IH; [|exact H]. rewrite divide_segment_store, div_nl. lia. }
    rewrite divide_segment_queue in X. apply in_app_or in X. destruct X as [X|[X|[X|[]]]]; [exact X| |discriminate].
    injection X as X. unfold nl in *. lia.
Qed.
Lemma dstep_reach inp mark q b e q' :
  pieces inp (q_store q) -> (forall k, b = Some k \/ e = Some k -> (k < nl (q_store q))%nat) ->
  dstep mark q b e q' -> reach inp q q'.
Proof.
  intros P H D. destruct b as [b|], e as [e|]; cbn [dstep] in D; try (apply geoq_reach; exact D).
  destruct D as (r & D & G). apply reach_trans with (fst r); [|apply geoq_reach; exact G].
  apply (detect_reach inp mark q b e r P (H b (or_introl eq_refl)) (H e (or_intror eq_refl)) D).
Qed.
Lemma safe_no_raise inp mark q b e ex : apart inp -> pieces inp (q_store q) -> partitioned (q_store q) ->
  (b < nl (q_store q))%nat -> (e < nl (q_store q))%nat -> b <> e ->
  detect_intersection mark q b e = Raise ex -> False.
Proof.
  intros Ap P Q Hb He N D. destruct (detect_raise inp mark q b e P Hb He ex D) as (_ & F & S).
  exact (side_clean_no_overlap _ b e (pieces_side_clean inp _ Ap P Q) Hb He N F S).
Qed.
Lemma safe_event_ok inp linear w e : apart inp -> safe inp w -> valid_ref (q_store (sw_q w)) e ->
  (forall i, e = EL i -> ~ In i (sw_line w)) ->
  exists w', sw_event linear w e = Ok w'.
Proof.
  intros Ap [I Q N S] V Fr. destruct (sw_event linear w e) as [w'|ex] eqn:E; [eauto|exfalso].
  assert (P := inv_pieces _ _ I). assert (L := inv_line _ _ I). set (s := q_store (sw_q w)) in *.
  destruct e as [i|j]; cbn [valid_ref] in V.
  - destruct (sw_event_left_raise _ _ _ _ E) as (q0 & G & H). fold s in H.
    assert (R0 := geoq_reach inp _ _ G). assert (P0 := reach_pieces _ _ _ R0 P).
    assert (Q0 := reach_partitioned _ _ _ R0 P Q). assert (M0 := reach_nl _ _ _ R0). fold s in M0.
    specialize (Fr i eq_refl).
    destruct H as [(a & A & D)|(q1 & b & D1 & B & D)].
    + apply sl_above_add in A. specialize (L a A).
      apply (safe_no_raise inp _ q0 i a ex Ap P0 Q0 ltac:(lia) ltac:(lia) (fun E => Fr (eq_ind_r (fun x => In x _) A E)) D).
    + apply sl_below_add in B. assert (Lb := L b B).
      assert (R1 : reach inp q0 q1).
      { apply (dstep_reach inp _ _ _ _ _ P0) in D1; [exact D1|]. intros k [K|K].
        - injection K as <-. lia.
        - apply sl_above_add in K. specialize (L k K). lia. }
      assert (M1 := reach_nl _ _ _ R1).
      apply (safe_no_raise inp _ q1 b i ex Ap (reach_pieces _ _ _ R1 P0) (reach_partitioned _ _ _ R1 P0 Q0)
                           ltac:(lia) ltac:(lia) (fun E => Fr (eq_ind b (fun x => In x _) B i E)) D).
  - destruct (sw_event_right_raise _ _ _ _ E) as (a & b & A & B & D). fold s in A, B.
    assert (Na := sl_neighbours s _ _ a b N A B).
    apply sl_above_in in A. apply sl_below_in in B.
    apply (safe_no_raise inp _ _ b a ex Ap P Q (L b B) (L a A) (not_eq_sym Na) D).
Qed.
Lemma safe_event inp linear w e w' : safe inp w -> valid_ref (q_store (sw_q w)) e ->
  (forall i, e = EL i -> ~ In i (sw_line w) /\ ~ In (EL i) (q_queue (sw_q w))) ->
  sw_event linear w e = Ok w' -> safe inp w'.
Proof.
  intros [I Q N S] V Fr E. destruct (sw_event_inv _ _ _ _ _ I V E) as [I' _].
  destruct (sw_event_reach _ _ _ _ _ I V E) as (R & _ & _ & L).
  assert (P := inv_pieces _ _ I). constructor.
  - exact I'.
  - eapply reach_partitioned; eassumption.
  - destruct e as [i|j].
    + destruct (sw_event_left _ _ _ _ E) as (_ & -> & _). apply sl_add_nodup; [exact N|]. apply (Fr i eq_refl).
    + destruct (sw_event_right _ _ _ _ E) as [H _].
      destruct (sl_mem _ _ _); [destruct H as [_ ->]; apply sl_remove_nodup, N|subst w'; exact N].
  - intros i Hi K. assert (L' := L i Hi). apply (reach_old_refs inp _ _ _ R L') in K.
    destruct e as [i0|j].
    + destruct (sw_event_left _ _ _ _ E) as (_ & E' & _). rewrite E' in Hi. apply sl_add_in in Hi.
      destruct Hi as [->|Hi]; [apply (Fr i0 eq_refl), K|exact (S i Hi K)].
    + destruct (sw_event_right _ _ _ _ E) as [H _].
      destruct (sl_mem _ _ _); [destruct H as [_ E']; rewrite E' in Hi; apply sl_remove_in in Hi|subst w'];
        exact (S i Hi K).
Qed.
Lemma safe_pop inp linear w e w' outs : safe inp w -> In e (q_queue (sw_q w)) ->
  sw_group linear (popped w e) e = (w', outs) ->
  safe inp w' /\ valid_ref (q_store (sw_q w')) e
  /\ forall i, e = EL i -> ~ In i (sw_line w') /\ ~ In (EL i) (q_queue (sw_q w')).
Proof.
  intros [I Q N S] Ie G. assert (V := qo_valid _ (inv_queue _ _ I) e Ie).
  assert (Nq := qo_nodup _ (inv_queue _ _ I)).
  destruct (sw_group_inv _ _ _ _ _ _ (inv_popped _ _ e I) V G) as (I' & _ & V').
  destruct (sw_group_spec _ _ _ _ _ G) as (s' & Ge & E & L & _). cbn [popped sw_q sw_line q_store q_queue] in Ge, E, L.
  split; [|split; [exact V'|]].
  - constructor.
    + exact I'.
    + rewrite E. cbn [q_store]. eapply same_geo_partitioned; eassumption.
    + rewrite L. exact N.
    + rewrite L, E. cbn [q_queue]. intros i Hi K. apply q_remove_in in K. exact (S i Hi K).
  - intros i ->. rewrite L, E. cbn [q_queue]. split.
    + intros K. exact (S i K Ie).
    + rewrite (q_remove_iff _ _ _ Nq). tauto.
Qed.
Lemma sw_loop_returns inp linear fuel stop w : apart inp -> safe inp w ->
  snd (sw_loop linear fuel stop w) <> Raise OutOfFuel -> returns (snd (sw_loop linear fuel stop w)).
Proof.
  intros Ap. revert w; induction fuel as [|fuel IH]; intros w S H; [exfalso; apply H; reflexivity|].
  cbn [sw_loop] in *.
  destruct (q_peek (q_store (sw_q w)) (q_queue (sw_q w))) as [e|] eqn:Pk.
  - destruct (qltb stop (px (estart (q_store (sw_q w)) e))) eqn:St.
    + destruct (complete_events_relations _ _) as [s' o]. cbn. eexists; reflexivity.
    + assert (Ie := q_peek_in _ _ _ Pk). fold (popped w e) in H |- *.
      destruct (sw_group linear (popped w e) e) as [w2 outs] eqn:G.
      destruct (safe_pop _ _ _ _ _ _ S Ie G) as (S2 & V2 & Fr).
      destruct (safe_event_ok inp linear w2 e Ap S2 V2 (fun i E => proj1 (Fr i E))) as (w3 & E). rewrite E in H |- *.
      specialize (IH w3 (safe_event _ _ _ _ _ S2 V2 Fr E)).
      destruct (sw_loop linear fuel stop w3) as [outs' r]. cbn [snd] in *. apply IH, H.
  - destruct (complete_events_relations _ _) as [s' o]. cbn. eexists; reflexivity.
Qed.
Lemma safe_init inp start : items_ok inp -> NoDup inp -> safe inp (SW (init_state inp) [] start []).
Proof.
  intros Ok N. constructor; cbn [sw_q sw_line].
  - constructor; cbn [sw_q sw_line sw_same].
    + apply init_pieces, Ok.
    + apply init_queue.
    + intros i [].
    + intros e [].
  - apply init_partitioned, N.
  - constructor.
  - intros i [].
Qed.
Lemma sweep_returns inp linear stop : items_ok inp -> apart inp ->
  returns (snd (sweep linear (sweep_fuel (init_state inp)) stop (init_state inp))).
Proof.
  intros Ok Ap. destruct (sweep_init inp linear _ stop Ok (le_n _)) as [H _]. unfold sweep in *.
  apply (sw_loop_returns inp); [exact Ap| |exact H]. apply safe_init; [exact Ok|apply apart_nodup; assumption].
Qed.
Lemma process_returns {A} f (acc : A) fin linear inp stop : items_ok inp -> apart inp ->
  returns (process f acc fin (sweep linear (sweep_fuel (init_state inp)) stop (init_state inp))).
Proof.
  intros Ok Ap. assert (H := sweep_returns inp linear stop Ok Ap). unfold process.
  destruct (sweep linear (sweep_fuel (init_state inp)) stop (init_state inp)) as [outs r]. cbn [snd] in H.
  destruct (consume f acc outs); [eexists; reflexivity|]. destruct H as [q ->]. eexists; reflexivity.
Qed.
