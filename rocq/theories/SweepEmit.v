(* The events of one point: the relations computed when the sweep leaves the
   point, and the left events that are yielded. *)
From Coq Require Import QArith Qcanon List Bool ZArith Lia Permutation.
From Verif Require Import Scalar Base Ground MLinear MSweep MCompound Planar Spec Geom RayParity SegProofs
  SweepStore SweepDetect SweepSteps Termination SweepSafe SweepTime SweepOrder SweepMoves SweepAdvance SweepLoop.
Import ListNotations.
Open Scope Qc_scope.

Definition rl (s : store) (k : nat) : srelation := l_relation (gl s k).
Definition rv (s : store) (k : nat) : nat := srel_val (rl s k).
(* The relation of two events at one point. *)
Definition pair_rel (s : store) (e f : eref) : srelation :=
  if Bool.eqb (efrom_test s f) (efrom_test s e) then SDISJOINT
  else if pt_eqb (lstart s (left_of s e)) (lstart s (left_of s f)) && pt_eqb (lend s (left_of s e)) (lend s (left_of s f))
       then SOVERLAP
       else if pt_eqb (estart s e) (eoriginal_start s e) || pt_eqb (estart s f) (eoriginal_start s f)
            then STOUCH else SCROSS.
Lemma srel_max_val a b : srel_val (srel_max a b) = Nat.max (srel_val a) (srel_val b).
Proof. destruct a, b; reflexivity. Qed.
Lemma srel_val_inj a b : srel_val a = srel_val b -> a = b.
Proof. destruct a, b; cbn; congruence. Qed.
Lemma srel_val_le a : (srel_val a <= 3)%nat.
Proof. destruct a; cbn; lia. Qed.
Lemma pt_eqb_sym p q : pt_eqb p q = pt_eqb q p.
Proof. destruct (pt_eqb_spec p q), (pt_eqb_spec q p); congruence. Qed.
Lemma beqb_sym a b : Bool.eqb a b = Bool.eqb b a.
Proof. destruct a, b; reflexivity. Qed.
Lemma pair_rel_sym s e f : pair_rel s e f = pair_rel s f e.
Proof.
  unfold pair_rel. rewrite (beqb_sym (efrom_test s f)), (pt_eqb_sym (lstart s (left_of s e))), (pt_eqb_sym (lend s (left_of s e))), orb_comm.
  reflexivity.
Qed.
Lemma geo_eorig s s' e : same_geo s s' -> eoriginal_start s' e = eoriginal_start s e.
Proof.
  intros G. destruct e; cbn [eoriginal_start]; [apply (sg_orig _ _ G)|]. unfold gr. rewrite (sg_rights _ _ G). reflexivity.
Qed.
Lemma pair_rel_geo s s' e f : same_geo s s' -> pair_rel s' e f = pair_rel s e f.
Proof.
  intros G. unfold pair_rel. rewrite !(geo_efrom_test G), !(geo_left_of G), !(geo_lstart G), !(geo_lend G), !(geo_estart G), !(geo_eorig _ _ _ G).
  reflexivity.
Qed.

(* Updates of relations only. *)
Record relonly (s s' : store) : Prop := {
  ro_geo : same_geo s s';
  ro_other : forall k, l_other_interior_to_left (gl s' k) = l_other_interior_to_left (gl s k);
  ro_kind : forall k, l_overlap_kind (gl s' k) = l_overlap_kind (gl s k)
}.
Lemma relonly_refl s : relonly s s.
Proof. constructor; try reflexivity. apply same_geo_refl. Qed.
Lemma relonly_trans a b d : relonly a b -> relonly b d -> relonly a d.
Proof. intros [A1 A2 A3] [B1 B2 B3]. constructor; [eapply same_geo_trans; eassumption|intros; congruence|intros; congruence]. Qed.
Lemma relonly_set s i r : relonly s (upd_left s i (set_relation r)).
Proof.
  constructor; [apply set_relation_geo| |]; intros k; destruct (gl_upd s i (set_relation r) k) as [->| ->]; reflexivity.
Qed.
Lemma rl_set s i r : (i < nl s)%nat -> rl (upd_left s i (set_relation r)) i = r.
Proof. intros H. unfold rl, gl. cbn [upd_left lefts]. rewrite nth_upd_same by exact H. reflexivity. Qed.
Lemma rl_set_other s i r k : k <> i -> rl (upd_left s i (set_relation r)) k = rl s k.
Proof. intros H. unfold rl, gl. cbn [upd_left lefts]. rewrite nth_upd_other by exact H. reflexivity. Qed.
Lemma nl_set s i r : nl (upd_left s i (set_relation r)) = nl s.
Proof. apply (sg_len _ _ (set_relation_geo s i r)). Qed.

Lemma complete_pair_spec s e f : let a := left_of s e in let b := left_of s f in
  a <> b -> (a < nl s)%nat -> (b < nl s)%nat ->
  relonly s (complete_pair s e f)
  /\ rv (complete_pair s e f) a = Nat.max (rv s a) (srel_val (pair_rel s e f))
  /\ rv (complete_pair s e f) b = Nat.max (rv s b) (srel_val (pair_rel s e f))
  /\ (forall k, k <> a -> k <> b -> rv (complete_pair s e f) k = rv s k).
Proof.
  intros a b N Ha Hb. unfold complete_pair, pair_rel. fold a b. unfold efrom_test. fold a b.
  destruct (Bool.eqb (l_from_test (gl s b)) (l_from_test (gl s a))).
  - split; [apply relonly_refl|]. cbn [srel_val]. rewrite !Nat.max_0_r. auto.
  - assert (Two : forall r1 r2, let s' := upd_left (upd_left s a (set_relation r1)) b (set_relation r2) in
      relonly s s' /\ rv s' a = srel_val r1 /\ rv s' b = srel_val r2 /\ forall k, k <> a -> k <> b -> rv s' k = rv s k).
    { intros r1 r2 s'. split; [eapply relonly_trans; apply relonly_set|]. unfold rv, s'.
      split; [rewrite rl_set_other by exact N; rewrite rl_set by exact Ha; reflexivity|].
      split; [rewrite rl_set by (rewrite nl_set; exact Hb); reflexivity|].
      intros k Ka Kb. rewrite !rl_set_other by assumption. reflexivity. }
    destruct (pt_eqb (lstart s a) (lstart s b) && pt_eqb (lend s a) (lend s b)).
    + destruct (Two SOVERLAP SOVERLAP) as (X1 & X2 & X3 & X4). split; [exact X1|].
      pose proof (srel_val_le (rl s a)). pose proof (srel_val_le (rl s b)). fold (rv s a) in *. fold (rv s b) in *.
      cbn [srel_val] in *. split; [rewrite X2; unfold rv in *; lia|]. split; [rewrite X3; unfold rv in *; lia|exact X4].
    + set (r := if pt_eqb (estart s e) (eoriginal_start s e) || pt_eqb (estart s f) (eoriginal_start s f) then STOUCH else SCROSS).
      cbv zeta.
      assert (E : l_relation (gl (upd_left s a (set_relation (srel_max (l_relation (gl s a)) r))) b) = l_relation (gl s b)).
      { apply (rl_set_other s a). auto. }
      rewrite E.
      destruct (Two (srel_max (l_relation (gl s a)) r) (srel_max (l_relation (gl s b)) r)) as (X1 & X2 & X3 & X4).
      split; [exact X1|]. split; [rewrite X2; apply srel_max_val|]. split; [rewrite X3; apply srel_max_val|exact X4].
Qed.

Definition row (e : eref) (l : list eref) (s : store) : store :=
  fold_left (fun s second => complete_pair s e second) l s.
Lemma row_spec e l s : NoDup (map (left_of s) (e :: l)) -> (forall f, In f (e :: l) -> (left_of s f < nl s)%nat) ->
  relonly s (row e l s)
  /\ (forall n, (n <= rv (row e l s) (left_of s e) <-> n <= rv s (left_of s e) \/ exists f, In f l /\ n <= srel_val (pair_rel s e f))%nat)
  /\ (forall f, In f l -> rv (row e l s) (left_of s f) = Nat.max (rv s (left_of s f)) (srel_val (pair_rel s e f)))
  /\ (forall k, ~ In k (map (left_of s) (e :: l)) -> rv (row e l s) k = rv s k).
Proof.
  revert s. induction l as [|f l IH]; intros s N V.
  - cbn. split; [apply relonly_refl|]. split; [|split; [intros f []|reflexivity]].
    intros n. split; [auto|]. intros [H|(f & [] & _)]. exact H.
  - cbn [row fold_left]. fold (row e l (complete_pair s e f)). set (s1 := complete_pair s e f).
    cbn [map] in N. inversion N as [|? ? N1 N2]; subst. inversion N2 as [|? ? N3 N4]; subst.
    destruct (complete_pair_spec s e f) as (X1 & X2 & X3 & X4).
    { intros E. apply N1. left. symmetry. exact E. }
    { apply V. left. reflexivity. } { apply V. right. left. reflexivity. }
    fold s1 in X1, X2, X3, X4. pose proof (ro_geo _ _ X1) as G.
    assert (Lo : forall g, left_of s1 g = left_of s g) by (intros g; apply (geo_left_of G)).
    assert (Lm : forall m, map (left_of s1) m = map (left_of s) m) by (intros m; apply map_ext; exact Lo).
    destruct (IH s1) as (Y1 & Y2 & Y3 & Y4).
    { rewrite Lm. cbn [map]. constructor; [intros I; apply N1; right; exact I|exact N4]. }
    { intros g I. rewrite Lo, (sg_len _ _ G). apply V. destruct I as [I|I]; [left; exact I|right; right; exact I]. }
    rewrite Lo in Y2. rewrite Lm in Y4.
    split; [eapply relonly_trans; eassumption|]. split; [|split].
    + intros n. rewrite Y2, X2. rewrite Nat.max_le_iff. split.
      * intros [[H|H]|(g & I & H)]; [left; exact H|right; exists f; split; [left; reflexivity|exact H]|].
        rewrite (pair_rel_geo _ _ _ _ G) in H. right. exists g. split; [right; exact I|exact H].
      * intros [H|(g & [->|I] & H)]; [auto|auto|right]. exists g. rewrite (pair_rel_geo _ _ _ _ G). auto.
    + intros g [<-|I].
      * rewrite Y4; [exact X3|]. cbn [map]. intros [Z|Z]; [apply N1; left; symmetry; exact Z|contradiction].
      * pose proof (Y3 g I) as Z. rewrite Lo, (pair_rel_geo _ _ _ _ G) in Z. rewrite Z. f_equal.
        apply X4; intros E.
        -- apply N1. right. rewrite <- E. apply in_map, I.
        -- apply N3. rewrite <- E. apply in_map, I.
    + intros k K. cbn [map] in K. rewrite Y4.
      * apply X4; intros E; apply K; [left; symmetry; exact E|right; left; symmetry; exact E].
      * cbn [map]. intros [Z|Z]; apply K; [left; exact Z|right; right; exact Z].
Qed.

Lemma relonly_gl s s' k : relonly s s' -> rl s' k = rl s k -> gl s' k = gl s k.
Proof.
  intros [G A B] R. destruct (gl s' k) as [] eqn:E1, (gl s k) as [] eqn:E2.
  pose proof (sg_start _ _ G k). pose proof (sg_right _ _ G k). pose proof (sg_orig _ _ G k). pose proof (sg_ft _ _ G k).
  pose proof (sg_up _ _ G k). specialize (A k). specialize (B k). unfold rl in R. rewrite E1, E2 in *. cbn in *. congruence.
Qed.

Lemma complete_spec l : forall s s' outs, complete_events_relations s l = (s', outs) ->
  NoDup (map (left_of s) l) -> (forall f, In f l -> (left_of s f < nl s)%nat) ->
  relonly s s' /\ outs = map (fun e => gl s' (left_of s e)) l
  /\ (forall k, ~ In k (map (left_of s) l) -> rv s' k = rv s k)
  /\ (forall e n, In e l -> (n <= rv s' (left_of s e) <-> n <= rv s (left_of s e)
       \/ exists f, In f l /\ f <> e /\ n <= srel_val (pair_rel s e f))%nat).
Proof.
  induction l as [|e l IH]; intros s s' outs H N V; cbn [complete_events_relations] in H.
  - injection H as <- <-. split; [apply relonly_refl|]. split; [reflexivity|]. split; [reflexivity|intros e n []].
  - change (fold_left (fun s second => complete_pair s e second) l s) with (row e l s) in H.
    destruct (row_spec e l s N V) as (X1 & X2 & X3 & X4). set (s1 := row e l s) in *.
    pose proof (ro_geo _ _ X1) as G.
    assert (Lo : forall g, left_of s1 g = left_of s g) by (intros g; apply (geo_left_of G)).
    assert (Lm : forall m, map (left_of s1) m = map (left_of s) m) by (intros m; apply map_ext; exact Lo).
    destruct (complete_events_relations s1 l) as [s2 o] eqn:E. injection H as <- <-.
    cbn [map] in N. inversion N as [|? ? N1 N2]; subst.
    destruct (IH s1 s2 o E) as (Y1 & Y2 & Y3 & Y4).
    { rewrite Lm. exact N2. }
    { intros f I. rewrite Lo, (sg_len _ _ G). apply V. right. exact I. }
    rewrite Lm in Y3.
    assert (Z0 : rv s2 (left_of s e) = rv s1 (left_of s e)) by (apply Y3; exact N1).
    split; [eapply relonly_trans; eassumption|]. split; [|split].
    + cbn [map]. f_equal.
      * rewrite Lo. symmetry. apply (relonly_gl s1 s2 _ Y1). apply srel_val_inj. exact Z0.
      * rewrite Y2. apply map_ext. intros f. rewrite Lo. reflexivity.
    + intros k K. cbn [map] in K. rewrite Y3 by (intros Z; apply K; right; exact Z). apply X4. exact K.
    + assert (NE : forall f, In f l -> f <> e) by (intros f I ->; apply N1, in_map, I).
      intros f n [<-|I].
      * rewrite Z0, X2. split; (intros [K|(g & K1 & K2)]; [left; exact K|]); right; exists g.
        -- split; [right; exact K1|]. split; [apply NE, K1|exact K2].
        -- destruct K2 as [K2 K3]. destruct K1 as [K1|K1]; [congruence|]. auto.
      * pose proof (Y4 f n I) as Z. rewrite Lo in Z. rewrite Z, (X3 f I), Nat.max_le_iff. split.
        -- intros [[K|K]|(g & K1 & K2 & K3)]; [left; exact K| |].
           ++ right. exists e. split; [left; reflexivity|]. split; [intros ->; exact (NE f I eq_refl)|].
              rewrite pair_rel_sym. exact K.
           ++ right. exists g. split; [right; exact K1|]. split; [exact K2|]. rewrite (pair_rel_geo _ _ _ _ G) in K3. exact K3.
        -- intros [K|(g & [<-|K1] & K2 & K3)]; [auto| |].
           ++ left. right. rewrite pair_rel_sym. exact K3.
           ++ right. exists g. rewrite (pair_rel_geo _ _ _ _ G). auto.
Qed.

(** * detect_crossing_angles *)
Lemma raise_fold r l : forall s, (forall e, In e l -> (left_of s e < nl s)%nat) ->
  let s' := fold_left (fun s e => let i := left_of s e in upd_left s i (set_relation (srel_max (l_relation (gl s i)) r))) l s in
  relonly s s' /\ forall k, rv s' k = if in_dec Nat.eq_dec k (map (left_of s) l) then Nat.max (rv s k) (srel_val r) else rv s k.
Proof.
  induction l as [|e l IH]; intros s V; cbv zeta; cbn [fold_left map].
  - split; [apply relonly_refl|]. intros k. destruct (in_dec Nat.eq_dec k []) as [[]|_]. reflexivity.
  - set (i := left_of s e). set (s1 := upd_left s i (set_relation (srel_max (l_relation (gl s i)) r))).
    assert (X1 : relonly s s1) by apply relonly_set. pose proof (ro_geo _ _ X1) as G.
    assert (Lo : forall g, left_of s1 g = left_of s g) by (intros g; apply (geo_left_of G)).
    assert (Lm : forall m, map (left_of s1) m = map (left_of s) m) by (intros m; apply map_ext; exact Lo).
    assert (Hi : (i < nl s)%nat) by (apply V; left; reflexivity).
    destruct (IH s1) as [Y1 Y2].
    { intros f I. rewrite Lo, (sg_len _ _ G). apply V. right. exact I. }
    cbv zeta in Y1, Y2. split; [eapply relonly_trans; eassumption|]. intros k. rewrite Y2, Lm.
    assert (Z : rv s1 k = if Nat.eq_dec k i then Nat.max (rv s k) (srel_val r) else rv s k).
    { destruct (Nat.eq_dec k i) as [->|N].
      - unfold rv, s1. rewrite rl_set by exact Hi. apply srel_max_val.
      - unfold rv, s1. rewrite rl_set_other by exact N. reflexivity. }
    rewrite Z. destruct (Nat.eq_dec k i) as [->|N].
    + destruct (in_dec Nat.eq_dec i (map (left_of s) l)), (in_dec Nat.eq_dec i (i :: map (left_of s) l)) as [_|K];
        try (exfalso; apply K; left; reflexivity); lia.
    + destruct (in_dec Nat.eq_dec k (map (left_of s) l)) as [H|H], (in_dec Nat.eq_dec k (i :: map (left_of s) l)) as [K|K];
        try reflexivity; exfalso.
      * apply K. right. exact H.
      * destruct K as [K|K]; [congruence|contradiction].
Qed.
Lemma filter_length_all {A} (f : A -> bool) l : (length (filter f l) < length l)%nat -> exists x, In x l /\ f x = false.
Proof.
  induction l as [|a l IH]; cbn; [lia|]. destruct (f a) eqn:E.
  - cbn. intros H. destruct IH as (x & I & F); [lia|]. exists x. auto.
  - intros _. exists a. auto.
Qed.
Lemma crossing_spec s l : (forall e, In e l -> (left_of s e < nl s)%nat) ->
  let s' := detect_crossing_angles s l in
  relonly s s' /\ forall k, rv s' k = rv s k
    \/ In k (map (left_of s) l) /\ (exists e f, In e l /\ In f l /\ efrom_test s e = true /\ efrom_test s f = false)
       /\ rv s' k = Nat.max (rv s k) 2.
Proof.
  intros V s'. assert (T : relonly s s /\ forall k, rv s k = rv s k
    \/ In k (map (left_of s) l) /\ (exists e f, In e l /\ In f l /\ efrom_test s e = true /\ efrom_test s f = false)
       /\ rv s k = Nat.max (rv s k) 2) by (split; [apply relonly_refl|auto]).
  unfold s', detect_crossing_angles. cbv zeta.
  destruct (Nat.ltb (length l) 4 || _) eqn:C; [exact T|].
  destruct l as [|e0 l']; [exact T|].
  destruct (filter (fun e => negb (efrom_test s e)) (e0 :: l')) as [|g0 gs] eqn:Eg; [exact T|].
  destruct (negb (all_equal _)); [|exact T]. set (l := e0 :: l') in *.
  destruct (raise_fold SCROSS l s V) as [X1 X2]. cbv zeta in X1, X2. split; [exact X1|].
  intros k. rewrite X2. destruct (in_dec Nat.eq_dec k (map (left_of s) l)) as [I|I]; [right|left; reflexivity].
  split; [exact I|]. split; [|reflexivity].
  apply orb_false_iff in C. destruct C as [_ C]. apply negb_false_iff, andb_true_iff in C. destruct C as [C1 C2].
  apply Nat.ltb_lt in C1. assert (Ig : In g0 (filter (fun e => negb (efrom_test s e)) l)) by (rewrite Eg; left; reflexivity).
  apply filter_In in Ig. destruct Ig as [Ig Fg].
  destruct (filter (efrom_test s) l) as [|e es] eqn:Ee; [cbn in C1; lia|].
  assert (Ie : In e (filter (efrom_test s) l)) by (rewrite Ee; left; reflexivity).
  apply filter_In in Ie. exists e, g0. destruct Ie as [Ie Fe]. apply negb_true_iff in Fg. auto.
Qed.

(** * Leaving a point *)
Definition leave (linear : bool) (s : store) (l : list eref) : store * list levent :=
  complete_events_relations (if linear then detect_crossing_angles s l else s) l.
Lemma leave_spec linear s l s' outs : leave linear s l = (s', outs) ->
  NoDup (map (left_of s) l) -> (forall f, In f l -> (left_of s f < nl s)%nat) ->
  relonly s s' /\ outs = map (fun e => gl s' (left_of s e)) l
  /\ (forall k, ~ In k (map (left_of s) l) -> rl s' k = rl s k)
  /\ (forall e, In e l -> (rl s' (left_of s e) = SOVERLAP <-> rl s (left_of s e) = SOVERLAP
       \/ exists f, In f l /\ f <> e /\ pair_rel s e f = SOVERLAP))
  /\ (forall e, In e l -> (rl s' (left_of s e) <> SDISJOINT <-> rl s (left_of s e) <> SDISJOINT
       \/ exists f, In f l /\ efrom_test s f <> efrom_test s e))
  /\ (linear = false -> forall e n, In e l -> (n <= rv s' (left_of s e) <-> n <= rv s (left_of s e)
       \/ exists f, In f l /\ f <> e /\ n <= srel_val (pair_rel s e f))%nat).
Proof.
  unfold leave. intros H N V.
  assert (C : exists s1, s1 = (if linear then detect_crossing_angles s l else s) /\ relonly s s1
    /\ forall k, rv s1 k = rv s k
    \/ In k (map (left_of s) l) /\ (exists e f, In e l /\ In f l /\ efrom_test s e = true /\ efrom_test s f = false)
       /\ rv s1 k = Nat.max (rv s k) 2).
  { eexists. split; [reflexivity|]. destruct linear; [apply crossing_spec; exact V|].
    split; [apply relonly_refl|]. auto. }
  destruct C as (s1 & E1 & X1 & X2). rewrite <- E1 in H. pose proof (ro_geo _ _ X1) as G.
  assert (Lo : forall g, left_of s1 g = left_of s g) by (intros g; apply (geo_left_of G)).
  assert (Lm : forall m, map (left_of s1) m = map (left_of s) m) by (intros m; apply map_ext; exact Lo).
  destruct (complete_spec l s1 s' outs H) as (Y1 & Y2 & Y3 & Y4).
  { rewrite Lm. exact N. }
  { intros f I. rewrite Lo, (sg_len _ _ G). apply V, I. }
  rewrite Lm in Y3. split; [eapply relonly_trans; eassumption|].
  split; [rewrite Y2; apply map_ext; intros e; rewrite Lo; reflexivity|].
  assert (O3 : forall r, r = SOVERLAP <-> (3 <= srel_val r)%nat) by (intros []; cbn; split; intros; try congruence; lia).
  assert (D1 : forall r, r <> SDISJOINT <-> (1 <= srel_val r)%nat) by (intros []; cbn; split; intros; try congruence; lia).
  split; [|split; [|split]].
  - intros k K. apply srel_val_inj. change (rv s' k = rv s k). rewrite (Y3 k K).
    destruct (X2 k) as [Z|[Z _]]; [exact Z|contradiction].
  - intros e I. rewrite !O3. fold (rv s' (left_of s e)) (rv s (left_of s e)). pose proof (Y4 e 3%nat I) as Z. rewrite Lo in Z. rewrite Z.
    assert (W : (3 <= rv s1 (left_of s e) <-> 3 <= rv s (left_of s e))%nat) by (destruct (X2 (left_of s e)) as [->|(_ & _ & ->)]; lia).
    rewrite W. split; (intros [K|(f & K1 & K2 & K3)]; [left; exact K|right; exists f; split; [exact K1|split; [exact K2|]]]).
    + rewrite O3, <- (pair_rel_geo _ _ _ _ G). exact K3.
    + rewrite (pair_rel_geo _ _ _ _ G), <- O3. exact K3.
  - intros e I. rewrite !D1. fold (rv s' (left_of s e)) (rv s (left_of s e)). pose proof (Y4 e 1%nat I) as Z. rewrite Lo in Z. rewrite Z.
    assert (PD : forall f, (1 <= srel_val (pair_rel s1 e f))%nat <-> efrom_test s f <> efrom_test s e).
    { intros f. rewrite (pair_rel_geo _ _ _ _ G). unfold pair_rel.
      destruct (Bool.eqb (efrom_test s f) (efrom_test s e)) eqn:Q.
      - apply eqb_prop in Q. cbn. split; [lia|congruence].
      - apply eqb_false_iff in Q. split; [intros _; exact Q|intros _].
        destruct (_ && _); [cbn; lia|]. destruct (_ || _); cbn; lia. }
    split.
    + intros [K|(f & K1 & K2 & K3)]; [|right; exists f; split; [exact K1|apply PD, K3]].
      destruct (X2 (left_of s e)) as [W|(_ & (f & g & F1 & F2 & F3 & F4) & _)]; [left; lia|right].
      destruct (efrom_test s e); [exists g|exists f]; split; try assumption; congruence.
    + intros [K|(f & K1 & K2)].
      * left. destruct (X2 (left_of s e)) as [W|(_ & _ & W)]; lia.
      * right. exists f. split; [exact K1|]. split; [congruence|apply PD, K2].
  - intros -> e n I. subst s1. rewrite (Y4 e n I). tauto.
Qed.
(* The relation of an event is at least the relation with any other event of
   the point. *)
Lemma leave_pair linear s l s' outs : leave linear s l = (s', outs) ->
  NoDup (map (left_of s) l) -> (forall f, In f l -> (left_of s f < nl s)%nat) ->
  forall e f, In e l -> In f l -> f <> e -> (srel_val (pair_rel s e f) <= rv s' (left_of s e))%nat.
Proof.
  unfold leave. intros H N V e f Ie If Nf.
  assert (X1 : relonly s (if linear then detect_crossing_angles s l else s)) by (destruct linear; [apply (crossing_spec s l V)|apply relonly_refl]).
  set (s1 := if linear then detect_crossing_angles s l else s) in *. pose proof (ro_geo _ _ X1) as G.
  assert (Lo : forall g, left_of s1 g = left_of s g) by (intros g; apply (geo_left_of G)).
  destruct (complete_spec l s1 s' outs H) as (_ & _ & _ & Y4).
  { rewrite (map_ext _ _ Lo). exact N. }
  { intros g I. rewrite Lo, (sg_len _ _ G). apply V, I. }
  rewrite <- Lo. apply (Y4 e _ Ie). right. exists f. split; [exact If|]. split; [exact Nf|]. rewrite (pair_rel_geo _ _ _ _ G). apply le_n.
Qed.
