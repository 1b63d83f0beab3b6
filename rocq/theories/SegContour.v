(* The relation of a segment to a contour (contour.relate_segment and
   region.relate_segment_to_contour). *)
From Coq Require Import QArith Qcanon Lqa List Bool ZArith Lia.
From Verif Require Import Scalar Base Ground MLinear Planar Spec RayParity Geom PointProofs SegProofs SweepDetect Check Along SegMulti EqualProofs.
Import ListNotations.
Open Scope Qc_scope.

(** * Indices of the edges *)
Lemma nth_combine {A B} (l : list A) (m : list B) j x y :
  nth_error (combine l m) j = Some (x, y) <-> nth_error l j = Some x /\ nth_error m j = Some y.
Proof.
  revert m j. induction l as [|a l IH]; intros [|b m] [|j]; cbn; try (split; [discriminate|intros [? ?]; discriminate]).
  - split; [intros H; injection H as <- <-; auto|intros [H K]; congruence].
  - apply IH.
Qed.
Lemma snoc_of {A} (l : list A) : l <> [] -> exists m z, l = m ++ [z].
Proof. intros H. destruct (exists_last H) as (m & z & ->). eauto. Qed.
Lemma nth_segments c j e : nth_error (contour_segments c) j = Some e
  <-> nth_error (rot_right (vertices c)) j = Some (s_start e) /\ nth_error (vertices c) j = Some (s_end e).
Proof.
  unfold contour_segments, edges_endpoints. rewrite <- nth_combine. rewrite nth_error_map.
  destruct (nth_error (combine _ _) j) as [[a b]|]; cbn; [|split; discriminate].
  split; [intros H; injection H as <-; reflexivity|intros H; injection H as -> ->; destruct e; reflexivity].
Qed.
Lemma consecutive c j e f : nth_error (contour_segments c) j = Some e -> nth_error (contour_segments c) (S j) = Some f -> s_end e = s_start f.
Proof.
  rewrite !nth_segments. intros [_ E] [F _]. destruct (snoc_of (vertices c)) as (l & z & V); [intros K; rewrite K in E; destruct j; discriminate|].
  rewrite V in *. rewrite rot_right_snoc in F. cbn in F.
  assert (J : (j < length l)%nat) by (apply nth_error_Some; congruence). rewrite nth_error_app1 in E by exact J. congruence.
Qed.
Lemma wrapped c e f : nth_error (contour_segments c) (length (vertices c) - 1) = Some e -> nth_error (contour_segments c) 0 = Some f ->
  s_end e = s_start f /\ py_nth (vertices c) (-1) = Ok (s_start f) /\ py_nth (vertices c) 0 = Ok (s_end f)
  /\ ((2 <= length (vertices c))%nat -> py_nth (vertices c) (-2) = Ok (s_start e)).
Proof.
  rewrite !nth_segments. intros [E1 E2] [F1 F2]. destruct (snoc_of (vertices c)) as (l & z & V); [intros K; rewrite K in F2; discriminate|].
  rewrite V in *. rewrite rot_right_snoc in *. rewrite app_length in *. cbn [length] in *.
  replace (length l + 1 - 1)%nat with (length l) in * by lia. cbn in F1. injection F1 as F1.
  rewrite nth_error_app2, Nat.sub_diag in E2 by lia. cbn in E2. injection E2 as E2.
  split; [congruence|]. split; [rewrite <- F1; apply py_nth_last|]. split.
  - destruct l as [|y l]; cbn in F2; injection F2 as <-; reflexivity.
  - intros L2. destruct (snoc_of l) as (m & y & ->); [intros ->; cbn in L2; lia|].
    rewrite app_length in E1. cbn [length] in E1. replace (length m + 1)%nat with (S (length m)) in E1 by lia. cbn [nth_error] in E1.
    rewrite nth_error_app2, Nat.sub_diag in E1 by lia. cbn in E1. injection E1 as <-.
    unfold py_nth. rewrite !app_length. cbn [length].
    replace (-2 + Z.of_nat (length m + 1 + 1))%Z with (Z.of_nat (length m)) by lia.
    replace ((-2 <? 0)%Z) with true by reflexivity. destruct (Z.ltb_spec (Z.of_nat (length m)) 0); [lia|].
    destruct (Z.leb_spec (Z.of_nat (length m + 1 + 1)) (Z.of_nat (length m))); [lia|]. cbn [orb].
    rewrite Nat2Z.id, <- app_assoc, nth_error_app2, Nat.sub_diag by lia. reflexivity.
Qed.
(* Two edges with a common vertex are consecutive. *)
Lemma neighbours c e f : NoDup (vertices c) -> In e (contour_segments c) -> In f (contour_segments c) -> s_end e = s_start f ->
  (exists j, nth_error (contour_segments c) j = Some e /\ nth_error (contour_segments c) (S j) = Some f)
  \/ nth_error (contour_segments c) (length (vertices c) - 1) = Some e /\ nth_error (contour_segments c) 0 = Some f.
Proof.
  intros ND IE IF H. destruct (In_nth_error _ _ IE) as (i & E), (In_nth_error _ _ IF) as (j & F).
  assert (E' := E). assert (F' := F). rewrite nth_segments in E, F. destruct E as [_ E], F as [F _].
  destruct (snoc_of (vertices c)) as (l & z & V); [intros K; rewrite K in E; destruct i; discriminate|].
  rewrite V in E, F, ND |- *. rewrite rot_right_snoc in F. rewrite app_length. cbn [length]. replace (length l + 1 - 1)%nat with (length l) by lia.
  assert (I : (i < length (l ++ [z]))%nat) by (apply nth_error_Some; congruence).
  destruct j as [|j].
  - right. split; [|exact F']. cbn in F. injection F as F. rewrite <- E'. f_equal.
    assert (K : nth_error (l ++ [z]) (length l) = nth_error (l ++ [z]) i).
    { rewrite E, nth_error_app2, Nat.sub_diag by lia. cbn. congruence. }
    apply (proj1 (NoDup_nth_error (l ++ [z])) ND); [rewrite app_length; cbn; lia|exact K].
  - left. exists j. split; [|exact F']. rewrite <- E'. f_equal. cbn in F.
    assert (J : (j < length l)%nat) by (apply nth_error_Some; congruence).
    apply (proj1 (NoDup_nth_error (l ++ [z])) ND); [rewrite app_length; cbn; lia|].
    rewrite E, nth_error_app1 by exact J. congruence.
Qed.

(* A segment touched inside of [s] is touched at one of its ends. *)
Lemma touch_inside s t x : nondegenerate s -> nondegenerate t -> segments_relation s t = TOUCH -> strictly_inside_segment s x -> in_segment t x ->
  x = s_start t /\ cross (s_start s) (s_end s) (s_end t) <> 0 \/ x = s_end t /\ cross (s_start s) (s_end s) (s_start t) <> 0.
Proof.
  intros N M R SI X. destruct (touch_case s N t M R) as ((_ & _ & U) & H). cbv zeta in H.
  assert (E : x = segments_intersection t s) by (apply U; [apply SI|exact X]). rewrite <- E in H.
  apply (inside_s s N) in SI. destruct SI as (_ & NA & NB). destruct (H NA NB) as (EE & Z & _). clear H.
  assert (CR : forall q, cross (seg_lo s) (seg_hi s) q <> 0 -> cross (s_start s) (s_end s) q <> 0).
  { intros q K Q. apply K. destruct (seg_lo_hi s N) as (_ & _ & [[-> ->]|[-> ->]]); [exact Q|rewrite cross_flip, Q; ring]. }
  unfold other in Z. destruct (pt_eqb_spec x (s_end t)) as [Q|Q]; [right|left; destruct EE; [|contradiction]]; split; auto.
Qed.

Section OneSegment.
  Variable s : segment.
  Hypothesis N : nondegenerate s.
  Notation rel t := (segments_relation s t).
  Notation cr q := (cross (s_start s) (s_end s) q).

  (** * The test at a vertex *)
  Lemma cr_sides q : (0 < cr q <-> to_left (s_start s) (s_end s) q) /\ (cr q < 0 <-> to_right (s_start s) (s_end s) q).
  Proof using Type. unfold to_left, to_right, cross. repeat split; intros ?; qlra. Qed.
  Lemma cr_zero p : in_segment s p -> cr p = 0.
  Proof using Type. apply on_segment_cross. Qed.
  Definition vtest (u : point) (edge : segment) : bool :=
    negb (pt_in2 (s_start s) (s_start edge, s_end edge)) && negb (pt_in2 (s_end s) (s_start edge, s_end edge))
    && orientation_eqb (angle_orientation (s_start s) (s_end s) (s_start edge)) COLLINEAR
    && point_vertex_line_divides_angle (s_start s) u (s_start edge) (s_end edge).
  Lemma pt_in2_true p ab : pt_in2 p ab = true <-> p = fst ab \/ p = snd ab.
  Proof using Type.
    destruct ab as [a b]. unfold pt_in2. cbn [fst snd]. rewrite orb_true_iff.
    destruct (pt_eqb_spec p a), (pt_eqb_spec p b); split; intros; auto; intuition (discriminate || contradiction).
  Qed.
  Lemma divides_spec u v w : strictly_inside_segment s v -> cr u <> 0 -> cr w <> 0 ->
    (point_vertex_line_divides_angle (s_start s) u v w = true <-> 0 < cr u /\ cr w < 0 \/ cr u < 0 /\ 0 < cr w).
  Proof using Type.
    intros ((k & K0 & K1 & EV) & NS & _) U W. assert (K : 0 < k).
    { destruct (q_trichotomy 0 k) as [H|[H|H]]; [exact H| |exfalso; qlra]. exfalso. apply NS. rewrite EV, <- H. destruct (s_start s). unfold lerp; cbn. f_equal; ring. }
    assert (EU : cross v u (s_start s) = k * cr u) by (rewrite EV; unfold cross, lerp; cbn; ring).
    assert (EW : cross v (s_start s) w = - (k * cr w)) by (rewrite EV; unfold cross, lerp; cbn; ring).
    unfold point_vertex_line_divides_angle. unfold orientation_eqb.
    assert (O1 := angle_orientation_ccw v u (s_start s)). assert (O2 := angle_orientation_cw v u (s_start s)). assert (O3 := angle_orientation_col v u (s_start s)).
    assert (P1 := angle_orientation_ccw v (s_start s) w). assert (P2 := angle_orientation_cw v (s_start s) w). assert (P3 := angle_orientation_col v (s_start s) w).
    rewrite EU in O1, O2, O3. rewrite EW in P1, P2, P3. clear EU EW EV.
    revert U W O1 O2 O3 P1 P2 P3. generalize (cr u) as x, (cr w) as y. intros x y U W O1 O2 O3 P1 P2 P3.
    assert (UU : x < 0 /\ k * x < 0 \/ 0 < x /\ 0 < k * x) by (destruct (q_trichotomy x 0) as [H|[H|H]]; [left; split; qnra|contradiction|right; split; qnra]).
    assert (WW : y < 0 /\ k * y < 0 \/ 0 < y /\ 0 < k * y) by (destruct (q_trichotomy y 0) as [H|[H|H]]; [left; split; qnra|contradiction|right; split; qnra]).
    destruct (angle_orientation v u (s_start s)), (angle_orientation v (s_start s) w);
      repeat match goal with H : ?a = ?a <-> _ |- _ => apply proj1 in H; specialize (H eq_refl) end;
      (split; [intros Q; first [discriminate Q|idtac]|intros Q; first [reflexivity|exfalso]]);
      destruct UU as [[U1 U2]|[U1 U2]], WW as [[W1 W2]|[W1 W2]];
      first [exfalso; qlra|left; split; assumption|right; split; assumption|destruct Q as [[Q1 Q2]|[Q1 Q2]]; qlra|idtac].
  Qed.
  Lemma vtest_spec u v w : u <> v -> v <> w -> rel (Seg u v) = TOUCH -> rel (Seg v w) = TOUCH ->
    (vtest u (Seg v w) = true <-> strictly_inside_segment s v /\ (0 < cr u /\ cr w < 0 \/ cr u < 0 /\ 0 < cr w)).
  Proof using N.
    intros D E RA RB. unfold vtest. cbn [s_start s_end].
    assert (NA : nondegenerate (Seg u v)) by exact D. assert (NB : nondegenerate (Seg v w)) by exact E.
    assert (OV : in_segment (Seg v w) v) by apply on_segment_start. assert (OU : in_segment (Seg u v) v) by apply on_segment_end.
    assert (INS : strictly_inside_segment s v -> cr u <> 0 /\ cr w <> 0).
    { intros SI. destruct (touch_inside s (Seg u v) v N NA RA SI OU) as [[K _]|[_ K]]; [cbn in K; congruence|].
      destruct (touch_inside s (Seg v w) v N NB RB SI OV) as [[_ L]|[L _]]; [|cbn in L; congruence]. split; assumption. }
    rewrite !andb_true_iff, !negb_true_iff. split.
    - intros (((I1 & I2) & CO) & DV).
      assert (S1 : s_start s <> v /\ s_start s <> w).
      { split; intros K; assert (Z : pt_in2 (s_start s) (v, w) = true) by (apply pt_in2_true; cbn; auto); congruence. }
      assert (S2 : s_end s <> v /\ s_end s <> w).
      { split; intros K; assert (Z : pt_in2 (s_end s) (v, w) = true) by (apply pt_in2_true; cbn; auto); congruence. }
      assert (ZV : cr v = 0).
      { apply angle_orientation_col. destruct (angle_orientation _ _ _); [discriminate|reflexivity|discriminate]. }
      assert (Sp := rel_sound s N (Seg v w) NB). rewrite RB in Sp. cbn [segments_spec] in Sp. destruct Sp as (x & (X1 & X2 & UX) & XE).
      assert (ZX := cr_zero x X1).
      assert (SI : strictly_inside_segment s v).
      { destruct (q_trichotomy (cr w) 0) as [W|[W|W]].
        2:{ exfalso. destruct (pt_eqb_spec x (s_start s)) as [H|H]; [|destruct (pt_eqb_spec x (s_end s)) as [H'|H']].
            3:{ destruct (touch_inside s (Seg v w) x N NB RB) as [[_ K]|[_ K]]; [split; [exact X1|split; congruence]|exact X2| |]; cbn in K; contradiction. }
            all: assert (XI : strictly_inside_segment (Seg v w) x) by (split; [exact X2|cbn; split; intros K; destruct S1, S2; congruence]).
            all: assert (RR : segments_relation (Seg v w) s = TOUCH).
            all: try (apply (segments_spec_unique (Seg v w) s); [exact NB|exact N|apply segments_relation_sound; assumption|exists x; split; [apply meet_at_sym; split; [exact X1|split; assumption]|destruct XE; auto]]).
            all: assert (Q : cross v w (s_start s) = 0 /\ cross v w (s_end s) = 0) by (apply (cross_swap_line v w (s_start s) (s_end s) E N); split; assumption).
            all: destruct (touch_inside (Seg v w) s x NB N RR XI X1) as [[_ K]|[_ K]]; cbn [s_start s_end] in K; destruct Q; contradiction. }
        all: assert (XV : x = v) by
          (destruct X2 as (k & _ & _ & EX); cbn [s_start s_end] in EX; rewrite EX, cross_on_line_lerp, ZV in ZX;
           assert (Z : k * cr w = 0) by (rewrite <- ZX; ring); q_integral Z; [|exfalso; qlra];
           rewrite EX, Z; destruct v; unfold lerp; cbn; f_equal; ring).
        all: subst x; split; [exact X1|destruct S1, S2; split; congruence]. }
      destruct (INS SI) as [CU CW]. split; [exact SI|]. apply (divides_spec u v w SI CU CW), DV.
    - intros (SI & OP). destruct (INS SI) as [CU CW]. assert (ZV := cr_zero v (proj1 SI)). assert (SI' := SI). destruct SI' as (_ & V1 & V2).
      assert (Zs : cr (s_start s) = 0) by (apply cr_zero, on_segment_start). assert (Ze : cr (s_end s) = 0) by (apply cr_zero, on_segment_end).
      repeat split.
      + destruct (pt_in2 (s_start s) (v, w)) eqn:K; [|reflexivity]. apply pt_in2_true in K. cbn in K. destruct K as [K|K]; [congruence|]. rewrite <- K in CW. contradiction.
      + destruct (pt_in2 (s_end s) (v, w)) eqn:K; [|reflexivity]. apply pt_in2_true in K. cbn in K. destruct K as [K|K]; [congruence|]. rewrite <- K in CW. contradiction.
      + apply angle_orientation_col in ZV. rewrite ZV. reflexivity.
      + apply (divides_spec u v w SI CU CW), OP.
  Qed.

  (** * The loops *)
  Definition pair_cross (l : list segment) : Prop := exists j e f, nth_error l j = Some e /\ nth_error l (S j) = Some f
    /\ rel e = TOUCH /\ rel f = TOUCH /\ vtest (s_start e) f = true.
  Definition cross_found (l : list segment) : Prop := (exists e, In e l /\ rel e = CROSS) \/ pair_cross l.
  Definition short e : Prop := rel e = TOUCH \/ rel e = CROSS \/ rel e = DISJOINT.
  Definition last_ok (pre : list segment) (nt : bool) (last : option (nat * point)) : Prop :=
    (nt = false <-> exists e, In e pre /\ rel e = TOUCH)
    /\ (nt = false -> exists j e, last = Some (j, s_start e) /\ nth_error pre j = Some e /\ rel e = TOUCH
        /\ forall k f, nth_error pre k = Some f -> rel f = TOUCH -> (k <= j)%nat).
  Lemma vertex_test (pre : list segment) last j u e : last = Some (j, u) ->
    crosses_at_vertex s (length pre) last e = Nat.eqb (length pre) (S j) && vtest u e.
  Proof using Type. intros ->. unfold crosses_at_vertex, vtest. repeat rewrite <- andb_assoc. reflexivity. Qed.
  Lemma pair_snoc pre e : pair_cross (pre ++ [e]) <-> pair_cross pre
    \/ exists j f, S j = length pre /\ nth_error pre j = Some f /\ rel f = TOUCH /\ rel e = TOUCH /\ vtest (s_start f) e = true.
  Proof using Type.
    split.
    - intros (j & f & g & F & G & H). destruct (Nat.lt_ge_cases (S j) (length pre)) as [K|K].
      + left. exists j, f, g. rewrite nth_error_app1 in F, G by lia. auto.
      + right. assert (LL : (S j < length (pre ++ [e]))%nat) by (apply nth_error_Some; congruence). rewrite app_length in LL. cbn in LL.
        assert (J : S j = length pre) by lia. rewrite nth_error_app1 in F by lia. rewrite J, nth_error_app2, Nat.sub_diag in G by lia. cbn in G. injection G as <-.
        exists j, f. tauto.
    - intros [(j & f & g & F & G & H)|(j & f & J & F & H)].
      + exists j, f, g. assert (S j < length pre)%nat by (apply nth_error_Some; congruence). rewrite !nth_error_app1 by lia. auto.
      + exists j, f, e. rewrite nth_error_app1 by lia. rewrite J, nth_error_app2, Nat.sub_diag by lia. cbn. tauto.
  Qed.
  Lemma found_snoc pre e : cross_found (pre ++ [e]) <-> cross_found pre \/ rel e = CROSS
    \/ exists j f, S j = length pre /\ nth_error pre j = Some f /\ rel f = TOUCH /\ rel e = TOUCH /\ vtest (s_start f) e = true.
  Proof using Type.
    unfold cross_found. rewrite pair_snoc. split.
    - intros [(f & I & R)|[H|H]]; [|auto|auto]. apply in_app_iff in I. destruct I as [I|[<-|[]]]; [left; left; exists f; auto|auto].
    - intros [[(f & I & R)|H]|[H|H]]; [left; exists f; split; [apply in_app_iff; auto|exact R]|auto| |auto].
      left. exists e. split; [apply in_app_iff; cbn; auto|exact H].
  Qed.
  Lemma last_touch pre nt last e : last_ok pre nt last -> rel e = TOUCH -> last_ok (pre ++ [e]) false (Some (length pre, s_start e)).
  Proof using Type.
    intros _ R. split.
    - split; [|reflexivity]. intros _. exists e. split; [apply in_app_iff; cbn; auto|exact R].
    - intros _. exists (length pre), e. split; [reflexivity|]. rewrite nth_error_app2, Nat.sub_diag by lia. split; [reflexivity|]. split; [exact R|].
      intros k f K _. assert (LL : (k < length (pre ++ [e]))%nat) by (apply nth_error_Some; congruence). rewrite app_length in LL. cbn in LL. lia.
  Qed.
  Lemma last_other pre nt last e : last_ok pre nt last -> rel e <> TOUCH -> last_ok (pre ++ [e]) nt last.
  Proof using Type.
    intros (H & K) R. split.
    - rewrite H. split; intros (f & I & F); exists f; (split; [|exact F]); [apply in_app_iff; auto|].
      apply in_app_iff in I. destruct I as [I|[<-|[]]]; [exact I|contradiction].
    - intros NT. destruct (K NT) as (j & f & E & F & RF & M). exists j, f. split; [exact E|].
      assert (J : (j < length pre)%nat) by (apply nth_error_Some; congruence). split; [rewrite nth_error_app1 by exact J; exact F|]. split; [exact RF|].
      intros k g G RG. destruct (Nat.lt_ge_cases k (length pre)) as [Q|Q]; [rewrite nth_error_app1 in G by exact Q; exact (M k g G RG)|].
      exfalso. rewrite nth_error_app2 in G by exact Q. destruct (k - length pre)%nat as [|i]; cbn in G; [injection G as <-; contradiction|destruct i; discriminate].
  Qed.
  Lemma test_at pre nt last e : last_ok pre nt last -> rel e = TOUCH ->
    (negb nt && crosses_at_vertex s (length pre) last e = true <->
     exists j f, S j = length pre /\ nth_error pre j = Some f /\ rel f = TOUCH /\ rel e = TOUCH /\ vtest (s_start f) e = true).
  Proof using Type.
    intros (T & LA) R. destruct nt; cbn [negb andb].
    - split; [discriminate|]. intros (j & f & _ & F & RF & _). assert (K : true = false); [|discriminate]. apply T. exists f. split; [eapply nth_error_In; exact F|exact RF].
    - destruct (LA eq_refl) as (j & f & E & F & RF & M). rewrite (vertex_test pre last j (s_start f) e E), andb_true_iff, Nat.eqb_eq. split.
      + intros (J & V). exists j, f. auto.
      + intros (j' & f' & J & F' & RF' & _ & V). specialize (M j' f' F' RF'). assert (j < length pre)%nat by (apply nth_error_Some; congruence).
        assert (j = j') by lia. subst j'. assert (f' = f) by congruence. subst f'. auto.
  Qed.

  (* contour.relate_segment *)
  Definition cinv (pre : list segment) (st : cs_state) : Prop :=
    (forall e, In e pre -> short e) /\ last_ok pre (cs_no_touch st) (cs_last st) /\ (cs_no_cross st = false <-> cross_found pre).
  Lemma short_snoc pre e : (forall f, In f pre -> short f) -> short e -> forall f, In f (pre ++ [e]) -> short f.
  Proof using Type. intros H K f I. apply in_app_iff in I. destruct I as [I|[<-|[]]]; auto. Qed.
  Lemma cs_loop_spec es : forall pre st, cinv pre st ->
    match cs_loop s (length pre) es st with
    | inl r => exists e, In e es /\ (r = COMPONENT /\ (rel e = COMPONENT \/ rel e = EQUAL) \/ r = OVERLAP /\ (rel e = OVERLAP \/ rel e = COMPOSITE))
    | inr st' => cinv (pre ++ es) st'
    end.
  Proof using Type.
    induction es as [|e es IH]; intros pre st I; cbn [cs_loop]; [rewrite app_nil_r; exact I|]. cbv zeta.
    change (segment_relate_segment e s) with (rel e).
    assert (GO : forall st', cinv (pre ++ [e]) st' ->
      match cs_loop s (S (length pre)) es st' with
      | inl r => exists f, In f (e :: es) /\ (r = COMPONENT /\ (rel f = COMPONENT \/ rel f = EQUAL) \/ r = OVERLAP /\ (rel f = OVERLAP \/ rel f = COMPOSITE))
      | inr st'' => cinv (pre ++ e :: es) st''
      end).
    { intros st' I'. specialize (IH (pre ++ [e]) st' I'). rewrite app_length in IH. cbn [length] in IH. replace (length pre + 1)%nat with (S (length pre)) in IH by lia.
      destruct (cs_loop s (S (length pre)) es st') as [r|st'']; [destruct IH as (f & F & K); exists f; split; [right; exact F|exact K]|].
      rewrite <- app_assoc in IH. exact IH. }
    destruct I as (SH & LA & CF).
    destruct (rel_cases s e) as [R|[R|[R|[R|[R|[R|R]]]]]]; rewrite R; cbn [relation_eqb orb].
    1-4: exists e; split; [left; reflexivity|tauto].
    - apply GO. split; [apply short_snoc; [exact SH|left; exact R]|]. split; [exact (last_touch _ _ _ e LA R)|]. cbn [cs_no_cross].
      rewrite found_snoc, <- (test_at pre _ _ e LA R), R, <- CF.
      destruct (cs_no_touch st), (cs_no_cross st), (crosses_at_vertex s (length pre) (cs_last st) e); cbn; intuition discriminate.
    - assert (NT : rel e <> TOUCH) by (rewrite R; discriminate).
      assert (CF' : cross_found (pre ++ [e])) by (apply found_snoc; right; left; exact R).
      destruct (cs_no_cross st) eqn:NC; cbn [andb]; apply GO; (split; [apply short_snoc; [exact SH|right; left; exact R]|]).
      + cbn. split; [exact (last_other _ _ _ e LA NT)|]. split; [intros _; exact CF'|reflexivity].
      + split; [exact (last_other _ _ _ e LA NT)|]. rewrite NC. split; [intros _; exact CF'|reflexivity].
    - rewrite andb_false_r. assert (NT : rel e <> TOUCH) by (rewrite R; discriminate). apply GO.
      split; [apply short_snoc; [exact SH|right; right; exact R]|]. split; [exact (last_other _ _ _ e LA NT)|].
      rewrite CF, found_snoc. split; [auto|]. intros [H|[H|(j & f & _ & _ & _ & H & _)]]; [exact H|congruence|congruence].
  Qed.

  (* region.relate_segment_to_contour *)
  Definition rinv (pre : list segment) (st : rs_state) : Prop :=
    (forall e, In e pre -> rel e <> COMPONENT /\ rel e <> EQUAL) /\ (rs_no_overlap st = true <-> forall e, In e pre -> short e)
    /\ last_ok pre (rs_no_touch st) (rs_last st) /\ ~ cross_found pre.
  Lemma rs_loop_spec es : forall pre st, rinv pre st ->
    match rs_loop s (length pre) es st with
    | inl r => r = COMPONENT /\ (exists e, In e es /\ (rel e = COMPONENT \/ rel e = EQUAL)) \/ r = CROSS /\ cross_found (pre ++ es)
    | inr st' => rinv (pre ++ es) st'
    end.
  Proof using Type.
    induction es as [|e es IH]; intros pre st I; cbn [rs_loop]; [rewrite app_nil_r; exact I|]. cbv zeta.
    change (segment_relate_segment e s) with (rel e).
    assert (GO : forall st', rinv (pre ++ [e]) st' ->
      match rs_loop s (S (length pre)) es st' with
      | inl r => r = COMPONENT /\ (exists f, In f (e :: es) /\ (rel f = COMPONENT \/ rel f = EQUAL)) \/ r = CROSS /\ cross_found (pre ++ e :: es)
      | inr st'' => rinv (pre ++ e :: es) st''
      end).
    { intros st' I'. specialize (IH (pre ++ [e]) st' I'). rewrite app_length in IH. cbn [length] in IH. replace (length pre + 1)%nat with (S (length pre)) in IH by lia.
      rewrite <- app_assoc in IH. cbn [app] in IH.
      destruct (rs_loop s (S (length pre)) es st') as [r|st'']; [|exact IH].
      destruct IH as [(K & f & F & RF)|IH]; [left; split; [exact K|]; exists f; split; [right; exact F|exact RF]|right; exact IH]. }
    assert (MORE : cross_found (pre ++ [e]) -> cross_found (pre ++ e :: es)).
    { intros [(f & F & RF)|(j & f & g & F & G & K)].
      - left. exists f. split; [apply in_app_iff in F; apply in_app_iff; destruct F as [F|[F|[]]]; [left; exact F|right; left; exact F]|exact RF].
      - right. exists j, f, g. change (e :: es) with ([e] ++ es). rewrite app_assoc.
        assert (S j < length (pre ++ [e]))%nat by (apply nth_error_Some; congruence). rewrite !(nth_error_app1 (pre ++ [e])) by lia. auto. }
    destruct I as (NE & SH & LA & CF).
    assert (NE' : rel e <> COMPONENT -> rel e <> EQUAL -> forall f, In f (pre ++ [e]) -> rel f <> COMPONENT /\ rel f <> EQUAL).
    { intros H K f F. apply in_app_iff in F. destruct F as [F|[<-|[]]]; [exact (NE f F)|auto]. }
    assert (SH' : short e -> (rs_no_overlap st = true <-> forall f, In f (pre ++ [e]) -> short f)).
    { intros H. rewrite SH. split; [intros K; apply short_snoc; assumption|intros K f F; apply K, in_app_iff; auto]. }
    destruct (rel_cases s e) as [R|[R|[R|[R|[R|[R|R]]]]]]; rewrite R; cbn [relation_eqb orb].
    1-2: left; split; [reflexivity|]; exists e; split; [left; reflexivity|tauto].
    1-2: assert (NT : rel e <> TOUCH) by (rewrite R; discriminate); apply GO; (split; [apply NE'; rewrite R; discriminate|]); cbn;
      (split; [split; [discriminate|]; intros K; assert (KE : short e) by (apply K, in_app_iff; cbn; auto); unfold short in KE; rewrite R in KE; intuition discriminate|]);
      (split; [exact (last_other _ _ _ e LA NT)|]); rewrite found_snoc; intros [H|[H|(j & f & _ & _ & _ & H & _)]]; [contradiction|congruence|congruence].
    - assert (T := test_at pre _ _ e LA R). destruct (negb (rs_no_touch st) && crosses_at_vertex s (length pre) (rs_last st) e) eqn:EQ.
      + right. split; [reflexivity|]. apply MORE, found_snoc. right; right. apply T. reflexivity.
      + apply GO. split; [apply NE'; rewrite R; discriminate|]. cbn. split; [apply SH'; left; exact R|]. split; [exact (last_touch _ _ _ e LA R)|].
        rewrite found_snoc. intros [H|[H|H]]; [contradiction|congruence|]. apply T in H. discriminate.
    - right. split; [reflexivity|]. apply MORE, found_snoc. right; left. exact R.
    - assert (NT : rel e <> TOUCH) by (rewrite R; discriminate). apply GO.
      split; [apply NE'; rewrite R; discriminate|]. split; [apply SH'; right; right; exact R|]. split; [exact (last_other _ _ _ e LA NT)|].
      rewrite found_snoc. intros [H|[H|(j & f & _ & _ & _ & H & _)]]; [contradiction|congruence|congruence].
  Qed.
End OneSegment.
