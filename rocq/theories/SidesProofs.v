(* When exactly the queries about two linear geometries answer CROSS. *)
From Coq Require Import QArith Qcanon Lqa List Bool ZArith Lia Permutation.
From Verif Require Import Scalar Base Ground MLinear MSweep MCompound Planar Spec SpecAreas SpecMore SpecSides Geom RayParity SegProofs BoxProofs PointProofs EqualProofs RefuteProofs
  SweepStore SweepDetect SweepSteps Termination SweepSafe NoFail SweepTime SweepOrder SweepMoves SweepAdvance SweepLoop SweepEmit SweepRun SweepFound SweepCross
  OpenProofs LeftSide Orient CrossProofs Corner SegContour SegEdges SegStraight SegRegion SegTold Rewritten SweepAngles SweepSides AreaAnswer AreaQueries.
Import ListNotations.
Open Scope Qc_scope.

Lemma open_sides inp stop b : items_ok inp -> apart inp -> ends_by inp stop b -> has_segment (side_has inp true) -> has_segment (side_has inp false) -> thin inp ->
  (process_open_linear_queue (sweep_fuel (init_state inp)) (init_state inp) stop = Ok CROSS
   <-> ~ share_segment (side_has inp true) (side_has inp false) /\ exists p, sides inp p).
Proof.
  intros IO AP EB HT HG TH. destruct (open_answer inp stop b IO AP EB HT HG) as (rel & E & S & U). rewrite E.
  unfold process_open_linear_queue, process in E.
  destruct (sweep true (sweep_fuel (init_state inp)) stop (init_state inp)) as [outs r] eqn:Sw.
  destruct (open_consume outs (OA true true true true true)) as (a & Ec & _ & _ & H3 & _ & H5). rewrite Ec in E.
  destruct r as [q|ex]; [|discriminate]. injection E as E. cbn [oa_no_overlap oa_no_cross andb] in H3, H5.
  assert (NoF : forall f, forallb f outs = false -> exists o, In o outs /\ f o = false).
  { clear. intros f. induction outs as [|o l IH]; cbn; [discriminate|]. destruct (f o) eqn:Eo; cbn; [|exists o; auto].
    intros K. destruct (IH K) as (x & I & F). exists x. auto. }
  split.
  - intros K. injection K as ->. destruct S as (_ & N & _). split; [exact N|].
    apply (sweep_sides inp stop b _ outs q IO AP EB (fun H => N (shared_segment inp H)) TH Sw).
    assert (Z : oa_no_cross a = false /\ oa_no_overlap a = true).
    { unfold open_finish in E. destruct (queue_rest q) as [[|]|], a as [ts gs nc nt no]; destruct ts, gs, nc, nt, no; cbn in E; try discriminate; cbn; auto. }
    destruct Z as [Z1 Z2]. rewrite (H5 Z2) in Z1. destruct (NoF _ Z1) as (o & I & F). exists o. split; [exact I|].
    destruct (srel_eqb_spec (l_relation o) SCROSS); [assumption|discriminate].
  - intros [N X].
    destruct (sweep_finds inp IO AP true stop b _ outs q EB Sw) as (_ & Over & _).
    assert (Z2 : oa_no_overlap a = true).
    { destruct (oa_no_overlap a); [reflexivity|]. exfalso. apply N, Over. destruct (NoF _ (eq_sym H3)) as (o & I & F). exists o. split; [exact I|].
      unfold over in F. destruct (srel_eqb_spec (l_relation o) SOVERLAP); [assumption|discriminate]. }
    assert (Cm : meets (side_has inp true) (side_has inp false)).
    { destruct X as (p & u & w & y & z & (x & X1 & X2 & X3 & _) & _ & _ & (x' & Y1 & Y2 & Y3 & _) & _). exists p. split; [exists x'; auto|exists x; auto]. }
    apply (sweep_sides inp stop b _ outs q IO AP EB (fun H => N (shared_segment inp H)) TH Sw) in X. destruct X as (o & I & Eo).
    assert (Z1 : oa_no_cross a = false).
    { rewrite (H5 Z2). match goal with |- forallb ?g outs = false => destruct (forallb g outs) eqn:F end; [|reflexivity]. rewrite forallb_forall in F. specialize (F o I). rewrite Eo in F. discriminate. }
    f_equal. assert (M : linear_spec (side_has inp true) (side_has inp false) CROSS).
    { split; [exact Cm|]. split; [exact N|].
      destruct (sweep_finds inp IO AP true stop b _ outs q EB Sw) as (_ & _ & _ & _ & Fin). apply Fin.
      intros o' I' Eo'. rewrite Z2 in H3. symmetry in H3. rewrite forallb_forall in H3. specialize (H3 o' I'). unfold over in H3. rewrite Eo' in H3. discriminate. }
    destruct (U CROSS M) as [K|[K _]]; [symmetry; exact K|]. destruct K as [K|[K|[]]]; [|symmetry; exact K]. exfalso. subst rel.
    unfold open_finish in K. destruct (queue_rest q) as [[|]|], a as [ts gs nc nt no]; cbn in Z1, Z2; subst; destruct ts, gs, nt; cbn in K; discriminate.
Qed.

(** * Lists of segments *)
Lemma branch_two g t (b : bool) p z : branch (two_items g t) b p z <-> branch_at (if b then t else g) p z.
Proof.
  split.
  - intros (x & I & <- & Ox & N & E). destruct (two_in g t x I) as ([a c] & Ex & Ix). exists a, c. split; [exact Ix|]. rewrite Ex in Ox, E. split; [apply on_item_of in Ox; exact Ox|]. split; [exact N|].
    destruct (item_ends (it_ft x) (a, c)) as [(H1 & H2 & _)|(H1 & H2 & _)]; rewrite H1, H2 in E; cbn in E; tauto.
  - intros (a & c & I & Oz & N & E). exists (item_of b (a, c)). split; [apply in_app_iff; destruct b; [right|left]; apply in_map; exact I|]. rewrite item_of_ft. split; [reflexivity|].
    split; [apply on_item_of; exact Oz|]. split; [exact N|]. destruct (item_ends b (a, c)) as [(H1 & H2 & _)|(H1 & H2 & _)]; rewrite H1, H2; cbn; tauto.
Qed.
Lemma in_angle_iff p u w q : in_angle p u w q <-> angle_in p u w q = true.
Proof.
  assert (L : forall a b c, to_left a b c <-> 0 < cross a b c) by (intros; unfold to_left, cross; split; intros H; qlra).
  assert (R : forall a b c, to_right a b c <-> cross a b c < 0) by (intros; unfold to_right, cross; split; intros H; qlra).
  unfold in_angle, angle_in. rewrite !L, !R.
  destruct (qltb_spec 0 (cross p u w)) as [A|A], (qltb_spec (cross p u w) 0) as [B|B], (qltb_spec 0 (cross p u q)) as [C|C], (qltb_spec 0 (cross p q w)) as [D|D],
    (qltb_spec (cross p u q) 0) as [F|F], (qltb_spec (cross p q w) 0) as [G|G]; cbn; split; intros H; try reflexivity; try discriminate; try tauto; exfalso; try tauto; qlra.
Qed.
Lemma parted_iff g t : parted t g <-> exists p, sides (two_items g t) p.
Proof.
  split.
  - intros (p & u & w & q & r & B1 & B2 & N & B3 & B4 & W1 & W2). exists p, u, w, q, r. rewrite !branch_two. repeat (split; [assumption|]).
    rewrite in_angle_iff in W1, W2. congruence.
  - intros (p & u & w & q & r & B1 & B2 & N & B3 & B4 & D). rewrite branch_two in B1, B2, B3, B4. destruct (angle_in p u w q) eqn:E1.
    + exists p, u, w, q, r. rewrite !in_angle_iff. repeat (split; [assumption|]). congruence.
    + exists p, u, w, r, q. rewrite !in_angle_iff. repeat (split; [assumption|]). destruct (angle_in p u w r); [split; congruence|congruence].
Qed.
Lemma thin_iff g t : thin (two_items g t) <-> at_most_two t g.
Proof.
  split.
  - intros T p a b I O u v w. intros B1 B2 B3. apply (T p); [apply (two_sides g t p); exists (a, b); auto| | |]; apply branch_two; assumption.
  - intros T p u v w H B1 B2 B3. apply (two_sides g t p) in H. destruct H as ([a b] & I & O). rewrite branch_two in B1, B2, B3. exact (T p a b I O u v w B1 B2 B3).
Qed.
Lemma two_parted g t gb tb : tidy g -> tidy t -> g <> [] -> t <> [] -> tight gb (ends_set g) -> tight tb (ends_set t) -> at_most_two t g ->
  ((if disjoint_with gb tb then Ok DISJOINT
    else run_open (register (register q_empty g false) t true) (qmin (max_x gb) (max_x tb))) = Ok CROSS
   <-> ~ share_segment (ends_set t) (ends_set g) /\ parted t g).
Proof.
  intros Tg Tt Ng Nt Bg Bt TH. pose proof (tidy_segment t Tt Nt) as St. pose proof (tidy_segment g Tg Ng) as Sg.
  destruct (disjoint_with gb tb) eqn:D.
  - split; [discriminate|]. intros (_ & p & u & w & q & r & (a & b & I & O & _) & _ & _ & (a' & b' & I' & O' & _) & _). exfalso.
    apply (disjoint_with_iff _ _ _ _ Bg Bt) in D. apply axis_separated_sym, separated_not_meets in D. apply D. exists p. split; [exists (a', b'); auto|exists (a, b); auto].
  - destruct (two_ok g t Tg Tt) as [IO AP]. destruct (two_ends g t gb tb Ng Nt Bg Bt) as [b EB].
    unfold run_open. rewrite registered. fold (two_items g t). rewrite (open_sides (two_items g t) _ b IO AP EB).
    + rewrite parted_iff. rewrite (share_ext _ _ _ _ (fun p => proj2 (two_sides g t p)) (fun p => proj1 (two_sides g t p))). reflexivity.
    + destruct St as (u & v & N & H). exists u, v. split; [exact N|]. intros p Hp. apply (two_sides g t p), H, Hp.
    + destruct Sg as (u & v & N & H). exists u, v. split; [exact N|]. intros p Hp. apply (two_sides g t p), H, Hp.
    + apply thin_iff, TH.
Qed.
Lemma multisegments_parted_l m m' : valid_multisegment m -> valid_multisegment m' -> at_most_two (segment_list m) (segment_list m') ->
  (multisegment_in_multisegment m m' = Ok CROSS <-> ~ share_segment (in_multisegment m) (in_multisegment m') /\ parted (segment_list m) (segment_list m')).
Proof.
  intros V V' TH. destruct (ms_good m V) as [N T], (ms_good m' V') as [N' T'].
  destruct (segments_box_tight _ N) as (b & E & B). destruct (segments_box_tight _ N') as (b' & E' & B').
  unfold multisegment_in_multisegment, multisegment_relate_multisegment. rewrite E', E. cbn [bind].
  assert (Z : forall x, segments x <> [] -> to_segments_endpoints x <> []).
  { intros x K. unfold to_segments_endpoints. destruct (segments x); [congruence|discriminate]. }
  rewrite <- (share_ext _ _ _ _ (ms_ends m) (ms_ends m')).
  apply (two_parted (to_segments_endpoints m') (to_segments_endpoints m) b' b T' T (Z m' N') (Z m N)).
  - eapply tight_ext; [|exact B']. intros p. symmetry. destruct m'. apply ms_ends.
  - eapply tight_ext; [|exact B]. intros p. symmetry. destruct m. apply ms_ends.
  - exact TH.
Qed.

(** * The sides of a contour *)
Lemma enters_not_leaves c z t : enters c z t -> ~ leaves c z t.
Proof.
  intros (d & D0 & D1 & H) (d' & E0 & E1 & H').
  assert (Q : exists e, 0 < e /\ e <= d /\ e <= d') by (destruct (Qclt_le_dec d d'); [exists d|exists d']; repeat split; qlra).
  destruct Q as (e & F0 & F1 & F2). specialize (H e F0 F1). specialize (H' e F0 F2). apply inside_location in H. apply outside_location in H'. congruence.
Qed.
Lemma lerp_self z e : lerp z z e = z.
Proof. apply pt_eq; unfold lerp; cbn; ring. Qed.
Lemma enters_off c z t : on_contour c z -> enters c z t -> t <> z.
Proof. intros O (d & D0 & D1 & H) ->. specialize (H d D0 ltac:(qlra)). rewrite lerp_self in H. exact (proj1 H O). Qed.
Lemma leaves_off c z t : on_contour c z -> leaves c z t -> t <> z.
Proof. intros O (d & D0 & D1 & H) ->. specialize (H d D0 ltac:(qlra)). rewrite lerp_self in H. exact (proj1 H O). Qed.
Lemma free_either c z t : t <> z -> free_of c z t -> leaves c z t \/ enters c z t.
Proof.
  intros NT F. destruct (free_zone c z t NT F) as (d & D0 & D1 & NC).
  assert (SAME : forall e, 0 < e -> e <= d -> point_in_region (lerp z t e) c = point_in_region (lerp z t d) c).
  { intros e E0 E1. apply point_in_region_constant_l. intros x (l & L0 & L1 & ->).
    replace (lerp (lerp z t e) (lerp z t d) l) with (lerp z t (e + l * (d - e))) by (apply pt_eq; unfold lerp; cbn; ring).
    apply NC; [assert (0 <= l * (d - e)) by qnra; qlra|]. assert (l * (d - e) <= 1 * (d - e)) by qnra. qlra. }
  destruct (point_in_region (lerp z t d) c) eqn:E.
  - left. exists d. split; [exact D0|]. split; [qlra|]. intros e E0 E1. apply outside_location. exact (SAME e E0 E1).
  - exfalso. apply (NC d D0); [qlra|]. apply point_in_region_exact_l in E. exact E.
  - right. exists d. split; [exact D0|]. split; [qlra|]. intros e E0 E1. apply inside_location. exact (SAME e E0 E1).
Qed.
Lemma split_at a b p x : on_segment a b p -> on_segment a b x -> on_segment a p x \/ on_segment p b x.
Proof.
  intros (s & S0 & S1 & ->) (e & E0 & E1 & ->). destruct (Qclt_le_dec e s) as [H|H].
  - left. assert (DI : s * / s = 1) by (apply Qcmult_inv_r; intros Q; qlra). revert DI. generalize (/ s) as j. intros j DI. assert (0 < j) by qnra.
    exists (e * j). split; [qnra|]. split; [qnra|]. rewrite lerp_lerp0. replace (e * j * s) with (e * (s * j)) by ring. rewrite DI. f_equal. ring.
  - right. destruct (qeqb_spec s 1) as [Q|Q].
    + assert (Q' : e = 1) by qlra. rewrite Q, Q'. apply on_segment_start.
    + assert (DI : (1 - s) * / (1 - s) = 1) by (apply Qcmult_inv_r; intros Z; apply Q; qlra). revert DI. generalize (/ (1 - s)) as j. intros j DI. assert (0 < 1 - s) by (destruct (q_trichotomy s 1) as [K|[K|K]]; [qlra|contradiction|exfalso; qlra]). assert (0 < j) by qnra.
      exists ((e - s) * j). split; [qnra|]. split; [qnra|]. assert (Z : (e - s) * j * (1 - s) = e - s) by (transitivity ((e - s) * ((1 - s) * j)); [ring|rewrite DI; ring]). revert Z. generalize ((e - s) * j) as l. intros l Z.
      assert (Ee : e = s + l * (1 - s)) by (rewrite Z; ring). rewrite Ee. apply pt_eq; unfold lerp; cbn; ring.
Qed.
Lemma ray_of p a q : q <> p -> on_segment p a q -> same_way p a q.
Proof.
  intros N (e & E0 & E1 & ->). exists e. split; [|unfold lerp; cbn; split; ring].
  destruct (qeqb_spec e 0) as [Q|Q]; [exfalso; apply N; apply pt_eq; unfold lerp; cbn; rewrite Q; ring|destruct (q_trichotomy e 0) as [K|[K|K]]; [exfalso; qlra|contradiction|exact K]].
Qed.
Lemma pos_of (s : Qc) : 0 <= s -> s <> 0 -> 0 < s.
Proof. intros A B. destruct (q_trichotomy s 0) as [K|[K|K]]; [exfalso; qlra|contradiction|exact K]. Qed.
Definition two_sided (c : contour) (p u w : point) (f : bool) : Prop :=
  u <> w /\ u <> p /\ w <> p /\ ~ same_way p u w /\ (forall z, branch_at (cyc_pairs (vertices c)) p z <-> z = u \/ z = w)
  /\ forall q, q <> p -> ~ same_way p u q -> ~ same_way p w q -> (leaves c p q <-> angle_in p u w q = f) /\ (leaves c p q \/ enters c p q).
Section Point.
  Variables (c : contour) (p : point).
  Hypothesis SC : simple_contour c.
  Notation P := (cyc_pairs (vertices c)).
  Lemma sided_mid a b : In (a, b) P -> on_segment a b p -> p <> a -> p <> b -> exists f, two_sided c p a b f.
  Proof.
    intros I O NA NB. assert (NE : a <> b) by exact (simple_step c _ _ SC I). destruct (proj1 (contour_orientation_side_l c SC)) as [OB|OB].
    all: assert (D : ~ same_way p a b).
    1,3: intros (k & K & X & Y); destruct O as (s & S0 & S1 & ->); unfold lerp in X, Y; cbn in X, Y;
      assert (NS : 0 < s) by (destruct (qeqb_spec s 0) as [Q|Q]; [exfalso; apply NA; apply pt_eq; unfold lerp; cbn; rewrite Q; ring|exact (pos_of s S0 Q)]);
      assert (X' : (1 - s + k * s) * (px b - px a) = 0) by (transitivity ((px b - (px a + s * (px b - px a))) - k * (px a - (px a + s * (px b - px a)))); [ring|rewrite X; ring]);
      assert (Y' : (1 - s + k * s) * (py b - py a) = 0) by (transitivity ((py b - (py a + s * (py b - py a))) - k * (py a - (py a + s * (py b - py a)))); [ring|rewrite Y; ring]);
      assert (0 < k * s) by qnra; q_integral X'; [qlra|]; q_integral Y'; [qlra|]; apply NE; apply pt_eq; qlra.
    all: assert (Z : cross p a b = 0) by (replace (cross p a b) with (cross a b p) by (unfold cross; ring); exact (on_segment_cross _ _ _ O)).
    all: assert (BR : forall z, branch_at P p z <-> z = a \/ z = b).
    1,3: intros z; split; [intros (a' & b' & I' & O' & _ & E); assert (Q := only_mid c p SC a b a' b' I O NA NB I' O'); injection Q as -> ->; exact E|];
      intros E; exists a, b; repeat (split; [assumption|]); split; [destruct E as [-> | ->]; congruence|exact E].
    all: assert (SG : exists s, 0 < s /\ forall q, cross p a q = s * cross b a q).
    1,3: destruct O as (s & S0 & S1 & ->); exists s; split; [destruct (qeqb_spec s 0) as [Q|Q]; [exfalso; apply NA; apply pt_eq; unfold lerp; cbn; rewrite Q; ring|exact (pos_of s S0 Q)]|];
      intros q; unfold cross, lerp; cbn; ring.
    all: assert (FR : forall q, q <> p -> ~ same_way p a q -> ~ same_way p b q -> free_of c p q).
    1,3: intros q NQ WA WB a' b' I' O' x X1 X2; assert (Q := only_mid c p SC a b a' b' I O NA NB I' O'); injection Q as -> ->;
      assert (Q : on_segment p a x \/ on_segment p b x) by (destruct (split_at a b p x O X2) as [Q|Q]; [left; apply on_segment_sym, Q|right; exact Q]);
      destruct Q as [Q|Q]; [destruct (two_ways p a q) as [T|T]|destruct (two_ways p b q) as [T|T]]; try congruence; try (apply T; assumption); contradiction.
    all: destruct SG as (s & S0 & SG).
    - exists false. split; [exact NE|]. split; [congruence|]. split; [congruence|]. split; [exact D|]. split; [exact BR|]. intros q NQ WA WB.
      split; [|apply (free_either c p q NQ), FR; assumption]. rewrite <- (mid_leaves c p q SC NQ a b CW I O NA NB OB), or_is_cw.
      assert (OL := off_line p a b ltac:(congruence) ltac:(congruence) D q NQ WA WB Z). unfold angle_in. rewrite Z.
      destruct (qltb_spec 0 0) as [K|K]; [exfalso; qlra|]. rewrite (SG q) in *. destruct (ltb_scale s (cross b a q) S0) as [-> _].
      destruct (qltb_spec (cross b a q) 0) as [A|A], (qltb_spec 0 (cross b a q)) as [B|B]; split; intros Q; try reflexivity; try discriminate; exfalso; try qlra.
      apply OL. assert (E : cross b a q = 0) by qlra. rewrite E. ring.
    - exists true. split; [exact NE|]. split; [congruence|]. split; [congruence|]. split; [exact D|]. split; [exact BR|]. intros q NQ WA WB.
      split; [|apply (free_either c p q NQ), FR; assumption]. rewrite <- (mid_leaves c p q SC NQ a b CCW I O NA NB OB), or_is_ccw.
      unfold angle_in. rewrite Z. destruct (qltb_spec 0 0) as [K|K]; [exfalso; qlra|]. rewrite (SG q). destruct (ltb_scale s (cross b a q) S0) as [-> _]. reflexivity.
  Qed.
  Lemma edges_part u w : In (u, p) P -> In (p, w) P -> u <> w /\ ~ same_way p u w.
  Proof.
    intros IU IW. assert (NU := simple_step c _ _ SC IU). assert (NW := simple_step c _ _ SC IW). assert (NE : u <> w).
    { intros <-. assert (Q : exists m, on_segment u p m /\ m <> u /\ m <> p).
      { destruct (q_between 0 1 ltac:(reflexivity)) as (e & E0 & E1). exists (lerp u p e). split; [exists e; split; [qlra|]; split; [qlra|reflexivity]|].
        split; [apply (lerp_pos u p); [congruence|exact E0]|].
        replace (lerp u p e) with (lerp p u (1 - e)) by (apply pt_eq; unfold lerp; cbn; ring). apply (lerp_pos p u); [congruence|qlra]. }
      destruct Q as (m & Om & M1 & M2). destruct (simple_pairs c (u, p) (p, u) m SC IU IW) as [[_ Q]|[_ Q]]; cbn [fst snd] in *; try congruence. apply on_segment_sym, Om. }
    split; [exact NE|]. intros W. destruct (same_way_point p u w NU W) as (d & ND & D1 & D2).
    destruct (simple_pairs c (u, p) (p, w) d SC IU IW) as [[_ Q]|[Q _]]; cbn [fst snd] in *; try congruence. apply on_segment_sym, D1.
  Qed.
  Lemma sided_corner u w : In (u, p) P -> In (p, w) P -> contour_orientation c = Ok CCW -> exists f, two_sided c p u w f.
  Proof.
    intros IU IW OB. assert (NU := simple_step c _ _ SC IU). assert (NW := simple_step c _ _ SC IW). destruct (edges_part u w IU IW) as [NE D].
    exists (negb (qltb (cross p u w) 0)). split; [exact NE|]. split; [exact NU|]. split; [congruence|]. split; [exact D|]. split.
    { intros z. split.
      - intros (a & b & I & O & N & E). destruct (crn_edges c SC u p w IU IW (a, b) I O) as [Q|Q]; injection Q as -> ->; destruct E as [-> | ->]; auto; congruence.
      - intros [-> | ->]; [exists u, p; split; [exact IU|]; split; [apply on_segment_end|]|exists p, w; split; [exact IW|]; split; [apply on_segment_start|]]; split; auto; congruence. }
    intros q NQ WU WW. split.
    - rewrite <- (corner_leaves c p q SC NQ u w IU IW OB). unfold corner_test. rewrite or_is_both, !or_is_ccw.
      replace (cross u p w) with (- cross p u w) by (unfold cross; ring). replace (cross w p q) with (cross p q w) by (unfold cross; ring). unfold angle_in.
      assert (OU : cross p u q = 0 -> exists k, k < 0 /\ cross p q w = k * cross p u w).
      { intros Z. destruct (opposite p u q NU NQ Z WU) as (k & K & X & Y). exists k. split; [exact K|]. exact (proj1 (cross_times p u q w k X Y)). }
      assert (OW : cross p q w = 0 -> exists k, k < 0 /\ cross p u q = k * cross p u w).
      { intros Z. destruct (opposite p w q) as (k & K & X & Y); [congruence|exact NQ|rewrite cross_anti, Z; ring|exact WW|]. exists k. split; [exact K|]. exact (proj2 (cross_times p w q u k X Y)). }
      destruct (q_trichotomy (cross p u w) 0) as [H|[H|H]].
      + assert (A : qltb 0 (- cross p u w) = true) by (apply ltb_t; qlra). rewrite A, (ltb_f 0 (cross p u w)), (ltb_t _ _ H) by qlra. cbn [negb].
        destruct (qltb_spec 0 (cross p u q)) as [B1|B1], (qltb_spec 0 (cross p q w)) as [B2|B2], (qltb_spec (cross p u q) 0) as [B3|B3], (qltb_spec (cross p q w) 0) as [B4|B4]; cbn; split; intros Q; try reflexivity; try discriminate; exfalso; try qlra.
        all: try (destruct OW as (k & K & E); [qlra|]; assert (0 < k * cross p u w) by qnra; qlra).
        all: destruct OU as (k & K & E); [qlra|]; assert (0 < k * cross p u w) by qnra; qlra.
      + rewrite H. rewrite !(ltb_f 0 0) by qlra. rewrite (ltb_f 0 (- 0)) by qlra. cbn [negb].
        destruct (straight_times p u w NU ltac:(congruence) D H) as (j & J & SJ). rewrite (SJ q). destruct (ltb_scale (- j) (cross p u q)) as [-> _]; [qlra|].
        destruct (qltb 0 (cross p u q)); cbn; split; auto.
      + assert (A : qltb 0 (- cross p u w) = false) by (apply ltb_f; qlra). rewrite A, (ltb_t _ _ H), (ltb_f (cross p u w) 0) by qlra. cbn [negb]. reflexivity.
    - apply (free_either c p q NQ). intros a b I O x X1 X2. destruct (crn_edges c SC u p w IU IW (a, b) I O) as [Q|Q]; injection Q as -> ->.
      + destruct (two_ways p u q NU NQ) as [T|T]; [|contradiction]. apply T; [apply on_segment_sym, X2|exact X1].
      + destruct (two_ways p w q ltac:(congruence) NQ) as [T|T]; [|contradiction]. apply T; assumption.
  Qed.
  Lemma sided_ccw : contour_orientation c = Ok CCW -> on_contour c p -> exists u w f, two_sided c p u w f.
  Proof.
    intros OB (a & b & I & O).
    assert (G : In p (vertices c) -> exists u w f, two_sided c p u w f).
    { intros V. assert (V1 := V). rewrite <- (cyc_pairs_fst (vertices c)) in V1. assert (V2 := Permutation_in _ (Permutation_sym (cyc_pairs_snd (vertices c))) V).
      apply in_map_iff in V1. apply in_map_iff in V2. destruct V1 as ([x w] & E1 & I1), V2 as ([u y] & E2 & I2). cbn in E1, E2. subst x y.
      exists u, w. exact (sided_corner u w I2 I1 OB). }
    destruct (pt_dec p a) as [E|NA]; [apply G; rewrite E, <- (cyc_pairs_fst (vertices c)); apply in_map_iff; exists (a, b); auto|].
    destruct (pt_dec p b) as [E|NB]; [apply G; rewrite E; apply (Permutation_in _ (cyc_pairs_snd (vertices c))); apply in_map_iff; exists (a, b); auto|].
    exists a, b. exact (sided_mid a b I O NA NB).
  Qed.
End Point.
Lemma sided_any c p : simple_contour c -> on_contour c p -> exists u w f, two_sided c p u w f.
Proof.
  intros SC O. destruct (proj1 (contour_orientation_side_l c SC)) as [OB|OB]; [|exact (sided_ccw c p SC OB O)].
  destruct c as [l]. set (c := Ctr l) in *. set (c' := Ctr (rev l)).
  assert (RW : rewritten c c') by (right; exists (rev l), []; cbn; rewrite app_nil_r; auto).
  assert (SC' := rewritten_simple c c' RW SC). assert (OB' : contour_orientation c' = Ok CCW).
  { unfold c'. rewrite contour_orientation_reverse_l by apply SC. fold c. rewrite OB. reflexivity. }
  destruct (sided_ccw c' p SC' OB' (proj1 (rewritten_on c c' p RW) O)) as (u & w & f & N1 & N2 & N3 & N4 & B & L). exists u, w, f. repeat (split; [assumption|]).
  assert (Lv : forall q, leaves c p q <-> leaves c' p q).
  { intros q. split; intros (d & D0 & D1 & H); exists d; repeat (split; [assumption|]); intros e E0 E1; apply outside_location; specialize (H e E0 E1); apply outside_location in H; rewrite <- H;
      [symmetry|]; apply rewritten_location, RW. }
  assert (En : forall q, enters c p q <-> enters c' p q).
  { intros q. split; intros (d & D0 & D1 & H); exists d; repeat (split; [assumption|]); intros e E0 E1; apply inside_location; specialize (H e E0 E1); apply inside_location in H; rewrite <- H;
      [symmetry|]; apply rewritten_location, RW. }
  split.
  - intros z. rewrite <- B.
    assert (G : forall x y, rewritten x y -> branch_at (cyc_pairs (vertices x)) p z -> branch_at (cyc_pairs (vertices y)) p z).
    { intros x y R (a & b & I & Oz & N & E). destruct (rewritten_edges x y R a b I) as [J|J]; [exists a, b|exists b, a]; split; try exact J; split; try (exact Oz || apply on_segment_sym, Oz); tauto. }
    split; [apply (G c c' RW)|apply (G c' c (rewritten_sym c c' RW))].
  - intros q NQ WU WW. rewrite Lv, En. apply L; assumption.
Qed.

(** * Multisegments and contours *)
Lemma runs_branch l p q : runs_to l p q -> q <> p -> exists z, branch_at l p z /\ same_way p z q.
Proof.
  intros (a & b & I & O & O') N. destruct (split_at a b p q O O') as [Q|Q].
  - assert (NA : a <> p) by (intros ->; apply N; destruct Q as (e & _ & _ & ->); apply lerp_self).
    exists a. split; [exists a, b; auto|]. apply (ray_of p a q N). apply on_segment_sym, Q.
  - assert (NB : b <> p) by (intros ->; apply N; destruct Q as (e & _ & _ & ->); apply lerp_self).
    exists b. split; [exists a, b; auto|]. exact (ray_of p b q N Q).
Qed.
Lemma branch_runs l p z : branch_at l p z -> runs_to l p z.
Proof. intros (a & b & I & O & N & E). exists a, b. repeat (split; [assumption|]). destruct E as [-> | ->]; [apply on_segment_start|apply on_segment_end]. Qed.
Lemma branch_perm l l' p z : Permutation l l' -> branch_at l p z -> branch_at l' p z.
Proof. intros Pm (a & b & I & H). exists a, b. split; [exact (Permutation_in _ Pm I)|exact H]. Qed.
Lemma branch_apart l l' p z y : ~ share_segment (ends_set l) (ends_set l') -> branch_at l p z -> branch_at l' p y -> ~ same_way p z y.
Proof.
  intros NS (a & b & I & O & N & E) (a' & b' & I' & O' & N' & E') W. destruct (same_way_point p z y N W) as (d & ND & D1 & D2). apply NS. exists p, d. split; [congruence|]. intros x X. split.
  - exists (a, b). split; [exact I|]. cbn [fst snd]. assert (Oz : on_segment a b z) by (destruct E as [-> | ->]; [apply on_segment_start|apply on_segment_end]).
    exact (on_segment_convex a b p d x O (on_segment_convex a b p z d O Oz D1) X).
  - exists (a', b'). split; [exact I'|]. cbn [fst snd]. assert (Oz : on_segment a' b' y) by (destruct E' as [-> | ->]; [apply on_segment_start|apply on_segment_end]).
    exact (on_segment_convex a' b' p d x O' (on_segment_convex a' b' p y d O' Oz D2) X).
Qed.
Lemma contour_thin c l : simple_contour c -> at_most_two l (edges_endpoints c).
Proof.
  intros SC p a b I O u v w B1 B2 B3. assert (Pm := edges_endpoints_perm c). apply (branch_perm _ _ _ _ Pm) in B1, B2, B3.
  assert (OC : on_contour c p) by (destruct B1 as (a' & b' & I' & O' & _); exists a', b'; auto).
  destruct (sided_any c p SC OC) as (x & y & f & _ & _ & _ & _ & B & _). apply B in B1, B2, B3. destruct B1 as [-> | ->], B2 as [-> | ->], B3 as [-> | ->]; auto.
Qed.
Lemma passes_parted c l : simple_contour c -> ~ share_segment (ends_set l) (ends_set (edges_endpoints c)) -> (parted l (edges_endpoints c) <-> passes_over l c).
Proof.
  intros SC NS. assert (Pm := edges_endpoints_perm c). split.
  - intros (p & u & w & q & r & B1 & B2 & N & B3 & B4 & W1 & W2). rewrite in_angle_iff in W1, W2.
    assert (NQ : q <> p) by (destruct B3 as (? & ? & _ & _ & H & _); exact H). assert (NR : r <> p) by (destruct B4 as (? & ? & _ & _ & H & _); exact H).
    assert (WQ : forall z, branch_at (edges_endpoints c) p z -> ~ same_way p z q) by (intros z Bz W; exact (branch_apart _ _ _ _ _ NS B3 Bz (same_way_sym _ _ _ W))).
    assert (WR : forall z, branch_at (edges_endpoints c) p z -> ~ same_way p z r) by (intros z Bz W; exact (branch_apart _ _ _ _ _ NS B4 Bz (same_way_sym _ _ _ W))).
    assert (OC : on_contour c p) by (apply (branch_perm _ _ _ _ Pm) in B1; destruct B1 as (a' & b' & I' & O' & _); exists a', b'; auto).
    destruct (sided_any c p SC OC) as (x & y & f & N1 & N2 & N3 & D & B & L).
    assert (Bx : branch_at (edges_endpoints c) p x) by (apply (branch_perm _ _ _ _ (Permutation_sym Pm)), B; auto).
    assert (By : branch_at (edges_endpoints c) p y) by (apply (branch_perm _ _ _ _ (Permutation_sym Pm)), B; auto).
    assert (DF : angle_in p x y q <> angle_in p x y r).
    { assert (Bu := B1). assert (Bw := B2). apply (branch_perm _ _ _ _ Pm), B in Bu, Bw.
      destruct Bu as [-> | ->], Bw as [-> | ->]; try congruence.
      rewrite (angle_in_swap p x y N2 N3 D q NQ (WQ x Bx) (WQ y By)) in W1. rewrite (angle_in_swap p x y N2 N3 D r NR (WR x Bx) (WR y By)) in W2.
      intros E. rewrite E in W1. congruence. }
    destruct (L q NQ (WQ x Bx) (WQ y By)) as [Lq Eq]. destruct (L r NR (WR x Bx) (WR y By)) as [Lr Er]. apply branch_runs in B3, B4.
    destruct (bool_dec (angle_in p x y q) f) as [E|E].
    + exists p, r, q. split; [exact OC|]. split; [exact B4|]. split; [destruct Er as [Er|Er]; [apply Lr in Er; congruence|exact Er]|]. split; [exact B3|]. apply Lq, E.
    + exists p, q, r. split; [exact OC|]. split; [exact B3|]. split; [destruct Eq as [Eq|Eq]; [apply Lq in Eq; congruence|exact Eq]|]. split; [exact B4|]. apply Lr. destruct (angle_in p x y q), (angle_in p x y r), f; congruence.
  - intros (p & q & r & OC & H1 & En & H2 & Lv).
    assert (NQ := enters_off c p q OC En). assert (NR := leaves_off c p r OC Lv).
    destruct (runs_branch l p q H1 NQ) as (q' & Bq & Wq). destruct (runs_branch l p r H2 NR) as (r' & Br & Wr).
    destruct (sided_any c p SC OC) as (x & y & f & N1 & N2 & N3 & D & B & L).
    assert (Bx : branch_at (edges_endpoints c) p x) by (apply (branch_perm _ _ _ _ (Permutation_sym Pm)), B; auto).
    assert (By : branch_at (edges_endpoints c) p y) by (apply (branch_perm _ _ _ _ (Permutation_sym Pm)), B; auto).
    assert (WQ : forall z, branch_at (edges_endpoints c) p z -> ~ same_way p z q) by (intros z Bz W; exact (branch_apart _ _ _ _ _ NS Bq Bz (same_way_trans _ _ _ _ Wq (same_way_sym _ _ _ W)))).
    assert (WR : forall z, branch_at (edges_endpoints c) p z -> ~ same_way p z r) by (intros z Bz W; exact (branch_apart _ _ _ _ _ NS Br Bz (same_way_trans _ _ _ _ Wr (same_way_sym _ _ _ W)))).
    destruct (L q NQ (WQ x Bx) (WQ y By)) as [Lq _]. destruct (L r NR (WR x Bx) (WR y By)) as [Lr _]. apply Lr in Lv. assert (NL := enters_not_leaves c p q En).
    rewrite Lq in NL. rewrite (angle_in_ways p x y q' x y q (same_way_refl _ _) (same_way_refl _ _) Wq) in NL. rewrite (angle_in_ways p x y r' x y r (same_way_refl _ _) (same_way_refl _ _) Wr) in Lv.
    destruct f.
    + exists p, x, y, r', q'. rewrite !in_angle_iff. auto 10.
    + exists p, x, y, q', r'. rewrite !in_angle_iff. rewrite Lv. destruct (angle_in p x y q'); [|congruence]. repeat (split; [assumption || reflexivity|]). congruence.
Qed.
Lemma multisegment_contour_passes_l m c : valid_multisegment m -> simple_contour c ->
  (multisegment_in_contour m c = Ok CROSS <-> ~ share_segment (in_multisegment m) (on_contour c) /\ passes_over (segment_list m) c).
Proof.
  intros V C. destruct (ms_good m V) as [N T].
  destruct (segments_box_tight _ N) as (b & E & B). destruct (contour_box_tight _ (simple_nonempty c C)) as (b' & E' & B').
  unfold multisegment_in_contour, contour_relate_multisegment. rewrite E', E. cbn [bind].
  rewrite <- (share_ext _ _ _ _ (ms_ends m) (contour_ends c)).
  rewrite (two_parted (edges_endpoints c) (to_segments_endpoints m) b' b).
  - split; intros [H1 H2]; (split; [exact H1|]); apply (passes_parted c _ C H1), H2.
  - apply edges_tidy, C.
  - exact T.
  - apply edges_nonempty, C.
  - unfold to_segments_endpoints. destruct (segments m); [congruence|discriminate].
  - eapply tight_ext; [|exact B']. intros p. symmetry. apply contour_ends.
  - eapply tight_ext; [|exact B]. intros p. symmetry. destruct m. apply ms_ends.
  - apply contour_thin, C.
Qed.
Lemma sided_answer X Y (C : Prop) r : linear_answer X Y r -> (r = Ok CROSS <-> ~ share_segment X Y /\ C) -> answer_is (sided_spec X Y C) r.
Proof.
  intros (rel & E & S & U) I. rewrite E in *. exists rel. split; [reflexivity|]. split.
  - split; [exact S|]. split; [intros ->; apply I; reflexivity|]. intros -> K. destruct S as (_ & N & _). assert (Q : Ok TOUCH = Ok CROSS) by (apply I; auto). discriminate.
  - intros rel' (S' & C1 & C2). destruct (U rel' S') as [H|[H H']]; [exact H|].
    destruct H as [<-|[<-|[]]], H' as [<-|[<-|[]]]; try reflexivity; exfalso.
    + destruct S as (_ & N & _). assert (Q : Ok TOUCH = Ok CROSS) by (apply I; auto). discriminate.
    + destruct (proj1 I eq_refl) as [_ K]. exact (C2 eq_refl K).
Qed.
Lemma multisegment_in_contour_sided_l m c : valid_multisegment m -> simple_contour c ->
  answer_is (sided_spec (in_multisegment m) (on_contour c) (passes_over (segment_list m) c)) (multisegment_in_contour m c).
Proof. intros V C. apply sided_answer; [apply multisegment_in_contour_exact_l|apply multisegment_contour_passes_l]; assumption. Qed.
Lemma multisegment_in_multisegment_sided_l m m' : valid_multisegment m -> valid_multisegment m' -> at_most_two (segment_list m) (segment_list m') ->
  answer_is (sided_spec (in_multisegment m) (in_multisegment m') (parted (segment_list m) (segment_list m'))) (multisegment_in_multisegment m m').
Proof. intros V V' T. apply sided_answer; [apply multisegment_in_multisegment_exact_l|apply multisegments_parted_l]; assumption. Qed.
(* A multisegment that crosses the contour crosses the region. *)
Lemma contour_region_cross_l m c : valid_multisegment m -> simple_contour c -> multisegment_in_contour m c = Ok CROSS -> multisegment_in_region m c = Ok CROSS.
Proof.
  intros V C H. apply (multisegment_contour_passes_l m c V C) in H. destruct H as (NS & p & q & r & O & (a & b & I & A1 & A2) & (d & D0 & D1 & En) & (a' & b' & I' & A1' & A2') & (d' & D0' & D1' & Lv)).
  assert (ON : forall a b x y e, In (a, b) (segment_list m) -> on_segment a b x -> on_segment a b y -> 0 < e -> e <= 1 -> in_multisegment m (lerp x y e)).
  { clear. intros a b x y e I X Y E0 E1. apply in_map_iff in I. destruct I as (s & Q & I). injection Q as <- <-. exists s. split; [exact I|]. apply (on_segment_convex _ _ x y); [exact X|exact Y|].
    exists e. split; [qlra|]. split; [exact E1|reflexivity]. }
  assert (MI : meets (in_multisegment m) (inside c)) by (exists (lerp p q d); split; [exact (ON a b p q d I A1 A2 D0 D1)|apply En; [exact D0|qlra]]).
  assert (MO : meets (in_multisegment m) (outside c)) by (exists (lerp p r d'); split; [exact (ON a' b' p r d' I' A1' A2' D0' D1')|apply Lv; [exact D0'|qlra]]).
  destruct (multisegment_in_region_exact_l m c V C) as (rel & E & S & U).
  - intros (Sub & _). apply NS. destruct O as (x & y & J & _). exists x, y. split; [exact (simple_step c _ _ C J)|]. intros z Z. split; [apply Sub|]; exists x, y; auto.
  - rewrite E. f_equal. symmetry. apply U. split; assumption.
Qed.

(** * Exchanging the two *)
Lemma parting_half p u w q r : u <> p -> w <> p -> q <> p -> r <> p -> ~ same_way p u w -> ~ same_way p u q -> ~ same_way p w q -> ~ same_way p u r -> ~ same_way p w r ->
  angle_in p u w q = true -> angle_in p u w r = false -> angle_in p q r u <> angle_in p q r w.
Proof.
  intros NU NW NQ NR WUW WUQ WWQ WUR WWR H1 H2.
  assert (SG : forall y, y <> p -> ~ same_way p u y -> cross p u y = 0 -> exists k, k < 0 /\ cross p y w = k * cross p u w).
  { intros y NY WY Z. destruct (opposite p u y NU NY Z WY) as (k & K & X & Y). exists k. split; [exact K|]. exact (proj1 (cross_times p u y w k X Y)). }
  assert (SH : forall y, y <> p -> ~ same_way p w y -> cross p y w = 0 -> exists k, k < 0 /\ cross p u y = k * cross p u w).
  { intros y NY WY Z. destruct (opposite p w y NW NY) as (k & K & X & Y); [rewrite cross_anti, Z; ring|exact WY|]. exists k. split; [exact K|]. exact (proj2 (cross_times p w y u k X Y)). }
  assert (PL : cross p u w * cross p q r = cross p q w * cross p u r - cross p u q * cross p r w) by (unfold cross; ring).
  unfold angle_in in H1, H2 |- *. rewrite (cross_anti p u q), (cross_anti p r w).
  assert (SU := SG r NR WUR). assert (SW := SH r NR WWR). assert (SQ := SG q NQ WUQ). clear SG SH.
  destruct (q_trichotomy (cross p u w) 0) as [H|[H|H]].
  - rewrite (ltb_f 0 (cross p u w)), (ltb_t _ _ H) in H1, H2 by qlra. revert H1 H2 PL SU SW SQ H.
    generalize (cross p u w) as a, (cross p q r) as e, (cross p q w) as A, (cross p u q) as B, (cross p r w) as C, (cross p u r) as D. intros a e A B C D H1 H2 PL SU SW SQ H.
    destruct (qltb_spec B 0) as [B1|B1]; [|discriminate]. destruct (qltb_spec A 0) as [A1|A1]; [|discriminate].
    assert (Q : 0 < D \/ 0 < C).
    { destruct (q_trichotomy D 0) as [K|[K|K]]; [|destruct (SU K) as (k & K1 & K2); right; rewrite K2; qnra|left; exact K].
      destruct (q_trichotomy C 0) as [L|[L|L]]; [|destruct (SW L) as (k & K1 & K2); left; rewrite K2; qnra|right; exact L]. rewrite (ltb_t D 0), (ltb_t C 0) in H2 by assumption. discriminate. }
    clear SU SW SQ H2.
    destruct (qltb_spec 0 e) as [E|E]; [|destruct (qltb_spec e 0) as [E'|E']].
    + assert (Z : A * D - B * C < 0) by (rewrite <- PL; qnra). rewrite (ltb_t 0 (- B)), (ltb_f 0 A) by qlra. cbn. rewrite (ltb_t 0 D); [discriminate|].
      destruct (Qclt_le_dec 0 D) as [K|K]; [exact K|exfalso]. destruct Q as [Q|Q]; [qlra|]. assert (0 <= A * D) by qnra. assert (B * C < 0) by qnra. qlra.
    + assert (Z : 0 < A * D - B * C) by (rewrite <- PL; qnra). rewrite (ltb_f (- B) 0) by qlra. cbn. rewrite (ltb_t (- C) 0); [discriminate|].
      destruct (Qclt_le_dec 0 C) as [K|K]; [qlra|exfalso]. destruct Q as [Q|Q]; [|qlra]. assert (A * D < 0) by qnra. assert (0 <= B * C) by qnra. qlra.
    + rewrite (ltb_t 0 (- B)), (ltb_f 0 A) by qlra. discriminate.
  - rewrite H in H1, H2. rewrite !(ltb_f 0 0) in H1, H2 by qlra. destruct (straight_times p u w NU NW WUW H) as (j & J & SJ). rewrite (SJ q), (SJ r). clear PL SU SW SQ SJ.
    assert (OL := off_line p u w NU NW WUW r NR WUR WWR H). revert H1 H2 OL. generalize (cross p q r) as e, (cross p u q) as B, (cross p u r) as D. intros e B D H1 H2 OL.
    destruct (qltb_spec 0 B) as [B1|B1]; [|discriminate]. destruct (qltb_spec 0 D) as [D1|D1]; [discriminate|]. assert (D2 : D < 0) by (destruct (q_trichotomy D 0) as [K|[K|K]]; [exact K|contradiction|exfalso; qlra]).
    assert (P1 : 0 < - j * B) by qnra. assert (P2 : - j * D < 0) by qnra.
    destruct (qltb_spec 0 e) as [E|E]; [|destruct (qltb_spec e 0) as [E'|E']].
    + rewrite (ltb_f 0 (- B)), (ltb_t 0 (- j * B)), (ltb_t 0 (- (- j * D))) by qlra. discriminate.
    + rewrite (ltb_t (- B) 0), (ltb_t D 0), (ltb_f (- j * B) 0) by qlra. discriminate.
    + rewrite (ltb_f 0 (- B)), (ltb_t 0 (- j * B)) by qlra. discriminate.
  - rewrite (ltb_t 0 (cross p u w)) in H1, H2 by qlra. revert H1 H2 PL SU SW SQ H.
    generalize (cross p u w) as a, (cross p q r) as e, (cross p q w) as A, (cross p u q) as B, (cross p r w) as C, (cross p u r) as D. intros a e A B C D H1 H2 PL SU SW SQ H.
    destruct (qltb_spec 0 B) as [B1|B1]; [|discriminate]. destruct (qltb_spec 0 A) as [A1|A1]; [|discriminate].
    assert (Q : D < 0 \/ C < 0).
    { destruct (q_trichotomy D 0) as [K|[K|K]]; [left; exact K|destruct (SU K) as (k & K1 & K2); right; rewrite K2; qnra|].
      destruct (q_trichotomy C 0) as [L|[L|L]]; [right; exact L|destruct (SW L) as (k & K1 & K2); left; rewrite K2; qnra|]. rewrite (ltb_t 0 D), (ltb_t 0 C) in H2 by assumption. discriminate. }
    clear SU SW SQ H2.
    destruct (qltb_spec 0 e) as [E|E]; [|destruct (qltb_spec e 0) as [E'|E']].
    + assert (Z : 0 < A * D - B * C) by (rewrite <- PL; qnra). rewrite (ltb_f 0 (- B)) by qlra. cbn. rewrite (ltb_t 0 (- C)); [discriminate|].
      destruct (Qclt_le_dec C 0) as [K|K]; [qlra|exfalso]. destruct Q as [Q|Q]; [|qlra]. assert (A * D < 0) by qnra. assert (0 <= B * C) by qnra. qlra.
    + assert (Z : A * D - B * C < 0) by (rewrite <- PL; qnra). rewrite (ltb_t (- B) 0), (ltb_f A 0) by qlra. cbn. rewrite (ltb_t D 0); [discriminate|].
      destruct (Qclt_le_dec D 0) as [K|K]; [exact K|exfalso]. destruct Q as [Q|Q]; [qlra|]. assert (0 <= A * D) by qnra. assert (B * C < 0) by qnra. qlra.
    + rewrite (ltb_f 0 (- B)) by qlra. discriminate.
Qed.
Lemma branch_same l p z y : tidy l -> branch_at l p z -> branch_at l p y -> z <> y -> ~ same_way p z y.
Proof.
  intros T B B' N. assert (T0 : tidy []) by (split; [intros a b []|constructor]). destruct (two_ok l [] T T0) as [IO AP]. apply (branch_two l [] false) in B, B'. exact (same_side _ IO AP false p z y B B' N).
Qed.
Lemma parted_sym l l' : tidy l -> tidy l' -> ~ share_segment (ends_set l) (ends_set l') -> parted l l' -> parted l' l.
Proof.
  intros T T' NS (p & u & w & q & r & B1 & B2 & N & B3 & B4 & W1 & W2). rewrite in_angle_iff in W1, W2. apply not_true_is_false in W2.
  assert (NE : forall l z, branch_at l p z -> z <> p) by (intros k z (? & ? & _ & _ & H & _); exact H).
  assert (NW : forall z y, branch_at l p z -> branch_at l' p y -> ~ same_way p y z) by (intros z y Bz By W; exact (branch_apart _ _ _ _ _ NS Bz By (same_way_sym _ _ _ W))).
  assert (D := branch_same l' p u w T' B1 B2 N).
  assert (H := parting_half p u w q r (NE _ _ B1) (NE _ _ B2) (NE _ _ B3) (NE _ _ B4) D (NW q u B3 B1) (NW q w B3 B2) (NW r u B4 B1) (NW r w B4 B2) W1 W2).
  assert (NQ : q <> r) by congruence. destruct (angle_in p q r u) eqn:E.
  - exists p, q, r, u, w. rewrite !in_angle_iff. repeat (split; [assumption|]). congruence.
  - exists p, q, r, w, u. rewrite !in_angle_iff. repeat (split; [assumption|]). split; [destruct (angle_in p q r w); congruence|congruence].
Qed.
Lemma multisegment_swap_sided_l m m' : valid_multisegment m -> valid_multisegment m' ->
  at_most_two (segment_list m) (segment_list m') -> at_most_two (segment_list m') (segment_list m) ->
  exists rel, multisegment_in_multisegment m m' = Ok rel /\ multisegment_in_multisegment m' m = Ok (complement rel).
Proof.
  intros V V' A A'. destruct (multisegment_swap_l m m' V V') as (rel & rel' & E & E' & H). exists rel. split; [exact E|]. rewrite E'. f_equal. destruct H as [H|[H H']]; [exact H|].
  assert (I := multisegments_parted_l m m' V V' A). assert (I' := multisegments_parted_l m' m V' V A'). rewrite E in I. rewrite E' in I'.
  destruct (ms_good m V) as [_ T], (ms_good m' V') as [_ T'].
  assert (SY : forall x y : point -> Prop, share_segment x y -> share_segment y x) by (intros x y (a & b & N & K); exists a, b; split; [exact N|]; intros p Hp; destruct (K p Hp); auto).
  rewrite <- (share_ext _ _ _ _ (ms_ends m) (ms_ends m')) in I. rewrite <- (share_ext _ _ _ _ (ms_ends m') (ms_ends m)) in I'.
  destruct H as [<-|[<-|[]]], H' as [<-|[<-|[]]]; try reflexivity; exfalso.
  - destruct (proj1 I' eq_refl) as [N K]. assert (Q : Ok TOUCH = Ok CROSS); [|discriminate Q]. apply I. split; [intros Z; exact (N (SY _ _ Z))|]. exact (parted_sym _ _ T' T N K).
  - destruct (proj1 I eq_refl) as [N K]. assert (Q : Ok TOUCH = Ok CROSS); [|discriminate Q]. apply I'. split; [intros Z; exact (N (SY _ _ Z))|]. exact (parted_sym _ _ T T' N K).
Qed.
