(* The relation of a segment to a region. *)
From Coq Require Import QArith Qcanon Lqa List Bool ZArith Lia.
From Verif Require Import Scalar Base Ground MLinear Planar Spec RayParity Geom PointProofs SegProofs BoxProofs SweepDetect Along SegMulti EqualProofs SegContour NoFail Orient SegEdges Vertical SegStraight SegCross RefuteProofs AreaAnswer Drawn AreaQueries LeftSide Corner RangeProofs.
Import ListNotations.
Open Scope Qc_scope.

(** * Contours with non-degenerate edges *)
Section Plain.
  Variables (s : segment) (c : contour).
  Hypothesis N : nondegenerate s.
  Hypothesis NE : edges_nondegenerate c.
  Notation X := (in_segment s).
  Notation Y := (on_contour c).
  Notation rel t := (segments_relation s t).
  Notation all := (contour_segments c).
  Lemma rinv_start : rinv s [] (RS true true None).
  Proof using Type.
    split; [intros e []|]. split; [split; [intros _ e []|reflexivity]|]. split; [split; [split; [discriminate|intros (e & [] & _)]|discriminate]|].
    intros [(e & [] & _)|(j & e & f & K & _)]. destruct j; discriminate.
  Qed.
  Lemma plain_cases r : relate_segment_to_contour c s = Ok r ->
    (r = COMPONENT -> exists e, In e all /\ (rel e = COMPONENT \/ rel e = EQUAL)) /\ (r = DISJOINT -> forall e, In e all -> rel e = DISJOINT).
  Proof using Type.
    unfold relate_segment_to_contour. intros H. assert (G := rs_loop_spec s all [] (RS true true None) rinv_start). cbn [length app] in G.
    destruct (rs_loop s 0 all (RS true true None)) as [r0|st].
    - injection H as ->. destruct G as [(-> & A)|(-> & _)]; (split; [|discriminate]); [intros _; exact A|discriminate].
    - destruct G as (NC & SH & (NT & _) & NF). destruct (negb (rs_no_touch st)) eqn:T; cbn [bind] in H.
      + destruct (crosses_at_last_vertex c s (rs_last st)) as [[]|]; cbn [bind] in H; try discriminate; injection H as <-.
        * split; discriminate.
        * apply negb_true_iff in T. rewrite T. destruct (rs_no_overlap st); split; discriminate.
      + injection H as <-. apply negb_false_iff in T. rewrite T. destruct (rs_no_overlap st) eqn:O; (split; [discriminate|]); [|discriminate].
        intros _ e E. destruct (proj1 SH eq_refl e E) as [R|[R|R]]; [exfalso|exfalso|exact R].
        * assert (K : rs_no_touch st = false) by (apply NT; exists e; auto). congruence.
        * apply NF. left. exists e. auto.
  Qed.
  Lemma segment_in_region_codes r : segment_in_region s c = Ok r ->
    exists rc, relate_segment_to_contour c s = Ok rc /\ (r = COMPONENT -> rc = COMPONENT) /\ (r = DISJOINT -> rc = DISJOINT) /\ (r = WITHIN -> rc = DISJOINT).
  Proof using Type.
    unfold segment_in_region, region_relate_segment. destruct (relate_segment_to_contour c s) as [rc|] eqn:RC; [|discriminate]. cbn [bind].
    assert (RG := relate_segment_to_contour_range s c). rewrite RC in RG. cbn in RG.
    intros H. exists rc. split; [reflexivity|].
    destruct (relation_eqb rc CROSS || relation_eqb rc COMPONENT) eqn:Q.
    - injection H as <-. destruct RG as [<-|[<-|[<-|[<-|[<-|[]]]]]]; try discriminate; repeat split; try reflexivity; try discriminate.
    - destruct (relation_eqb rc DISJOINT) eqn:QD.
      + assert (E : rc = DISJOINT) by (destruct rc; try discriminate; reflexivity). rewrite E.
        destruct (region_locate_point_ c (s_start s)) as [i l]. destruct (location_eqb l EXTERIOR); injection H as <-; repeat split; try reflexivity; try discriminate.
      + assert (Z : r = TOUCH \/ r = ENCLOSED).
        { destruct (region_locate_point_ c (s_start s)) as [i []]; [injection H as <-; auto| |injection H as <-; auto].
          destruct (region_locate_point_ c (s_end s)) as [j []]; [injection H as <-; auto| |injection H as <-; auto].
          destruct (contour_orientation c) as [bo|]; [|discriminate]. cbn [bind] in H. destruct i as [i|], j as [j|]; try discriminate.
          destruct (rs_start_outside (vertices c) bo i (s_start s) (s_end s)) as [[]|]; cbn [bind] in H; try discriminate; [injection H as <-; auto|].
          destruct (rs_end_outside (vertices c) bo j (s_start s) (s_end s)) as [[]|]; cbn [bind] in H; try discriminate; injection H as <-; auto. }
        destruct Z as [-> | ->]; repeat split; discriminate.
  Qed.
  Lemma plain_edge e : In e all -> nondegenerate e.
  Proof using NE. intros I. apply contour_segments_in in I. exact (NE _ _ I). Qed.
  Lemma apart_same p q : ~ meets X Y -> X p -> X q -> point_in_region p c = point_in_region q c.
  Proof using Type.
    intros M P Q. apply point_in_region_constant_l. intros x O K. apply M. exists x. split; [|exact K]. exact (on_segment_convex _ _ p q x P Q O).
  Qed.
  Lemma segment_in_region_plain_l :
    (segment_in_region s c = Ok DISJOINT <-> subset X (outside c))
    /\ (segment_in_region s c = Ok WITHIN <-> subset X (inside c))
    /\ (segment_in_region s c = Ok COMPONENT -> subset X Y).
  Proof using N NE.
    assert (M : forall r, segment_in_region s c = Ok r -> r = DISJOINT \/ r = WITHIN -> ~ meets X Y).
    { intros r H Q. destruct (segment_in_region_codes r H) as (rc & RC & _ & A & B). destruct (plain_cases rc RC) as [_ D].
      assert (E : rc = DISJOINT) by (destruct Q as [Q|Q]; auto). specialize (D E). intros (p & P1 & P2). apply on_contour_segments in P2. destruct P2 as (e & I & P2).
      assert (Sp := rel_sound s N e (plain_edge e I)). rewrite (D e I) in Sp. apply Sp. exists p. auto. }
    assert (XS : X (s_start s)) by apply on_segment_start.
    assert (NM : forall Z : point -> Prop, (forall p, Z p -> ~ Y p) -> subset X Z -> ~ meets X Y) by (intros Z A B (p & P1 & P2); exact (A p (B p P1) P2)).
    split; [|split].
    - split; intros H.
      + assert (K := M _ H (or_introl eq_refl)). rewrite (segment_in_region_no_boundary s c N NE K) in H.
        intros p XP. apply outside_location. rewrite (apart_same p _ K XP XS). destruct (location_eqb_spec (point_in_region (s_start s) c) EXTERIOR) as [E|E]; [exact E|discriminate].
      + rewrite (segment_in_region_no_boundary s c N NE) by (apply (NM (outside c)); [intros p Q; apply Q|exact H]).
        assert (E := H _ XS). apply outside_location in E. rewrite E. reflexivity.
    - split; intros H.
      + assert (K := M _ H (or_intror eq_refl)). rewrite (segment_in_region_no_boundary s c N NE K) in H.
        intros p XP. apply inside_location. rewrite (apart_same p _ K XP XS).
        assert (B : point_in_region (s_start s) c <> BOUNDARY) by (rewrite point_in_region_boundary_l; intros Q; apply K; exists (s_start s); auto).
        destruct (point_in_region (s_start s) c); [discriminate|exfalso; apply B; reflexivity|reflexivity].
      + rewrite (segment_in_region_no_boundary s c N NE) by (apply (NM (inside c)); [intros p Q; apply Q|exact H]).
        assert (E := H _ XS). apply inside_location in E. rewrite E. reflexivity.
    - intros H. destruct (segment_in_region_codes _ H) as (rc & RC & A & _). destruct (plain_cases rc RC) as [C _]. destruct (C (A eq_refl)) as (e & I & R).
      assert (Sp := rel_sound s N e (plain_edge e I)). intros p XP. apply on_contour_segments. exists e. split; [exact I|].
      destruct R as [R|R]; rewrite R in Sp; [exact (proj1 Sp p XP)|exact (proj1 (Sp p) XP)].
  Qed.
End Plain.

(** * Simple contours *)
Lemma py_nth_of {A} (l : list A) i x : nth_error l i = Some x -> py_nth l (Z.of_nat i) = Ok x.
Proof.
  intros H. assert (L : (i < length l)%nat) by (apply nth_error_Some; congruence). unfold py_nth.
  destruct (Z.ltb_spec (Z.of_nat i) 0); [lia|]. destruct (Z.ltb_spec (Z.of_nat i) 0); [lia|]. destruct (Z.leb_spec (Z.of_nat (length l)) (Z.of_nat i)); [lia|]. cbn [orb].
  rewrite Nat2Z.id, H. reflexivity.
Qed.
Lemma locate_first p es : forall k r i, region_locate_loop p k es r = (i, BOUNDARY) ->
  exists j e, i = Some (k + j)%nat /\ nth_error es j = Some e /\ in_segment e p /\ forall h f, (h < j)%nat -> nth_error es h = Some f -> ~ in_segment f p.
Proof.
  induction es as [|e es IH]; intros k r i; cbn [region_locate_loop].
  - intros H. injection H as _ H. destruct r; discriminate.
  - assert (Z := segment_contains_point_spec e p).
    destruct (location_eqb (segment_locate_point e p) BOUNDARY) eqn:E.
    + intros H. injection H as <-. exists 0%nat, e. split; [f_equal; lia|]. split; [reflexivity|]. split; [|intros h f K; lia].
      unfold segment_locate_point in E. destruct (segment_contains_point e p); [inversion Z; assumption|discriminate].
    + cbv zeta. intros H. apply IH in H. destruct H as (j & f & -> & F & O & U). exists (S j), f. split; [f_equal; lia|]. split; [exact F|]. split; [exact O|].
      intros [|h] g K G; [|apply (U h g); [lia|exact G]]. cbn in G. injection G as <-.
      unfold segment_locate_point in E. destruct (segment_contains_point e p); [discriminate|inversion Z; assumption].
Qed.
Section Indices.
  Variable c : contour.
  Hypothesis SC : simple_contour c.
  Notation vs := (vertices c).
  Notation all := (contour_segments c).
  Notation P := (cyc_pairs (vertices c)).
  Lemma in_all a b : In (a, b) P <-> In (Seg a b) all.
  Proof using Type. split; intros H; [|apply (contour_segments_in c (Seg a b)), H]. apply contour_segments_in. exact H. Qed.
  Lemma edge_ends j e : nth_error all j = Some e -> py_nth vs (Z.of_nat j - 1) = Ok (s_start e) /\ py_nth vs (Z.of_nat j) = Ok (s_end e).
  Proof using SC.
    intros E. assert (E' := E). apply nth_segments in E'. split; [|apply py_nth_of, E'].
    destruct (ends_of c SC) as (e0 & f0 & A & B). destruct j as [|j].
    - destruct (wrapped c e0 f0 A B) as (_ & H & _). rewrite B in E. injection E as ->. exact H.
    - replace (Z.of_nat (S j) - 1)%Z with (Z.of_nat j) by lia. destruct (nth_error all j) as [f|] eqn:F.
      + rewrite <- (consecutive c j f e F E). apply nth_segments in F. apply py_nth_of, F.
      + exfalso. apply nth_error_None in F. assert (S j < length all)%nat by (apply nth_error_Some; congruence). lia.
  Qed.
  Lemma next_of j e : nth_error all j = Some e -> exists w, py_nth vs ((Z.of_nat j + 1) mod Z.of_nat (length vs)) = Ok w /\ In (s_end e, w) P.
  Proof using SC.
    intros E. assert (L := length_all c). assert (J : (j < length all)%nat) by (apply nth_error_Some; congruence).
    destruct (ends_of c SC) as (e0 & f0 & A & B).
    destruct (Nat.eq_dec (S j) (length vs)) as [Q|Q].
    - replace ((Z.of_nat j + 1) mod Z.of_nat (length vs))%Z with 0%Z by (replace (Z.of_nat j + 1)%Z with (Z.of_nat (length vs)) by lia; rewrite Z_mod_same_full; reflexivity).
      destruct (wrapped c e0 f0 A B) as (H & _ & K & _). exists (s_end f0). split; [exact K|].
      replace (length vs - 1)%nat with j in A by lia. rewrite A in E. injection E as ->. rewrite H. apply (contour_segments_in c f0), (nth_error_In _ _ B).
    - replace ((Z.of_nat j + 1) mod Z.of_nat (length vs))%Z with (Z.of_nat (S j)) by (rewrite Z.mod_small; lia).
      destruct (nth_error all (S j)) as [f|] eqn:F; [|exfalso; apply nth_error_None in F; lia].
      exists (s_end f). split; [apply py_nth_of; apply nth_segments in F; apply F|]. rewrite (consecutive c j e f E F). apply (contour_segments_in c f), (nth_error_In _ _ F).
  Qed.
  Lemma prev_of e : nth_error all 0 = Some e -> exists u, py_nth vs (-2) = Ok u /\ In (u, s_start e) P.
  Proof using SC.
    intros E. destruct (ends_of c SC) as (e0 & f0 & A & B). rewrite B in E. injection E as ->.
    destruct (wrapped c e0 e A B) as (H & _ & _ & K). exists (s_start e0). split; [apply K; destruct SC; lia|]. rewrite <- H. apply (contour_segments_in c e0), (nth_error_In _ _ A).
  Qed.
  (* Where a point of the contour is found. *)
  Lemma located p i : region_locate_point_ c p = (i, BOUNDARY) ->
    exists j e, i = Some j /\ nth_error all j = Some e /\ in_segment e p /\ (p = s_start e -> j = 0%nat).
  Proof using SC.
    unfold region_locate_point_. intros H. apply locate_first in H. destruct H as (j & e & -> & E & O & U). exists j, e. split; [reflexivity|]. split; [exact E|]. split; [exact O|].
    intros ->. destruct j as [|j]; [reflexivity|]. exfalso. destruct (nth_error all j) as [f|] eqn:F.
    - apply (U j f); [lia|exact F|]. rewrite <- (consecutive c j f e F E). apply on_segment_end.
    - apply nth_error_None in F. assert (S j < length all)%nat by (apply nth_error_Some; congruence). lia.
  Qed.
End Indices.

(** * Setting off from a point of the contour *)
Lemma or_is_ccw a b d : or_is (angle_orientation a b d) CCW = qltb 0 (cross a b d).
Proof.
  unfold or_is. assert (A := angle_orientation_ccw a b d). destruct (qltb_spec 0 (cross a b d)) as [H|H].
  - apply A in H. rewrite H. reflexivity.
  - destruct (angle_orientation a b d); try reflexivity. exfalso. apply H, A. reflexivity.
Qed.
Lemma or_is_cw a b d : or_is (angle_orientation a b d) CW = qltb (cross a b d) 0.
Proof.
  unfold or_is. assert (A := angle_orientation_cw a b d). destruct (qltb_spec (cross a b d) 0) as [H|H].
  - apply A in H. rewrite H. reflexivity.
  - destruct (angle_orientation a b d); try reflexivity. exfalso. apply H, A. reflexivity.
Qed.
Lemma or_is_both x y : or_is x y && or_is y CCW = or_is x CCW && or_is y CCW.
Proof. destruct x, y; reflexivity. Qed.
Section Off.
  Variables (c : contour) (z t : point).
  Hypothesis SC : simple_contour c.
  Hypothesis NT : t <> z.
  Notation vs := (vertices c).
  Notation all := (contour_segments c).
  Notation P := (cyc_pairs (vertices c)).
  Hypothesis FREE : forall a b, In (a, b) P -> on_segment a b z -> forall x, on_segment z t x -> on_segment a b x -> x = z.
  Lemma mid_cross a b : In (a, b) P -> on_segment a b z -> z <> a -> z <> b -> cross a b t <> 0.
  Proof using SC NT FREE.
    intros I O NA NB Z. assert (F := FREE a b I O). assert (NE := simple_step c _ _ SC I). assert (O' := O). destruct O' as (r & R0 & R1 & EZ).
    assert (CZ := on_segment_cross _ _ _ O).
    assert (PA : parting z a t) by (intros x X1 X2; apply F; [exact X2|exact (on_segment_convex a b z a x O (on_segment_start _ _) X1)]).
    assert (PB : parting z b t) by (intros x X1 X2; apply F; [exact X2|exact (on_segment_convex a b z b x O (on_segment_end _ _) X1)]).
    assert (CA : cross z a t = 0) by (transitivity (- (r * cross a b t)); [rewrite EZ; unfold cross, lerp; cbn; ring|rewrite Z; ring]).
    assert (CB : cross z b t = 0) by (transitivity ((1 - r) * cross a b t); [rewrite EZ; unfold cross, lerp; cbn; ring|rewrite Z; ring]).
    destruct (opposite_ways z a t) as (k & K & KX & KY); [congruence|exact NT|exact PA|exact CA|].
    destruct (opposite_ways z b t) as (j & J & JX & JY); [congruence|exact NT|exact PB|exact CB|].
    assert (XZ := f_equal px EZ). assert (YZ := f_equal py EZ). unfold lerp in XZ, YZ; cbn in XZ, YZ.
    assert (RR : 0 < r /\ r < 1).
    { split; [destruct (q_trichotomy 0 r) as [H|[H|H]]; [exact H| |qlra]; exfalso; apply NA; apply pt_eq; [rewrite XZ|rewrite YZ]; rewrite <- H; ring
             |destruct (q_trichotomy r 1) as [H|[H|H]]; [exact H| |qlra]; exfalso; apply NB; apply pt_eq; [rewrite XZ|rewrite YZ]; rewrite H; ring]. }
    destruct RR as [RA RB].
    apply NE. apply pt_eq.
    - assert (Q : (k * r + j * (1 - r)) * (px b - px a) = 0).
      { transitivity (j * (px b - px z) - k * (px a - px z)); [rewrite XZ; ring|]. rewrite <- KX, <- JX. ring. }
      q_integral Q; [exfalso; assert (k * r < 0) by qnra; assert (j * (1 - r) < 0) by qnra; qlra|qlra].
    - assert (Q : (k * r + j * (1 - r)) * (py b - py a) = 0).
      { transitivity (j * (py b - py z) - k * (py a - py z)); [rewrite YZ; ring|]. rewrite <- KY, <- JY. ring. }
      q_integral Q; [exfalso; assert (k * r < 0) by qnra; assert (j * (1 - r) < 0) by qnra; qlra|qlra].
  Qed.
  (* The answer of a test: towards [t] one first comes outside. *)
  Definition comes_out (b : bool) : Prop := exists d, 0 < d /\ d < 1 /\ ~ on_contour c (lerp z t d) /\ (b = true <-> outside c (lerp z t d)).
  Lemma heads_out bo left : contour_orientation c = Ok bo -> heads c z t left -> comes_out (xorb (or_is bo CCW) left).
  Proof using SC.
    intros O (d & D0 & D1 & NC & H). exists d. split; [exact D0|]. split; [exact D1|]. split; [exact NC|].
    destruct (contour_orientation_side_l c SC) as [SO _]. rewrite O in SO, H. destruct (point_in_region_exact_l (lerp z t d) c) as (A & B & C).
    assert (IO : inside c (lerp z t d) \/ outside c (lerp z t d)) by (destruct (point_in_region (lerp z t d) c); [right; apply B|exfalso; apply NC, C|left; apply A]; reflexivity).
    assert (NIO : inside c (lerp z t d) -> outside c (lerp z t d) -> False) by (intros X Y; apply A in X; apply B in Y; congruence).
    destruct SO as [SO|SO]; injection SO as ->; destruct left; cbn; split; intros Q; try reflexivity; try discriminate.
    - destruct IO as [IO|IO]; [|exact IO]. apply H in IO. discriminate.
    - apply H in Q. discriminate.
    - exfalso. exact (NIO (proj1 H eq_refl) Q).
    - apply H. reflexivity.
  Qed.
  Lemma corner_out u w : In (u, z) P -> In (z, w) P -> contour_orientation c = Ok CCW ->
    comes_out (if or_is (angle_orientation u z w) CCW then or_is (angle_orientation z u t) CCW || or_is (angle_orientation w z t) CCW
               else or_is (angle_orientation z u t) (angle_orientation w z t) && or_is (angle_orientation w z t) CCW).
  Proof using SC NT FREE.
    intros IU IW O. rewrite or_is_both, !or_is_ccw.
    assert (FU : parting z u t) by (intros x X1 X2; apply (FREE u z IU (on_segment_end _ _) x X2), on_segment_sym, X1).
    assert (FW : parting z w t) by (intros x X1 X2; exact (FREE z w IW (on_segment_start _ _) x X2 X1)).
    assert (H := heads_out CCW _ O (heads_corner c SC u z w t IU IW NT FU FW)). cbn [or_is orientation_eqb xorb] in H.
    assert (T0 := crn_T0 c SC u z w t IU IW). assert (D0 := crn_D0 c SC u z w t IU IW NT FU FW). assert (E0 := crn_E0 c SC u z w t IU IW NT FU FW).
    replace (cross z u t) with (- cross u z t) by (unfold cross; ring). replace (cross w z t) with (- cross z w t) by (unfold cross; ring).
    match goal with |- comes_out ?x => match type of H with comes_out ?y => replace x with y; [exact H|] end end. clear H.
    revert T0 D0 E0. generalize (cross u z t) as x, (cross z w t) as y, (cross u z w) as k. intros x y k T0 D0 E0.
    destruct (qltb_spec 0 k) as [K|K], (qltb_spec 0 x) as [X|X], (qltb_spec 0 y) as [Y|Y], (qltb_spec 0 (- x)) as [X'|X'], (qltb_spec 0 (- y)) as [Y'|Y']; cbn; try reflexivity; exfalso; try qlra;
      first [assert (XZ : x = 0) by qlra; destruct (D0 XZ) as [[? ?]|[? ?]]; qlra|assert (YZ : y = 0) by qlra; destruct (E0 YZ) as [[? ?]|[? ?]]; qlra].
  Qed.
  Lemma mid_out a b bo : In (a, b) P -> on_segment a b z -> z <> a -> z <> b -> contour_orientation c = Ok bo -> comes_out (or_is (angle_orientation b a t) bo).
  Proof using SC NT FREE.
    intros I O NA NB OB. assert (C := mid_cross a b I O NA NB). assert (H := heads_out bo _ OB (heads_inside c SC a b z t I O NA NB C)).
    match goal with |- comes_out ?x => match type of H with comes_out ?y => replace x with y; [exact H|] end end. clear H.
    destruct (contour_orientation_side_l c SC) as [SO _]. rewrite OB in SO. destruct SO as [SO|SO]; injection SO as ->.
    - rewrite or_is_cw. cbn [or_is orientation_eqb xorb]. replace (cross b a t) with (- cross a b t) by (unfold cross; ring).
      destruct (qltb_spec 0 (cross a b t)), (qltb_spec (- cross a b t) 0); try reflexivity; exfalso; qlra.
    - rewrite or_is_ccw. cbn [or_is orientation_eqb xorb]. replace (cross b a t) with (- cross a b t) by (unfold cross; ring).
      destruct (qltb_spec 0 (cross a b t)), (qltb_spec 0 (- cross a b t)); try reflexivity; exfalso; try qlra. apply C. qlra.
  Qed.
  Section Tests.
    Variables (bo : orientation) (i : option nat).
    Hypothesis OB : contour_orientation c = Ok bo.
    Hypothesis LO : region_locate_point_ c z = (i, BOUNDARY).
    Hypothesis OK : bo = CCW \/ ~ In z vs.
    Lemma vertex_ccw e : In e all -> z = s_start e \/ z = s_end e -> bo = CCW.
    Proof using OK.
      intros E Q. destruct OK as [H|H]; [exact H|]. exfalso. apply H. apply contour_segments_in in E. apply cyc_pairs_in_vertices in E. destruct Q as [Q|Q]; rewrite Q; apply E.
    Qed.
    Lemma end_test : exists j b, i = Some j /\ rs_end_outside vs bo j t z = Ok b /\ comes_out b.
    Proof using SC NT FREE OB LO OK.
      destruct (located c SC z i LO) as (j & e & -> & E & O & ZS). exists j. unfold rs_end_outside.
      assert (IE := nth_error_In _ _ E). assert (IP := proj1 (contour_segments_in c e) IE).
      destruct (edge_ends c SC j e E) as [-> ->]. cbn [bind].
      destruct (pt_eqb_spec z (s_start e)) as [Q|Q]; [|destruct (pt_eqb_spec z (s_end e)) as [Q'|Q']].
      - specialize (ZS Q). rewrite ZS in *. destruct (prev_of c SC e E) as (u & HU & IU). assert (B := vertex_ccw e IE (or_introl Q)). rewrite B in *.
        cbn [or_is orientation_eqb]. replace (Z.of_nat 0 - 2)%Z with (-2)%Z by reflexivity. rewrite HU. cbn [bind]. rewrite <- Q in *.
        assert (H := corner_out u (s_end e) IU IP OB).
        destruct (or_is (angle_orientation u z (s_end e)) CCW); (eexists; split; [reflexivity|split; [reflexivity|exact H]]).
      - destruct (next_of c SC j e E) as (w & HW & IW). assert (B := vertex_ccw e IE (or_intror Q')). rewrite B in *.
        cbn [or_is orientation_eqb]. rewrite HW. cbn [bind]. rewrite <- Q' in *.
        assert (H := corner_out (s_start e) w IP IW OB).
        destruct (or_is (angle_orientation (s_start e) z w) CCW); (eexists; split; [reflexivity|split; [reflexivity|exact H]]).
      - eexists. split; [reflexivity|]. split; [reflexivity|]. exact (mid_out _ _ bo IP O Q Q' OB).
    Qed.
    Lemma start_test : exists j a, i = Some j /\ rs_start_outside vs bo j z t = Ok a /\ (a = true -> comes_out true).
    Proof using SC NT FREE OB LO OK.
      destruct (located c SC z i LO) as (j & e & -> & E & O & ZS). exists j. unfold rs_start_outside.
      assert (IE := nth_error_In _ _ E). assert (IP := proj1 (contour_segments_in c e) IE).
      destruct (edge_ends c SC j e E) as [-> ->]. cbn [bind].
      destruct (pt_eqb_spec z (s_start e)) as [Q|Q]; [|destruct (pt_eqb_spec z (s_end e)) as [Q'|Q']].
      - specialize (ZS Q). rewrite ZS in *. destruct (prev_of c SC e E) as (u & HU & IU). assert (B := vertex_ccw e IE (or_introl Q)). rewrite B in *.
        cbn [or_is orientation_eqb]. replace (Z.of_nat 0 - 2)%Z with (-2)%Z by reflexivity. rewrite HU. cbn [bind]. rewrite <- Q in *.
        assert (H := corner_out u (s_end e) IU IP OB).
        destruct (or_is (angle_orientation u z (s_end e)) CCW); (eexists; split; [reflexivity|split; [reflexivity|]]); intros K; rewrite K in H; exact H.
      - destruct (next_of c SC j e E) as (w & HW & IW). assert (B := vertex_ccw e IE (or_intror Q')). rewrite B in *.
        cbn [or_is orientation_eqb]. rewrite HW. cbn [bind]. rewrite <- Q' in *.
        assert (H := corner_out (s_start e) w IP IW OB). 
        destruct (or_is (angle_orientation (s_start e) z w) CCW); [|eexists; split; [reflexivity|split; [reflexivity|discriminate]]].
        destruct (or_is (angle_orientation z (s_start e) t) CCW || or_is (angle_orientation w z t) CCW) eqn:K;
          (eexists; split; [reflexivity|split; [reflexivity|]]); [intros _; exact H|].
        intros K'. exfalso. apply orb_false_iff in K. destruct K as [_ K]. rewrite K, andb_false_r in K'. discriminate.
      - eexists. split; [reflexivity|]. split; [reflexivity|]. intros K. assert (H := mid_out _ _ bo IP O Q Q' OB). rewrite K in H. exact H.
    Qed.
  End Tests.
End Off.

(** * The answers *)
Section Result.
  Variables (s : segment) (c : contour).
  Hypothesis N : nondegenerate s.
  Hypothesis SC : simple_contour c.
  Notation X := (in_segment s).
  Notation Y := (on_contour c).
  Notation rel t := (segments_relation s t).
  Notation all := (contour_segments c).
  Notation P := (cyc_pairs (vertices c)).
  Notation S := (linear_areal_spec (in_segment s) (region_area c)).
  Lemma both_sides p q : X p -> X q -> ~ Y p -> ~ Y q -> point_in_region p c <> point_in_region q c -> meets X (inside c) /\ meets X (outside c).
  Proof using Type.
    intros XP XQ NP NQ D. rewrite <- point_in_region_boundary_l in NP, NQ. destruct (point_in_region p c) eqn:A; [| congruence|]; destruct (point_in_region q c) eqn:B; try congruence.
    - split; [exists q|exists p]; (split; [assumption|]); [apply inside_location|apply outside_location]; assumption.
    - split; [exists p|exists q]; (split; [assumption|]); [apply inside_location|apply outside_location]; assumption.
  Qed.
  Lemma found_both : found s c -> meets X (inside c) /\ meets X (outside c).
  Proof using N SC. intros F. destruct (crossed_differ s c N SC F) as (p & q & XP & XQ & NP & NQ & D). exact (both_sides p q XP XQ NP NQ D). Qed.
  Lemma answer_put r : segment_in_region s c = Ok r -> S r -> answer_is S (segment_in_region s c).
  Proof using SC.
    intros E H. exists r. split; [exact E|]. split; [exact H|]. intros r' H'. apply (linear_areal_unique X (region_area c) r r'); [exists (s_start s); apply on_segment_start|apply region_apart, SC|exact H|exact H'].
  Qed.
  Lemma code_of rc : relate_segment_to_contour c s = Ok rc -> rc = CROSS \/ rc = COMPONENT -> segment_in_region s c = Ok rc.
  Proof using Type. intros E H. unfold segment_in_region, region_relate_segment. rewrite E. cbn [bind]. destruct H as [-> | ->]; reflexivity. Qed.
  Lemma segment_in_region_cross_l : segment_in_region s c = Ok CROSS -> meets X (inside c) /\ meets X (outside c).
  Proof using N SC.
    intros H. destruct (region_cases s c SC) as [(_ & A)|[(F & A)|(NF & _ & A)]].
    - rewrite (code_of _ A) in H by auto. discriminate.
    - exact (found_both F).
    - exfalso. assert (Q : exists rc, relate_segment_to_contour c s = Ok rc /\ (rc = OVERLAP \/ rc = TOUCH \/ rc = DISJOINT)).
      { destruct A as [(_ & A)|[(_ & _ & A)|(_ & _ & A)]]; eauto 6. }
      destruct Q as (rc & E & Q). revert H. unfold segment_in_region, region_relate_segment. rewrite E. cbn [bind].
      replace (relation_eqb rc CROSS || relation_eqb rc COMPONENT) with false by (destruct Q as [-> |[-> | ->]]; reflexivity).
      destruct (relation_eqb rc DISJOINT).
      + destruct (region_locate_point_ c (s_start s)) as [i l]. destruct (location_eqb l EXTERIOR); discriminate.
      + destruct (region_locate_point_ c (s_start s)) as [i []]; try discriminate. destruct (region_locate_point_ c (s_end s)) as [j []]; try discriminate.
        destruct (contour_orientation c) as [bo|]; [|discriminate]. cbn [bind]. destruct i as [i|], j as [j|]; try discriminate.
        destruct (rs_start_outside (vertices c) bo i (s_start s) (s_end s)) as [[]|]; cbn [bind]; try discriminate.
        destruct (rs_end_outside (vertices c) bo j (s_start s) (s_end s)) as [[]|]; cbn [bind]; discriminate.
  Qed.
  Section NoShare.
    Hypothesis NS : ~ share_segment X Y.
    Lemma ns_short e : In e all -> short s e.
    Proof using N SC NS.
      intros I. destruct (rel_cases s e) as [R|[R|[R|[R|R]]]]; [exfalso|exfalso|exfalso|exfalso|exact R]; apply NS.
      - apply (one_edge_share s c N). apply (one_edge s c N SC). exists e. auto.
      - apply (one_edge_share s c N). apply (one_edge s c N SC). exists e. auto.
      - apply (long_share s c N SC e I). auto.
      - apply (long_share s c N SC e I). auto.
    Qed.
    Lemma ns_once a b x y : In (a, b) P -> X x -> X y -> on_segment a b x -> on_segment a b y -> x = y.
    Proof using N SC NS.
      intros I XX XY A B. assert (J : In (Seg a b) all) by (apply in_all; exact I).
      exact (short_case s N (Seg a b) (edge_nd c SC _ J) (ns_short _ J) x y XX A XY B).
    Qed.
    Lemma ns_free z t : X z -> X t -> forall a b, In (a, b) P -> on_segment a b z -> forall x, on_segment z t x -> on_segment a b x -> x = z.
    Proof using N SC NS. intros XZ XT a b I O x X1 X2. apply (ns_once a b); try assumption. exact (on_segment_convex _ _ z t x XZ XT X1). Qed.
    Hypothesis NF : ~ found s c.
    Lemma nf_same p q : X p -> X q -> ~ Y p -> ~ Y q -> point_in_region p c = point_in_region q c.
    Proof using N SC NS NF.
      intros XP XQ NP NQ. destruct (pt_dec p q) as [->|D]; [reflexivity|]. exact (uncrossed_same s c N SC ns_short NF p q XP XQ D NP NQ).
    Qed.
    Lemma all_out p : X p -> outside c p -> meets X Y -> S TOUCH.
    Proof using N SC NS NF.
      intros XP O M. split; [|split; [exact M|exists p; auto]]. intros (q & XQ & I). assert (E := nf_same p q XP XQ (proj1 O) (proj1 I)).
      apply outside_location in O. apply inside_location in I. congruence.
    Qed.
    Lemma all_in p : X p -> inside c p -> meets X Y -> S ENCLOSED.
    Proof using N SC NS NF.
      intros XP I M. split; [|split; [exists p; auto|exact M]]. intros (q & XQ & O). assert (E := nf_same p q XP XQ (proj1 I) (proj1 O)).
      apply outside_location in O. apply inside_location in I. congruence.
    Qed.
  End NoShare.
  Lemma locate_pair p i l : region_locate_point_ c p = (i, l) -> point_in_region p c = l.
  Proof using Type. intros E. unfold point_in_region, region_locate_point. rewrite E. reflexivity. Qed.
  Lemma segment_in_region_l : ~ share_segment X Y ->
    contour_orientation c = Ok CCW \/ ~ Y (s_start s) \/ ~ Y (s_end s) \/ (~ In (s_start s) (vertices c) /\ ~ In (s_end s) (vertices c)) ->
    answer_is S (segment_in_region s c).
  Proof using N SC.
    intros NS OK. assert (SH := ns_short NS). assert (ND : edges_nondegenerate c) by apply simple_nondegenerate, SC.
    destruct (region_cases s c SC) as [((e & I & R) & _)|[(F & A)|(NF & _ & A)]].
    - exfalso. destruct (SH e I) as [Q|[Q|Q]], R as [R|R]; congruence.
    - apply (answer_put CROSS); [apply (code_of _ A); auto|exact (found_both F)].
    - destruct A as [(A & _)|[(_ & T & A)|(_ & T & A)]]; [contradiction| |].
      + assert (M : meets X Y) by exact (touch_meets s c N SC T).
        assert (XS : X (s_start s)) by apply on_segment_start. assert (XE : X (s_end s)) by apply on_segment_end.
        assert (G : forall r, segment_in_region s c = Ok r -> S r -> answer_is S (segment_in_region s c)) by exact answer_put.
        unfold segment_in_region, region_relate_segment in G |- *. rewrite A in G |- *. cbn [bind relation_eqb orb] in G |- *.
        destruct (region_locate_point_ c (s_start s)) as [i ls] eqn:LS. assert (PS := locate_pair _ _ _ LS). destruct ls.
        { apply (G TOUCH eq_refl). apply (all_out NS NF (s_start s) XS); [apply outside_location, PS|exact M]. }
        2:{ apply (G ENCLOSED eq_refl). apply (all_in NS NF (s_start s) XS); [apply inside_location, PS|exact M]. }
        destruct (region_locate_point_ c (s_end s)) as [j le] eqn:LE. assert (PE := locate_pair _ _ _ LE). destruct le.
        { apply (G TOUCH eq_refl). apply (all_out NS NF (s_end s) XE); [apply outside_location, PE|exact M]. }
        2:{ apply (G ENCLOSED eq_refl). apply (all_in NS NF (s_end s) XE); [apply inside_location, PE|exact M]. }
        apply point_in_region_boundary_l in PS, PE.
        destruct (simple_orientation c SC) as (a0 & v0 & d0 & OB & _). set (bo := angle_orientation a0 v0 d0) in *. clearbody bo.
        assert (OKS : bo = CCW \/ ~ In (s_start s) (vertices c)) by (destruct OK as [Q|[Q|[Q|[Q _]]]]; [left; congruence|contradiction|contradiction|right; exact Q]).
        assert (OKE : bo = CCW \/ ~ In (s_end s) (vertices c)) by (destruct OK as [Q|[Q|[Q|[_ Q]]]]; [left; congruence|contradiction|contradiction|right; exact Q]).
        assert (DN : s_end s <> s_start s) by (intros Q; apply N; symmetry; exact Q).
        destruct (start_test c (s_start s) (s_end s) SC DN (ns_free NS _ _ XS XE) bo i OB LS OKS) as (i' & a & Ei & Ea & Ha).
        destruct (end_test c (s_end s) (s_start s) SC N (ns_free NS _ _ XE XS) bo j OB LE OKE) as (j' & b & Ej & Eb & Hb).
        rewrite Ei, Ej, OB in G |- *. cbn [bind] in G |- *. rewrite Ea in G |- *. cbn [bind] in G |- *.
        assert (PT : forall z t d, X z -> X t -> 0 < d -> d < 1 -> X (lerp z t d)).
        { intros z t d Z1 Z2 D0 D1. apply (on_segment_convex _ _ z t _ Z1 Z2). exists d. split; [qlra|]. split; [qlra|reflexivity]. }
        destruct a.
        { apply (G TOUCH eq_refl). destruct (Ha eq_refl) as (d & D0 & D1 & _ & O). apply (all_out NS NF _ (PT _ _ d XS XE D0 D1)); [apply O; reflexivity|exact M]. }
        rewrite Eb in G |- *. cbn [bind] in G |- *. destruct Hb as (d & D0 & D1 & NC & O). destruct b.
        * apply (G TOUCH eq_refl). apply (all_out NS NF _ (PT _ _ d XE XS D0 D1)); [apply O; reflexivity|exact M].
        * apply (G ENCLOSED eq_refl). apply (all_in NS NF _ (PT _ _ d XE XS D0 D1)); [|exact M].
          apply inside_location. rewrite <- point_in_region_boundary_l in NC. rewrite outside_location in O.
          destruct (point_in_region _ c); [|exfalso; apply NC; reflexivity|reflexivity]. destruct O as [_ O]. specialize (O eq_refl). discriminate.
      + assert (NM := no_touch_meets s c N SC SH NF T). apply (answer_put (if location_eqb (point_in_region (s_start s) c) EXTERIOR then DISJOINT else WITHIN)).
        * apply segment_in_region_no_boundary; assumption.
        * assert (XS : X (s_start s)) by apply on_segment_start.
          assert (SM : forall p, X p -> point_in_region p c = point_in_region (s_start s) c) by (intros p XP; exact (apart_same s c p _ NM XP XS)).
          assert (B : point_in_region (s_start s) c <> BOUNDARY) by (rewrite point_in_region_boundary_l; intros Q; apply NM; exists (s_start s); auto).
          destruct (point_in_region (s_start s) c); cbn [location_eqb]; [intros p XP; apply outside_location, SM, XP|exfalso; apply B; reflexivity|intros p XP; apply inside_location, SM, XP].
  Qed.
  Lemma segment_in_region_exact_l : ~ share_segment X Y -> ends_settled s c -> answer_is S (segment_in_region s c).
  Proof using N SC.
    intros NS E. apply (segment_in_region_l NS). destruct E as [H|[H|[H|H]]]; [right; left; exact H|right; right; left; exact H|right; right; right; exact H|left; apply (interior_left_ccw c SC), H].
  Qed.
  Lemma answer_of r : answer_is S (segment_in_region s c) -> S r -> segment_in_region s c = Ok r.
  Proof using Type. intros (r' & -> & _ & U) H. f_equal. symmetry. apply U, H. Qed.
End Result.

Lemma rev_points s p : in_segment (Seg (s_end s) (s_start s)) p <-> in_segment s p.
Proof. split; apply on_segment_sym. Qed.
Lemma ends_settled_rev s c : ends_settled s c -> ends_settled (Seg (s_end s) (s_start s)) c.
Proof. unfold ends_settled. cbn [s_start s_end]. tauto. Qed.
Lemma share_rev s Y : share_segment (in_segment (Seg (s_end s) (s_start s))) Y -> share_segment (in_segment s) Y.
Proof. intros (a & b & D & H). exists a, b. split; [exact D|]. intros p O. destruct (H p O). split; [apply rev_points|]; assumption. Qed.
Lemma segment_in_region_ends_l s c : nondegenerate s -> simple_contour c -> ~ share_segment (in_segment s) (on_contour c) ->
  (inside c (s_start s) /\ outside c (s_end s) \/ outside c (s_start s) /\ inside c (s_end s) -> segment_in_region s c = Ok CROSS)
  /\ (ends_settled s c -> segment_in_region (Seg (s_end s) (s_start s)) c = segment_in_region s c).
Proof.
  intros N SC NS. assert (XS : in_segment s (s_start s)) by apply on_segment_start. assert (XE : in_segment s (s_end s)) by apply on_segment_end. split.
  - intros H. assert (ES : ends_settled s c) by (left; destruct H as [[H _]|[H _]]; apply H).
    apply (answer_of s c CROSS (segment_in_region_exact_l s c N SC NS ES)). destruct H as [[A B]|[A B]]; split; [exists (s_start s)|exists (s_end s)|exists (s_end s)|exists (s_start s)]; split; assumption.
  - intros ES. destruct (segment_in_region_exact_l s c N SC NS ES) as (r & -> & Sp & _).
    assert (N' : nondegenerate (Seg (s_end s) (s_start s))) by (intros K; apply N; symmetry; exact K).
    apply (answer_of _ c r); [apply segment_in_region_exact_l; [exact N'|exact SC|intros K; exact (NS (share_rev s _ K))|apply ends_settled_rev, ES]|].
    apply (linear_areal_ext (in_segment s) _ (region_area c) (region_area c)); [intros p; symmetry; apply rev_points|intros p; split; [reflexivity|split; reflexivity]|exact Sp].
Qed.
Lemma segment_in_region_chord_l s c : nondegenerate s -> simple_contour c -> on_contour c (s_start s) -> on_contour c (s_end s) ->
  interior_on_left c \/ (~ In (s_start s) (vertices c) /\ ~ In (s_end s) (vertices c)) ->
  ((forall p, strictly_inside_segment s p -> inside c p) -> segment_in_region s c = Ok ENCLOSED)
  /\ ((forall p, strictly_inside_segment s p -> outside c p) -> segment_in_region s c = Ok TOUCH).
Proof.
  intros N SC YS YE OK. assert (XS : in_segment s (s_start s)) by apply on_segment_start. assert (XE : in_segment s (s_end s)) by apply on_segment_end.
  assert (ES : ends_settled s c) by (destruct OK as [H|H]; right; right; [right|left]; exact H).
  set (m := lerp (s_start s) (s_end s) (Q2Qc (1#2))).
  assert (SM : strictly_inside_segment s m).
  { split; [exists (Q2Qc (1#2)); split; [qlra|]; split; [qlra|reflexivity]|].
    split; intros K; apply N; assert (A := f_equal px K); assert (B := f_equal py K); unfold m, lerp in A, B; cbn in A, B; apply pt_eq; qlra. }
  assert (NS : (forall p, strictly_inside_segment s p -> ~ on_contour c p) -> ~ share_segment (in_segment s) (on_contour c)).
  { intros H (a & b & D & K). assert (KA := K a (on_segment_start _ _)). assert (KB := K b (on_segment_end _ _)). assert (KM := K (lerp a b (Q2Qc (1#2)))).
    destruct KM as [M1 M2]; [exists (Q2Qc (1#2)); split; [qlra|]; split; [qlra|reflexivity]|].
    apply (H (lerp a b (Q2Qc (1#2)))); [|exact M2]. apply (inside_part s N a b _ (proj1 KA) (proj1 KB)); [exists (Q2Qc (1#2)); split; [qlra|]; split; [qlra|reflexivity]| |];
      intros Q; apply D; assert (A := f_equal px Q); assert (B := f_equal py Q); unfold lerp in A, B; cbn in A, B; apply pt_eq; qlra. }
  assert (CASE : forall p, in_segment s p -> p = s_start s \/ p = s_end s \/ strictly_inside_segment s p).
  { intros p XP. destruct (pt_dec p (s_start s)) as [E|E]; [auto|]. destruct (pt_dec p (s_end s)) as [E'|E']; [auto|]. right. right. split; [exact XP|]. split; assumption. }
  assert (EX : forall p, ~ (inside c p /\ outside c p)) by (intros p [A B]; apply inside_location in A; apply outside_location in B; congruence).
  split; intros H.
  - apply (answer_of s c ENCLOSED). { apply segment_in_region_exact_l; try assumption. apply NS. intros p Q. apply (H p Q). }
    split; [|split; [exists m; split; [apply SM|exact (H m SM)]|exists (s_start s); auto]].
    intros (p & XP & O). destruct (CASE p XP) as [-> |[-> |Q]]; [apply (proj1 O), YS|apply (proj1 O), YE|]. exact (EX p (conj (H p Q) O)).
  - apply (answer_of s c TOUCH). { apply segment_in_region_exact_l; try assumption. apply NS. intros p Q. apply (H p Q). }
    split; [|split; [exists (s_start s); auto|exists m; split; [apply SM|exact (H m SM)]]].
    intros (p & XP & O). destruct (CASE p XP) as [-> |[-> |Q]]; [apply (proj1 O), YS|apply (proj1 O), YE|]. exact (EX p (conj O (H p Q))).
Qed.
