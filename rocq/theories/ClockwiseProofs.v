(* Segments in regions whose vertices are listed clockwise. *)
From Coq Require Import QArith Qcanon Lqa List Bool ZArith Lia.
From Verif Require Import Scalar Base Ground MLinear MSweep MCompound Planar Spec SpecAreas SpecAround SpecContact SpecMore SpecRings SpecNested SpecLines SpecChord SpecClockwise Geom RayParity SegProofs PointProofs EqualProofs
  NoFail RangeProofs RefuteProofs Orient SegMulti SegContour SegEdges SegStraight Corner SegRegion SegTold Area AreaAnswer Drawn Areas PolyArea Polygons PolyQueries PolyLine ContactProofs EdgeByEdge NestedProofs LinesProofs LeftSide ChordProofs.
Import ListNotations.
Open Scope Qc_scope.

Lemma or_is_both_cw x y : or_is x y && or_is y CW = or_is x CW && or_is y CW.
Proof. destruct x, y; reflexivity. Qed.
Definition turn_test (z t u w : point) : bool :=
  if or_is (angle_orientation u z w) CW then or_is (angle_orientation z u t) CW || or_is (angle_orientation w z t) CW
  else or_is (angle_orientation z u t) (angle_orientation w z t) && or_is (angle_orientation w z t) CW.
Lemma turn_back z t u : or_is (angle_orientation u z u) CW = false /\ turn_test z t u u = false.
Proof.
  assert (A : or_is (angle_orientation u z u) CW = false).
  { rewrite or_is_cw. replace (cross u z u) with 0 by (unfold cross; ring). destruct (qltb_spec 0 0); [exfalso; qlra|reflexivity]. }
  split; [exact A|]. unfold turn_test. rewrite A, or_is_both_cw, !or_is_cw. replace (cross u z t) with (- cross z u t) by (unfold cross; ring).
  destruct (qltb_spec (cross z u t) 0), (qltb_spec (- cross z u t) 0); try reflexivity. exfalso. qlra.
Qed.
Lemma turn_stay z t u : or_is (angle_orientation u z z) CW = false /\ turn_test z t u z = false.
Proof.
  assert (A : or_is (angle_orientation u z z) CW = false).
  { rewrite or_is_cw. replace (cross u z z) with 0 by (unfold cross; ring). destruct (qltb_spec 0 0); [exfalso; qlra|reflexivity]. }
  split; [exact A|]. unfold turn_test. rewrite A, or_is_both_cw, !or_is_cw. replace (cross z z t) with 0 by (unfold cross; ring).
  destruct (qltb_spec 0 0); [exfalso; qlra|]. apply andb_false_r.
Qed.
Section Dir.
  Variables (c : contour) (z t : point).
  Hypothesis SC : simple_contour c.
  Hypothesis NT : t <> z.
  Notation vs := (vertices c).
  Notation all := (contour_segments c).
  Notation P := (cyc_pairs (vertices c)).
  Hypothesis OB : contour_orientation c = Ok CW.
  Lemma turn_out t' u w : In (u, z) P -> In (z, w) P -> t' <> z -> free_of c z t' -> comes_out c z t' (turn_test z t' u w).
  Proof using SC OB.
    intros IU IW NT' FREE. unfold turn_test. rewrite or_is_both_cw, !or_is_cw.
    assert (FU : parting z u t') by (intros x X1 X2; apply (FREE u z IU (on_segment_end _ _) x X2), on_segment_sym, X1).
    assert (FW : parting z w t') by (intros x X1 X2; exact (FREE z w IW (on_segment_start _ _) x X2 X1)).
    assert (H := heads_out c z t' SC CW _ OB (heads_corner c SC u z w t' IU IW NT' FU FW)). cbn [or_is orientation_eqb xorb] in H.
    assert (T0 := crn_T0 c SC u z w t' IU IW). assert (D0 := crn_D0 c SC u z w t' IU IW NT' FU FW). assert (E0 := crn_E0 c SC u z w t' IU IW NT' FU FW).
    replace (cross z u t') with (- cross u z t') by (unfold cross; ring). replace (cross w z t') with (- cross z w t') by (unfold cross; ring).
    match goal with |- comes_out _ _ _ ?x => match type of H with comes_out _ _ _ ?y => replace x with y; [exact H|] end end. clear H.
    revert T0 D0 E0. generalize (cross u z t') as x, (cross z w t') as y, (cross u z w) as k. intros x y k T0 D0 E0.
    destruct (qltb_spec 0 k) as [K|K], (qltb_spec k 0) as [K'|K'], (qltb_spec 0 x) as [X|X], (qltb_spec 0 y) as [Y|Y], (qltb_spec (- x) 0) as [X'|X'], (qltb_spec (- y) 0) as [Y'|Y']; cbn; try reflexivity; exfalso; try qlra;
      assert (KZ : k = 0) by qlra; destruct (T0 KZ) as [[? ?]|[[? ?]|[? ?]]]; qlra.
  Qed.
  Lemma turn_leaves u w : In (u, z) P -> In (z, w) P -> (turn_test z t u w = true <-> leaves c z t).
  Proof using SC NT OB.
    intros IU IW. assert (NU := simple_step c _ _ SC IU). assert (NW := simple_step c _ _ SC IW).
    assert (ON : forall x, on_segment z u x \/ on_segment z w x -> on_contour c x).
    { intros x [O|O]; [exists u, z; split; [exact IU|apply on_segment_sym, O]|exists z, w; auto]. }
    assert (NW' : w <> z) by congruence.
    destruct (two_ways z u t NU NT) as [FU|WU].
    2:{ split; [|intros L; exfalso; exact (along_stays c z t u (fun x O => ON x (or_introl O)) WU L)]. unfold turn_test. rewrite or_is_both_cw, !or_is_cw. destruct WU as (k & K & KX & KY).
        destruct (same_way_cross z u t w z k KX KY) as (C0 & C1 & _). replace (cross w z t) with (k * cross w z u) by (symmetry; exact C1). rewrite C0.
        replace (cross w z u) with (- cross u z w) by (unfold cross; ring).
        destruct (qltb_spec (cross u z w) 0) as [T|T], (qltb_spec 0 0) as [Z|Z], (qltb_spec (k * - cross u z w) 0) as [Y|Y]; cbn; intros Q; try discriminate; exfalso; try qlra. qnra. }
    destruct (two_ways z w t NW' NT) as [FW|WW].
    2:{ split; [|intros L; exfalso; exact (along_stays c z t w (fun x O => ON x (or_intror O)) WW L)]. unfold turn_test. rewrite or_is_both_cw, !or_is_cw. destruct WW as (k & K & KX & KY).
        destruct (same_way_cross z w t z u k KX KY) as (C0 & _ & C1). replace (cross z u t) with (k * cross z u w) by (symmetry; exact C1).
        replace (cross w z t) with (- cross z w t) by (unfold cross; ring). rewrite C0.
        replace (cross z u w) with (- cross u z w) by (unfold cross; ring).
        destruct (qltb_spec (cross u z w) 0) as [T|T], (qltb_spec (- 0) 0) as [Z|Z], (qltb_spec (k * - cross u z w) 0) as [Y|Y]; cbn; intros Q; try discriminate; exfalso; try qlra; qnra. }
    assert (F : free_of c z t).
    { intros a b I O x X1 X2. destruct (crn_edges c SC u z w IU IW (a, b) I O) as [Q|Q]; injection Q as -> ->; [apply FU; [apply on_segment_sym, X2|exact X1]|apply FW; assumption]. }
    apply (leaves_test c z t NT (turn_test z t u w) F). intros d D0 D1 FR ND. assert (H := turn_out (lerp z t d) u w IU IW ND FR).
    unfold turn_test in H |- *. rewrite or_is_both_cw in H |- *. rewrite !(cw_scale z t _ _ d D0) in H by (unfold cross; ring). exact H.
  Qed.
  Section Tests.
    Variable i : option nat.
    Hypothesis LO : region_locate_point_ c z = (i, BOUNDARY).
    Hypothesis KN : known_end c z.
    Lemma place_unique j k : nth_error vs j = Some z -> nth_error vs k = Some z -> j = k.
    Proof using SC.
      intros A B. assert (N : NoDup vs) by apply SC. apply (proj1 (NoDup_nth_error vs) N); [apply nth_error_Some; congruence|congruence].
    Qed.
    Lemma ends_meet_at : exists e0 f0, nth_error all (length vs - 1) = Some e0 /\ nth_error all 0 = Some f0 /\ s_end e0 = s_start f0.
    Proof using SC.
      destruct (ends_of c SC) as (e0 & f0 & A & B). destruct (wrapped c e0 f0 A B) as (H & _). exists e0, f0. auto.
    Qed.
    Lemma last_untaken e : nth_error all 0 = Some e -> z = s_start e -> ~ taken_right c z.
    Proof using SC.
      intros E Q (k & K & H). destruct ends_meet_at as (e0 & f0 & A & B & M). rewrite B in E. injection E as ->. apply nth_segments in A. destruct A as [_ A].
      rewrite M, <- Q in A. assert (L : (3 <= length vs)%nat) by apply SC. assert (J := place_unique _ _ A K). lia.
    Qed.
    Lemma next_taken j e : i = Some j -> nth_error all j = Some e -> z = s_end e -> z <> s_start e ->
      exists q, py_nth vs (Z.of_nat (length vs) - Z.of_nat j - 3) = Ok q /\ (taken_right c z /\ In (z, q) P \/ ~ taken_right c z /\ (q = s_start e \/ q = z)).
    Proof using SC LO KN.
      intros EI E Q NS. assert (L : (3 <= length vs)%nat) by apply SC. assert (V := proj2 (proj1 (nth_segments c j e) E)). rewrite <- Q in V.
      assert (VZ : In z vs) by (apply nth_error_In in V; exact V). assert (JL : (j < length vs)%nat) by (apply nth_error_Some; congruence).
      destruct (KN VZ) as [TR|OL].
      - assert (TR' := TR). destruct TR as (k & K & H). assert (J := place_unique _ _ V K). subst k. destruct (next_of c SC j e E) as (w & HW & IW). exists w.
        split; [|left; split; [exact TR'|rewrite Q; exact IW]]. rewrite <- HW. rewrite Z.mod_small by lia. unfold py_nth.
        destruct (Z.ltb_spec (Z.of_nat (length vs) - Z.of_nat j - 3) 0), (Z.ltb_spec (Z.of_nat j + 1) 0); try lia.
        + replace (Z.of_nat (length vs) - Z.of_nat j - 3 + Z.of_nat (length vs))%Z with (Z.of_nat j + 1)%Z by lia. reflexivity.
        + replace (Z.of_nat (length vs) - Z.of_nat j - 3)%Z with (Z.of_nat j + 1)%Z by lia. reflexivity.
      - destruct OL as (k & K & H). assert (J := place_unique _ _ V K). subst k. destruct (edge_ends c SC j e E) as [ES EE].
        assert (NT' : (j + 1 = length vs -> False)%nat -> ~ taken_right c z) by (intros NL (k & K' & H'); assert (J := place_unique _ _ V K'); subst k; lia).
        destruct H as [H|[H|H]].
        + exfalso. destruct ends_meet_at as (e0 & f0 & A & B & M). replace (length vs - 1)%nat with j in A by lia. rewrite E in A. injection A as ->.
          rewrite EI in LO. destruct (locate_first z all 0 false (Some j) LO) as (j' & e' & J' & _ & _ & U). cbn in J'. injection J' as J'. rewrite <- J' in U.
          apply (U 0%nat f0); [lia|exact B|]. rewrite Q, M. apply on_segment_start.
        + exists (s_start e). split; [|right; split; [apply NT'; lia|left; reflexivity]]. rewrite <- ES. f_equal. lia.
        + exists z. split; [|right; split; [apply NT'; lia|right; reflexivity]]. rewrite Q, <- EE. f_equal. lia.
    Qed.
    Lemma next_looked j e : i = Some j -> nth_error all j = Some e -> z = s_end e -> z <> s_start e ->
      exists q, py_nth vs (Z.of_nat (length vs) - Z.of_nat j - 3) = Ok q /\ looked_at c z q.
    Proof using SC LO.
      intros EI E Q NS. assert (L : (3 <= length vs)%nat) by apply SC. assert (V := proj2 (proj1 (nth_segments c j e) E)). rewrite <- Q in V.
      assert (JL : (j < length vs)%nat) by (apply nth_error_Some; congruence).
      assert (NL : (j + 1 < length vs)%nat).
      { destruct (Nat.eq_dec (j + 1) (length vs)) as [H|H]; [exfalso|lia]. destruct ends_meet_at as (e0 & f0 & A & B & M). replace (length vs - 1)%nat with j in A by lia. rewrite E in A. injection A as ->.
        rewrite EI in LO. destruct (locate_first z all 0 false (Some j) LO) as (j' & e' & J' & _ & _ & U). cbn in J'. injection J' as J'. rewrite <- J' in U.
        apply (U 0%nat f0); [lia|exact B|]. rewrite Q, M. apply on_segment_start. }
      set (k := ((2 * length vs - j - 3) mod length vs)%nat). assert (KL : (k < length vs)%nat) by (apply Nat.mod_upper_bound; lia).
      destruct (nth_error vs k) as [q|] eqn:K; [|apply nth_error_None in K; lia]. exists q. split; [|exists j; auto].
      assert (KV : k = if (j + 3 <=? length vs)%nat then (length vs - j - 3)%nat else (length vs - 1)%nat).
      { unfold k. destruct (Nat.leb_spec (j + 3) (length vs)) as [H|H].
        - replace (2 * length vs - j - 3)%nat with (length vs - j - 3 + 1 * length vs)%nat by lia. rewrite Nat.mod_add by lia. apply Nat.mod_small. lia.
        - replace (2 * length vs - j - 3)%nat with (length vs - 1)%nat by lia. apply Nat.mod_small. lia. }
      unfold py_nth. destruct (Nat.leb_spec (j + 3) (length vs)) as [H|H]; destruct (Z.ltb_spec (Z.of_nat (length vs) - Z.of_nat j - 3) 0); try lia.
      - replace (Z.of_nat (length vs) - Z.of_nat j - 3)%Z with (Z.of_nat k) by lia. destruct (Z.ltb_spec (Z.of_nat k) 0); [lia|]. destruct (Z.leb_spec (Z.of_nat (length vs)) (Z.of_nat k)); [lia|]. cbn [orb]. rewrite Nat2Z.id, K. reflexivity.
      - replace (Z.of_nat (length vs) - Z.of_nat j - 3 + Z.of_nat (length vs))%Z with (Z.of_nat k) by lia. destruct (Z.ltb_spec (Z.of_nat k) 0); [lia|]. destruct (Z.leb_spec (Z.of_nat (length vs)) (Z.of_nat k)); [lia|]. cbn [orb]. rewrite Nat2Z.id, K. reflexivity.
    Qed.
    Lemma mid_free a b : In (a, b) P -> on_segment a b z -> z <> a -> z <> b -> ~ In z vs.
    Proof using SC.
      intros I O NA NB VZ. rewrite <- (cyc_pairs_fst vs) in VZ. apply in_map_iff in VZ. destruct VZ as ([z' w] & ZE & IW). cbn in ZE. subst z'.
      assert (K := only_mid c z SC a b z w I O NA NB IW (on_segment_start _ _)). injection K as K _. contradiction.
    Qed.
    Lemma end_leaves_cw : exists j b, i = Some j /\ rs_end_outside vs CW j t z = Ok b /\ (b = true <-> seen_back c z /\ leaves c z t).
    Proof using SC NT OB LO KN.
      destruct (located c SC z i LO) as (j & e & EI & E & O & ZS). exists j. unfold rs_end_outside.
      assert (IE := nth_error_In _ _ E). assert (IP := proj1 (contour_segments_in c e) IE).
      destruct (edge_ends c SC j e E) as [-> EE]. rewrite EE. cbn [bind].
      destruct (pt_eqb_spec z (s_start e)) as [Q|Q]; [|destruct (pt_eqb_spec z (s_end e)) as [Q'|Q']].
      - assert (J := ZS Q). cbn [or_is orientation_eqb]. cbn [bind]. rewrite J in E.
        assert (NS : ~ seen_back c z) by (intros SB; apply (last_untaken e E Q), SB; apply cyc_pairs_in_vertices in IP; rewrite Q; apply IP).
        destruct (turn_back z t (s_end e)) as [T1 T2]. unfold turn_test in T2. rewrite <- Q. rewrite T1 in T2 |- *.
        exists false. rewrite T2. split; [exact EI|]. split; [reflexivity|]. split; [discriminate|]. intros [K _]. contradiction.
      - cbn [or_is orientation_eqb]. destruct (next_taken j e EI E Q' Q) as (q & HQ & D). rewrite HQ. cbn [bind]. rewrite <- Q' in *.
        exists (turn_test z t (s_start e) q). split; [exact EI|]. split; [unfold turn_test; destruct (or_is (angle_orientation (s_start e) z q) CW); reflexivity|].
        assert (VZ : In z vs) by (apply cyc_pairs_in_vertices in IP; apply IP).
        destruct D as [(TR & IW)|(NTR & D)].
        + rewrite (turn_leaves (s_start e) q IP IW). unfold seen_back. tauto.
        + split; [|intros [K _]; exfalso; exact (NTR (K VZ))]. destruct D as [-> | ->]; [rewrite (proj2 (turn_back z t (s_start e)))|rewrite (proj2 (turn_stay z t (s_start e)))]; discriminate.
      - eexists. split; [exact EI|]. split; [reflexivity|]. rewrite (mid_leaves c z t SC NT _ _ CW IP O Q Q' OB). assert (NV := mid_free _ _ IP O Q Q'). unfold seen_back. tauto.
    Qed.
    Lemma start_leaves_cw : exists j a, i = Some j /\ rs_start_outside vs CW j z t = Ok a /\ (a = true <-> seen_off c z /\ leaves c z t).
    Proof using SC NT OB LO KN.
      destruct (located c SC z i LO) as (j & e & EI & E & O & ZS). exists j. unfold rs_start_outside.
      assert (IE := nth_error_In _ _ E). assert (IP := proj1 (contour_segments_in c e) IE).
      destruct (edge_ends c SC j e E) as [-> EE]. rewrite EE. cbn [bind].
      destruct (pt_eqb_spec z (s_start e)) as [Q|Q]; [|destruct (pt_eqb_spec z (s_end e)) as [Q'|Q']].
      - assert (J := ZS Q). cbn [or_is orientation_eqb]. cbn [bind]. rewrite J in E.
        assert (NS : ~ seen_off c z) by (intros SB; apply (last_untaken e E Q), SB; apply cyc_pairs_in_vertices in IP; rewrite Q; apply IP).
        destruct (turn_back z t (s_end e)) as [T1 T2]. unfold turn_test in T2. rewrite <- Q. rewrite T1 in T2 |- *.
        exists false. rewrite T2. split; [exact EI|]. split; [reflexivity|]. split; [discriminate|]. intros [K _]. contradiction.
      - cbn [or_is orientation_eqb]. destruct (next_taken j e EI E Q' Q) as (q & HQ & D). rewrite HQ. cbn [bind]. rewrite <- Q' in *.
        assert (VZ : In z vs) by (apply cyc_pairs_in_vertices in IP; apply IP).
        destruct D as [(TR & IW)|(NTR & D)].
        + assert (H := turn_leaves (s_start e) q IP IW). unfold turn_test in H.
          assert (SN : seen_off c z <-> or_is (angle_orientation (s_start e) z q) CW = true).
          { rewrite or_is_cw. split.
            - intros SL. destruct (SL VZ) as (_ & u' & w' & IU' & IW' & TL).
              destruct (crn_edges c SC (s_start e) z q IP IW (u', z) IU' (on_segment_end _ _)) as [K|K];
                [injection K as ->|exfalso; injection K as K1 K2; exact (simple_step c _ _ SC IU' K1)].
              destruct (crn_edges c SC (s_start e) z q IP IW (z, w') IW' (on_segment_start _ _)) as [K|K];
                [exfalso; injection K as K1 K2; apply (simple_step c _ _ SC IW'); congruence|injection K as ->].
              destruct (qltb_spec (cross (s_start e) z q) 0) as [L|L]; [reflexivity|]. exfalso. apply L. unfold to_right in TL. unfold cross. qlra.
            - intros T _. split; [exact TR|]. exists (s_start e), q. split; [exact IP|]. split; [exact IW|]. destruct (qltb_spec (cross (s_start e) z q) 0) as [L|L]; [|discriminate]. unfold to_right. unfold cross in L. qlra. }
          destruct (or_is (angle_orientation (s_start e) z q) CW) eqn:CV.
          * destruct (or_is (angle_orientation z (s_start e) t) CW || or_is (angle_orientation q z t) CW) eqn:K.
            -- eexists. split; [exact EI|]. split; [reflexivity|]. rewrite <- H. tauto.
            -- exists false. split; [exact EI|]. apply orb_false_iff in K. destruct K as [_ K]. rewrite K, andb_false_r. split; [reflexivity|]. rewrite <- H. split; [intros Y; discriminate Y|intros [_ Y]; discriminate Y].
          * exists false. split; [exact EI|]. split; [reflexivity|]. split; [intros Y; discriminate Y|intros [Y _]; apply SN in Y; discriminate Y].
        + assert (C0 : or_is (angle_orientation (s_start e) z q) CW = false) by (destruct D as [-> | ->]; [apply (turn_back z t)|apply (turn_stay z t)]).
          rewrite C0. exists false. split; [exact EI|]. split; [reflexivity|]. split; [discriminate|]. intros [K _]. exfalso. exact (NTR (proj1 (K VZ))).
      - eexists. split; [exact EI|]. split; [reflexivity|]. rewrite (mid_leaves c z t SC NT _ _ CW IP O Q Q' OB). assert (NV := mid_free _ _ IP O Q Q'). unfold seen_off. tauto.
    Qed.
    (* Without a condition on the ends. *)
    Lemma seems_test u q : turn_test z t u q = true <-> seems_out u z q t.
    Proof using Type.
      unfold turn_test, seems_out. rewrite or_is_both_cw, !or_is_cw.
      assert (T : forall a b x, to_right a b x <-> cross a b x < 0) by (intros a b x; unfold to_right, cross; split; intros ?; qlra). rewrite !T.
      destruct (qltb_spec (cross u z q) 0), (qltb_spec (cross z u t) 0), (qltb_spec (cross q z t) 0); cbn; split; intros H; try reflexivity; try discriminate; tauto.
    Qed.
    Lemma before_one u u' : In (u, z) P -> In (u', z) P -> u' = u.
    Proof using SC.
      intros A B. assert (VZ : In z vs) by (apply cyc_pairs_in_vertices in A; apply A). rewrite <- (cyc_pairs_fst vs) in VZ. apply in_map_iff in VZ. destruct VZ as ([z' w] & ZE & IW). cbn in ZE. subst z'. destruct (crn_edges c SC u z w A IW (u', z) B (on_segment_end _ _)) as [K|K]; [injection K as ->; reflexivity|].
      exfalso. injection K as K1 K2. exact (simple_step c _ _ SC B K1).
    Qed.
    Lemma looked_one q q' : looked_at c z q -> looked_at c z q' -> q' = q.
    Proof using SC.
      intros (k & A & _ & B) (k' & A' & _ & B'). rewrite (place_unique _ _ A A') in B. congruence.
    Qed.
    Lemma last_unlooked e q : nth_error all 0 = Some e -> z = s_start e -> ~ looked_at c z q.
    Proof using SC.
      intros E Q (k & K & H & _). destruct ends_meet_at as (e0 & f0 & A & B & M). rewrite B in E. injection E as ->. apply nth_segments in A. destruct A as [_ A].
      rewrite M, <- Q in A. assert (L : (3 <= length vs)%nat) by apply SC. assert (J := place_unique _ _ A K). lia.
    Qed.
    Lemma end_told_cw : exists j b, i = Some j /\ rs_end_outside vs CW j t z = Ok b /\ (b = true <-> told_back c z t).
    Proof using SC NT OB LO.
      destruct (located c SC z i LO) as (j & e & EI & E & O & ZS). exists j. unfold rs_end_outside.
      assert (IE := nth_error_In _ _ E). assert (IP := proj1 (contour_segments_in c e) IE).
      destruct (edge_ends c SC j e E) as [-> EE]. rewrite EE. cbn [bind].
      destruct (pt_eqb_spec z (s_start e)) as [Q|Q]; [|destruct (pt_eqb_spec z (s_end e)) as [Q'|Q']].
      - assert (J := ZS Q). cbn [or_is orientation_eqb]. cbn [bind]. rewrite J in E.
        assert (VZ : In z vs) by (apply cyc_pairs_in_vertices in IP; rewrite Q; apply IP).
        destruct (turn_back z t (s_end e)) as [T1 T2]. unfold turn_test in T2. rewrite <- Q. rewrite T1 in T2 |- *.
        exists false. rewrite T2. split; [exact EI|]. split; [reflexivity|]. split; [discriminate|]. intros [(_ & u & q & _ & K & _)|(K & _)]; [exfalso; exact (last_unlooked e q E Q K)|contradiction].
      - cbn [or_is orientation_eqb]. destruct (next_looked j e EI E Q' Q) as (q & HQ & D). rewrite HQ. cbn [bind]. rewrite <- Q' in *.
        exists (turn_test z t (s_start e) q). split; [exact EI|]. split; [unfold turn_test; destruct (or_is (angle_orientation (s_start e) z q) CW); reflexivity|].
        assert (VZ : In z vs) by (apply cyc_pairs_in_vertices in IP; apply IP).
        rewrite seems_test. split; [intros H; left; split; [exact VZ|]; exists (s_start e), q; auto|].
        intros [(_ & u & q' & IU & K & H)|(K & _)]; [|contradiction]. rewrite (before_one _ _ IP IU), (looked_one _ _ D K) in H. exact H.
      - eexists. split; [exact EI|]. split; [reflexivity|]. rewrite (mid_leaves c z t SC NT _ _ CW IP O Q Q' OB). assert (NV := mid_free _ _ IP O Q Q'). unfold told_back. tauto.
    Qed.
    Lemma start_told_cw : exists j a, i = Some j /\ rs_start_outside vs CW j z t = Ok a /\ (a = true <-> told_off c z t).
    Proof using SC NT OB LO.
      destruct (located c SC z i LO) as (j & e & EI & E & O & ZS). exists j. unfold rs_start_outside.
      assert (IE := nth_error_In _ _ E). assert (IP := proj1 (contour_segments_in c e) IE).
      destruct (edge_ends c SC j e E) as [-> EE]. rewrite EE. cbn [bind].
      destruct (pt_eqb_spec z (s_start e)) as [Q|Q]; [|destruct (pt_eqb_spec z (s_end e)) as [Q'|Q']].
      - assert (J := ZS Q). cbn [or_is orientation_eqb]. cbn [bind]. rewrite J in E.
        assert (VZ : In z vs) by (apply cyc_pairs_in_vertices in IP; rewrite Q; apply IP).
        destruct (turn_back z t (s_end e)) as [T1 T2]. unfold turn_test in T2. rewrite <- Q. rewrite T1 in T2 |- *.
        exists false. rewrite T2. split; [exact EI|]. split; [reflexivity|]. split; [discriminate|]. intros [(_ & u & q & _ & K & _)|(K & _)]; [exfalso; exact (last_unlooked e q E Q K)|contradiction].
      - cbn [or_is orientation_eqb]. destruct (next_looked j e EI E Q' Q) as (q & HQ & D). rewrite HQ. cbn [bind]. rewrite <- Q' in *.
        assert (VZ : In z vs) by (apply cyc_pairs_in_vertices in IP; apply IP).
        assert (H := seems_test (s_start e) q). unfold turn_test in H.
        assert (TR : or_is (angle_orientation (s_start e) z q) CW = true <-> to_right (s_start e) z q).
        { rewrite or_is_cw. assert (T : to_right (s_start e) z q <-> cross (s_start e) z q < 0) by (unfold to_right, cross; split; intros ?; qlra). rewrite T. destruct (qltb_spec (cross (s_start e) z q) 0); split; intros K; try reflexivity; try discriminate; try assumption; contradiction. }
        assert (TO : told_off c z t <-> to_right (s_start e) z q /\ seems_out (s_start e) z q t).
        { split; [|intros K; left; split; [exact VZ|]; exists (s_start e), q; tauto]. intros [(_ & u & q' & IU & K & K')|(K & _)]; [|contradiction]. rewrite (before_one _ _ IP IU), (looked_one _ _ D K) in K'. exact K'. }
        destruct (or_is (angle_orientation (s_start e) z q) CW) eqn:CV.
        + destruct (or_is (angle_orientation z (s_start e) t) CW || or_is (angle_orientation q z t) CW) eqn:K.
          * eexists. split; [exact EI|]. split; [reflexivity|]. rewrite TO. tauto.
          * exists false. split; [exact EI|]. apply orb_false_iff in K. destruct K as [_ K]. rewrite K, andb_false_r. split; [reflexivity|]. rewrite TO, <- H. split; [intros Y; discriminate Y|intros [_ Y]; discriminate Y].
        + exists false. split; [exact EI|]. split; [reflexivity|]. rewrite TO, <- TR. split; [intros Y; discriminate Y|intros [Y _]; discriminate Y].
      - eexists. split; [exact EI|]. split; [reflexivity|]. rewrite (mid_leaves c z t SC NT _ _ CW IP O Q Q' OB). assert (NV := mid_free _ _ IP O Q Q'). unfold told_off. tauto.
    Qed.
  End Tests.
End Dir.

Section Told.
  Variables (s : segment) (c : contour).
  Hypothesis N : nondegenerate s.
  Hypothesis SC : simple_contour c.
  Hypothesis OB : contour_orientation c = Ok CW.
  Notation X := (in_segment s).
  Notation Y := (on_contour c).
  Notation all := (contour_segments c).
  Notation P := (cyc_pairs (vertices c)).
  (* The ends are seen if [A] or [B]. *)
  Variables A B : Prop.
  Definition cw_out : Prop := outside c (s_start s) \/ on_contour c (s_start s) /\ (outside c (s_end s) \/ on_contour c (s_end s) /\ (B \/ A)).
  Definition cw_spec (rel : relation) : Prop :=
    match rel with
    | DISJOINT => subset (in_segment s) (outside c)
    | WITHIN => subset (in_segment s) (inside c)
    | COMPONENT => in_one_edge s c
    | CROSS => crossed_by s (cyc_pairs (vertices c))
    | TOUCH => meets (in_segment s) (on_contour c) /\ ~ in_one_edge s c /\ ~ crossed_by s (cyc_pairs (vertices c)) /\ cw_out
    | ENCLOSED => meets (in_segment s) (on_contour c) /\ ~ in_one_edge s c /\ ~ crossed_by s (cyc_pairs (vertices c)) /\ ~ cw_out
    | _ => False
    end.
  Notation Sp := cw_spec.
  (* Unless both ends are on the boundary the order of the vertices does not matter. *)
  Lemma ends_alike : ~ (Y (s_start s) /\ Y (s_end s)) -> (ends_out s c <-> cw_out).
  Proof using Type. unfold ends_out, cw_out. tauto. Qed.
  Lemma told_unique_cw r r' : Sp r -> Sp r' -> r' = r.
  Proof using N SC.
    assert (OS : in_one_edge s c -> meets X Y) by (intros (a & b & I & H); exists (s_start s); split; [apply on_segment_start|exists a, b; split; [exact I|apply H, on_segment_start]]).
    assert (CM := SegStraight.crossed_meets s c). assert (OU := one_edge_uncrossed s c N SC).
    assert (ON : forall Z : point -> Prop, (forall p, Z p -> ~ Y p) -> subset X Z -> ~ meets X Y) by (intros Z ZA ZB (p & P1 & P2); exact (ZA p (ZB p P1) P2)).
    assert (DN := ON (outside c) (fun p H => proj1 H)). assert (WN := ON (inside c) (fun p H => proj1 H)).
    assert (DW : subset X (outside c) -> subset X (inside c) -> False).
    { intros HA HB. assert (A' := HA _ (on_segment_start _ _)). assert (B' := HB _ (on_segment_start _ _)). apply outside_location in A'. apply inside_location in B'. congruence. }
    destruct r; cbn; intros H; try contradiction; destruct r'; cbn; intros K; try contradiction; try reflexivity; exfalso; tauto.
  Qed.
  Lemma cw_told : (Y (s_start s) -> Y (s_end s) ->
    (forall i, region_locate_point_ c (s_start s) = (i, BOUNDARY) -> exists j a, i = Some j /\ rs_start_outside (vertices c) CW j (s_start s) (s_end s) = Ok a /\ (a = true <-> A))
    /\ forall i, region_locate_point_ c (s_end s) = (i, BOUNDARY) -> exists j b, i = Some j /\ rs_end_outside (vertices c) CW j (s_start s) (s_end s) = Ok b /\ (b = true <-> B)) -> answer_is Sp (segment_in_region s c).
  Proof using N SC OB.
    intros OK. assert (ND : edges_nondegenerate c) by apply simple_nondegenerate, SC.
    assert (PUT : forall r, segment_in_region s c = Ok r -> Sp r -> answer_is Sp (segment_in_region s c)).
    { intros r E H. exists r. split; [exact E|]. split; [exact H|]. intros r' H'. exact (told_unique_cw r r' H H'). }
    assert (BOTH : Y (s_start s) /\ Y (s_end s) \/ ~ (Y (s_start s) /\ Y (s_end s))).
    { destruct (location_eqb (point_in_region (s_start s) c) BOUNDARY) eqn:LA, (location_eqb (point_in_region (s_end s) c) BOUNDARY) eqn:LB;
        [left; split; apply point_in_region_boundary_l; [destruct (point_in_region (s_start s) c)|destruct (point_in_region (s_end s) c)]; try discriminate; reflexivity|right|right|right];
        intros [Q Q']; apply point_in_region_boundary_l in Q, Q'; rewrite ?Q, ?Q' in *; discriminate. }
    destruct BOTH as [[PS PE]|NB].
    - destruct (OK PS PE) as [KS KE]. clear OK.
      assert (M : meets X Y) by (exists (s_start s); split; [apply on_segment_start|exact PS]).
      destruct (region_cases s c SC) as [(H & CA)|[(F & CA)|(NF & NE & CA)]].
      + apply (PUT COMPONENT); [apply (code_of s c _ CA); auto|]. apply (one_edge s c N SC), H.
      + apply (PUT CROSS); [apply (code_of s c _ CA); auto|]. apply (crossed_iff s c N SC), F.
      + assert (NO : ~ in_one_edge s c) by (rewrite (one_edge s c N SC); intros (e & I & [R|R]); destruct (NE e I); contradiction).
        assert (NX : ~ crossed_by s P) by (rewrite <- (crossed_iff s c N SC); exact NF).
        assert (Q : exists rc, relate_segment_to_contour c s = Ok rc /\ (rc = OVERLAP \/ rc = TOUCH)).
        { destruct CA as [(_ & CB)|[(_ & T & CB)|(SH & T & _)]]; [exists OVERLAP; auto|exists TOUCH; auto|exfalso; exact (no_touch_meets s c N SC SH NF T M)]. }
        clear CA. destruct Q as (rc & CA & RC).
        assert (GT : segment_in_region s c = Ok TOUCH -> cw_out -> answer_is Sp (segment_in_region s c)) by (intros E H; apply (PUT TOUCH E); cbn; auto).
        assert (GE : segment_in_region s c = Ok ENCLOSED -> ~ cw_out -> answer_is Sp (segment_in_region s c)) by (intros E H; apply (PUT ENCLOSED E); cbn; auto).
        clear PUT. unfold segment_in_region, region_relate_segment in GT, GE |- *. rewrite CA in GT, GE |- *. cbn [bind] in GT, GE |- *.
        replace (relation_eqb rc CROSS || relation_eqb rc COMPONENT) with false in * by (destruct RC as [-> | ->]; reflexivity).
        replace (relation_eqb rc DISJOINT) with false in * by (destruct RC as [-> | ->]; reflexivity).
        assert (NYO : forall p, Y p -> ~ outside c p) by (intros p E O; exact (proj1 O E)).
        assert (QS := proj2 (point_in_region_boundary_l _ _) PS). assert (QE := proj2 (point_in_region_boundary_l _ _) PE).
        destruct (region_locate_point_ c (s_start s)) as [i ls] eqn:LS. assert (LP := locate_pair c _ _ _ LS). rewrite QS in LP. subst ls.
        destruct (region_locate_point_ c (s_end s)) as [j le] eqn:LE. assert (LP := locate_pair c _ _ _ LE). rewrite QE in LP. subst le.
        destruct (KS i eq_refl) as (i' & a & Ei & Ea & Ha).
        destruct (KE j eq_refl) as (j' & b & Ej & Eb & Hb).
        rewrite Ei, Ej, OB in GT, GE |- *. cbn [bind] in GT, GE |- *. rewrite Ea in GT, GE |- *. cbn [bind] in GT, GE |- *.
        destruct a.
        { apply (GT eq_refl). right. split; [exact PS|]. right. split; [exact PE|]. right. apply Ha. reflexivity. }
        rewrite Eb in GT, GE |- *. cbn [bind] in GT, GE |- *. destruct b.
        * apply (GT eq_refl). right. split; [exact PS|]. right. split; [exact PE|]. left. apply Hb. reflexivity.
        * apply (GE eq_refl). intros [K|[_ [K|[_ [K|K]]]]]; [exact (NYO _ PS K)|exact (NYO _ PE K)|apply Hb in K; discriminate|apply Ha in K; discriminate].
    - assert (ES : ends_settled s c).
      { unfold ends_settled. destruct (point_in_region (s_start s) c) eqn:LA; [left|right; left|left]; intros Q; [|apply NB; split; [apply point_in_region_boundary_l, LA|exact Q]|]; apply point_in_region_boundary_l in Q; congruence. }
      destruct (segment_in_region_told_l s c N SC ES) as (r & E & H & _). apply (PUT r E). assert (EA := ends_alike NB).
      destruct r; cbn in H |- *; tauto.
  Qed.
End Told.

Lemma segment_clockwise_told_l s c : nondegenerate s -> simple_contour c -> contour_orientation c = Ok CW ->
  (on_contour c (s_start s) -> on_contour c (s_end s) -> known_end c (s_start s) /\ known_end c (s_end s)) -> answer_is (segment_clockwise_spec s c) (segment_in_region s c).
Proof.
  intros N SC OB K. assert (DN : s_end s <> s_start s) by (intros Q; apply N; symmetry; exact Q).
  refine (cw_told s c N SC OB (seen_off c (s_start s) /\ leaves c (s_start s) (s_end s)) (seen_back c (s_end s) /\ leaves c (s_end s) (s_start s)) _). intros A B. destruct (K A B) as [KS KE]. split; intros i L.
  - exact (start_leaves_cw c (s_start s) (s_end s) SC DN OB i L KS).
  - exact (end_leaves_cw c (s_end s) (s_start s) SC N OB i L KE).
Qed.
Lemma segment_clockwise_full_told_l s c : nondegenerate s -> simple_contour c -> contour_orientation c = Ok CW -> answer_is (segment_clockwise_full_spec s c) (segment_in_region s c).
Proof.
  intros N SC OB. assert (DN : s_end s <> s_start s) by (intros Q; apply N; symmetry; exact Q).
  refine (cw_told s c N SC OB (told_off c (s_start s) (s_end s)) (told_back c (s_end s) (s_start s)) _). intros _ _. split; intros i L.
  - exact (start_told_cw c (s_start s) (s_end s) SC DN OB i L).
  - exact (end_told_cw c (s_end s) (s_start s) SC N OB i L).
Qed.

(* In a triangle or a quadrilateral every vertex is known. *)
Lemma few_known c z : (3 <= length (vertices c) <= 4)%nat -> known_end c z.
Proof.
  intros L I. apply In_nth_error in I. destruct I as (i & I). assert (J : (i < length (vertices c))%nat) by (apply nth_error_Some; congruence).
  unfold taken_right, overlooked.
  assert (H : ((i + 2 = length (vertices c) \/ 2 * i + 4 = length (vertices c)) \/ i + 1 = length (vertices c) \/ 2 * i + 2 = length (vertices c) \/ 2 * i + 3 = length (vertices c))%nat) by lia.
  destruct H as [H|H]; [left|right]; exists i; auto.
Qed.
Lemma cw_of c : simple_contour c -> ~ interior_on_left c -> contour_orientation c = Ok CW.
Proof.
  intros SC NL. destruct (contour_orientation_side_l c SC) as [[SO|SO] _]; [exact SO|]. exfalso. apply NL, (interior_left_ccw c SC), SO.
Qed.
Lemma segment_clockwise_l s c : nondegenerate s -> simple_contour c -> ~ interior_on_left c -> (both_ends_on s c -> known_end c (s_start s) /\ known_end c (s_end s)) ->
  answer_is (segment_clockwise_spec s c) (segment_in_region s c).
Proof. intros N SC NL K. apply (segment_clockwise_told_l s c N SC (cw_of c SC NL)). intros A B. apply K. split; assumption. Qed.
Lemma segment_clockwise_full_l s c : nondegenerate s -> simple_contour c -> ~ interior_on_left c -> answer_is (segment_clockwise_full_spec s c) (segment_in_region s c).
Proof. intros N SC NL. exact (segment_clockwise_full_told_l s c N SC (cw_of c SC NL)). Qed.
Lemma clockwise_out s c : ends_out_clockwise s c -> meets (in_segment s) (outside c).
Proof.
  assert (XS : in_segment s (s_start s)) by apply on_segment_start. assert (XE : in_segment s (s_end s)) by apply on_segment_end.
  intros [K|(_ & [K|(_ & [(_ & K)|(_ & K)])])]; [exists (s_start s); auto|exists (s_end s); auto|exact (ch_leaves s c _ _ XE XS K)|exact (ch_leaves s c _ _ XS XE K)].
Qed.
(* TOUCH is right about the points outside at known ends. *)
Lemma known_touch_l s c : nondegenerate s -> simple_contour c -> known_end c (s_start s) -> known_end c (s_end s) -> segment_in_region s c = Ok TOUCH -> meets (in_segment s) (outside c).
Proof.
  intros N SC KS KE E. destruct (contour_orientation_side_l c SC) as [[SO|SO] _].
  - destruct (segment_clockwise_told_l s c N SC SO (fun _ _ => conj KS KE)) as (r & E' & T & _). rewrite E in E'. injection E' as <-. apply clockwise_out. apply T.
  - apply (segment_touch_out s c N SC); [|exact E]. right. right. right. apply (interior_left_ccw c SC), SO.
Qed.
Lemma known_covered_l s c : nondegenerate s -> simple_contour c -> known_end c (s_start s) -> known_end c (s_end s) ->
  subset (in_segment s) (a_cl (region_area c)) -> exists r, segment_in_region s c = Ok r /\ inside_relation r.
Proof.
  intros N SC KS KE H.
  assert (NO : ~ meets (in_segment s) (outside c)).
  { intros (p & A & B). apply outside_location in B. destruct (H p A) as [K|K]; cbn [region_area a_in a_on] in K; [apply inside_location in K|apply point_in_region_boundary_l in K]; congruence. }
  destruct (segment_in_region_amiss_l s c N SC) as (r & y & E & T & D). exists r. split; [exact E|]. unfold inside_relation.
  assert (NT : r <> TOUCH) by (intros ->; exact (NO (known_touch_l s c N SC KS KE E))).
  assert (NY : y <> CROSS /\ y <> TOUCH /\ y <> DISJOINT).
  { assert (XS : in_segment s (s_start s)) by apply on_segment_start.
    split; [|split]; intros ->; cbn in T.
    - destruct T as [_ (q & Q1 & Q2)]. apply NO. exists q. auto.
    - destruct T as (_ & _ & K). first [destruct K as (q & Q1 & Q2); apply NO; exists q; auto|idtac].
    - apply NO. exists (s_start s). split; [exact XS|]. apply T, XS. }
  destruct NY as (N1 & N2 & N3). destruct D as [->|[(-> & _)|[(_ & -> & _)|[(-> & _)|(-> & _)]]]]; cbn; auto; try contradiction.
  destruct y; cbn in T; try contradiction; auto.
Qed.
Lemma few_vertices_l s c : nondegenerate s -> simple_contour c -> (length (vertices c) <= 4)%nat ->
  (segment_in_region s c = Ok TOUCH -> meets (in_segment s) (outside c))
  /\ (subset (in_segment s) (a_cl (region_area c)) -> exists r, segment_in_region s c = Ok r /\ inside_relation r).
Proof.
  intros N SC L. assert (L3 : (3 <= length (vertices c))%nat) by apply SC. assert (K : forall z, known_end c z) by (intros z; apply few_known; auto).
  split; [apply known_touch_l|apply known_covered_l]; auto.
Qed.

Lemma few_vertices_polygon_l s pg : nondegenerate s -> valid_polygon pg -> (length (vertices (border pg)) <= 4)%nat ->
  (segment_in_polygon s pg = Ok TOUCH -> meets (in_segment s) (a_out (polygon_area pg)))
  /\ (subset (in_segment s) (a_cl (polygon_area pg)) -> exists r, segment_in_polygon s pg = Ok r /\ inside_relation r).
Proof.
  intros N V L. pose proof (pg_border pg V) as Bd.
  assert (B : segment_in_polygon s pg = Ok TOUCH -> meets (in_segment s) (a_out (polygon_area pg))).
  { destruct (ch_parts s pg N V) as (r & x & E & -> & H). intros Q. injection Q as ->. destruct H as [(<- & _)|(W & NH & h & Sh & K)].
    - destruct (proj1 (few_vertices_l s _ N Bd L) E) as (p & A & B). exists p. split; [exact A|left; exact B].
    - destruct K as [(K & _)|(K & _)]; [destruct h; try discriminate K|discriminate]. destruct Sh as (_ & (p & A & B) & _). exists p. split; [exact A|right; exact B]. }
  split; [exact B|]. intros H. pose proof (covered_out (LSegment s) (GPolygon pg) V H) as NO.
  destruct (ch_parts s pg N V) as (_ & x & _ & E & _). destruct (segment_polygon_sides_l s pg N V) as (A & _ & _). destruct (segment_in_polygon_one s pg N V) as (D & _).
  exists x. split; [exact E|]. destruct (linear_areal_range_l s (MSeg []) (border pg) (border pg) [] pg (MPoly [])) as (_ & _ & _ & _ & _ & _ & R & _). rewrite E in *. cbn [answers] in R.
  destruct R as [<-|[<-|[<-|[<-|[<-|[<-|[]]]]]]]; try (cbn; auto; fail); exfalso; apply NO.
  + exists (s_start s). split; [apply on_segment_start|]. apply D; [reflexivity|apply on_segment_start].
  + apply B. reflexivity.
  + apply A. reflexivity.
Qed.
