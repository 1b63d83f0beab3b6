(* Polygons and multipolygons as areas bounded by their edges. *)
From Coq Require Import QArith Qcanon List Bool ZArith Lia Permutation.
From Verif Require Import Scalar Base Ground MLinear MSweep MCompound Planar Spec Geom RayParity SegProofs BoxProofs PointProofs EqualProofs
  SweepStore SweepDetect SweepSteps Termination SweepSafe NoFail SweepTime SweepOrder SweepMoves SweepAdvance SweepLoop SweepEmit SweepRun SweepFound
  SweepLow SweepFlags SweepInside SweepMarks SweepTold OpenProofs Orient Walk Area Vertical AreaFlags AreaSem AreaAnswer Drawn Gather Cover Sector AreaQueries ClosedProofs.
Import ListNotations.
Open Scope Qc_scope.

(** * Two areas and their boundaries *)
Lemma gencom_shared eps inp v : ordered eps (candidates inp) -> items_ok inp -> gencom eps inp v -> shared inp.
Proof.
  intros O IO (x & y & m & Ix & Iy & Fx & Fy & Ox & Oy & Fr & _).
  destruct (free_span inp IO eps x m O Ix Ox Fr) as (X1 & X2 & Em). destruct (free_span inp IO eps y m O Iy Oy Fr) as (Y1 & Y2 & Em').
  assert (Ln : same_line eps x y).
  { apply (same_line_at eps x y (tm eps m)). assert (V : val eps x (tm eps m) = val eps y (tm eps m)).
    { apply (f_equal py) in Em, Em'. cbn [at_time py] in Em, Em'. congruence. }
    split; [exact V|]. destruct (Qc_eq_dec (slo eps x) (slo eps y)) as [E|E]; [exact E|exfalso].
    assert (NS : ~ same_line eps x y) by (intros [_ Z]; exact (E Z)).
    exact (Fr m (meet_candidate eps inp O IO x y m Ix Iy Ox Oy NS) eq_refl). }
  set (u := if qltb (tm eps (it_hi x)) (tm eps (it_hi y)) then tm eps (it_hi x) else tm eps (it_hi y)).
  assert (U : tm eps m < u /\ u <= tm eps (it_hi x) /\ u <= tm eps (it_hi y)).
  { unfold u. destruct (qltb_spec (tm eps (it_hi x)) (tm eps (it_hi y))); split; try assumption; split; qlra. }
  destruct U as (U1 & U2 & U3). exists x, y, m, (at_time eps x u). repeat (split; [assumption|]). split; [|split; [exact Ox|split; [|split; [exact Oy|]]]].
  - intros Z. apply (f_equal (tm eps)) in Z. rewrite at_time_tm in Z. qlra.
  - apply (at_item eps inp O IO); [exact Ix|qlra|qlra].
  - rewrite (at_time_eq eps x y u) by (apply (same_line_at eps x y u), Ln). apply (at_item eps inp O IO); [exact Iy|qlra|qlra].
Qed.
Section TwoAreas.
  Variable (g t : list (point * point)) (A B : area).
  Hypothesis (Dg : drawn g B) (Dt : drawn t A).
  Local Notation inp := (two_items g t).
  Let ar (s : bool) := if s then A else B.
  Let IO : items_ok inp := proj1 (two_ok g t (dr_tidy _ _ Dg) (dr_tidy _ _ Dt)).
  Let AP : apart inp := proj2 (two_ok g t (dr_tidy _ _ Dg) (dr_tidy _ _ Dt)).
  Lemma ta_areal s : areal inp s (a_in (ar s)) (a_out (ar s)).
  Proof using Dg Dt. exact (tw_areal inp g t A B (side_two g t false) (side_two g t true) Dg Dt s). Qed.
  Lemma ta_has s p : side_has inp s p <-> a_on (ar s) p.
  Proof using Dg Dt. exact (tw_has inp g t A B (side_two g t false) (side_two g t true) Dg Dt s p). Qed.
  (* Beside a boundary point inside (outside) the other area there are
     interior and exterior points inside (outside) it. *)
  Lemma beside_on s p (v a : bool) : a_on (ar s) p -> (if v then a_in (ar (negb s)) else a_out (ar (negb s))) p ->
    exists q, (if a then a_in (ar s) else a_out (ar s)) q /\ (if v then a_in (ar (negb s)) else a_out (ar (negb s))) q.
  Proof using Dg Dt.
    intros Hs Hv. destruct (ordered_exists (candidates inp)) as [eps O]. apply ta_has in Hs.
    assert (Nr : ~ side_has inp (negb s) p) by (apply (ar_on _ _ _ _ (ta_areal (negb s))); destruct v; auto).
    pose proof (point_gen inp IO eps s p O (proj1 (ar_closed _ _ _ _ (ta_areal (negb s)) eps O)) Hs Nr) as G.
    destruct (ar_low _ _ _ _ (ta_areal (negb s)) eps p O Nr) as [L1 L2].
    assert (Lv : low eps inp (negb s) p = v) by (destruct v; [apply L1|apply L2]; exact Hv). rewrite Lv in G.
    destruct (gen_around inp IO AP eps s v a O G) as (z & Nz & K1 & K2). exists z.
    destruct (ar_low _ _ _ _ (ta_areal s) eps z O (Nz s)) as [M1 M2]. destruct (ar_low _ _ _ _ (ta_areal (negb s)) eps z O (Nz (negb s))) as [M3 M4].
    split; [destruct a; [apply M1|apply M2]; exact K1|destruct v; [apply M3|apply M4]; exact K2].
  Qed.
  Lemma in_on_meets p : a_in A p -> a_on B p -> meets (a_in A) (a_in B).
  Proof using Dg Dt. intros H K. destruct (beside_on false p true true K H) as (q & Q1 & Q2). exists q. auto. Qed.
  Lemma on_in_meets p : a_on A p -> a_in B p -> meets (a_in A) (a_in B).
  Proof using Dg Dt. intros H K. destruct (beside_on true p true true H K) as (q & Q1 & Q2). exists q. auto. Qed.
  (* Boundaries that share no segment and stay on one side. *)
  Lemma bounded_sub : ~ share_segment (a_on A) (a_on B) -> ~ meets (a_on A) (a_out B) -> ~ meets (a_on B) (a_in A) -> subset (a_cl A) (a_cl B).
  Proof using Dg Dt.
    intros NS N1 N2 p Hp. destruct (drawn_cases g B p Dg) as [K|[K|K]]; [left; exact K|right; exact K|exfalso].
    destruct Hp as [Hp|Hp]; [|apply N1; exists p; auto].
    assert (Off : forall s, ~ side_has inp s p).
    { intros [|] H; apply ta_has in H; cbn [ar] in H; [exact (proj1 (areas_apart t A Dt p) (conj Hp H))|exact (proj2 (proj2 (areas_apart g B Dg p)) (conj H K))]. }
    destruct (fallen inp IO AP true p) as (eps & O & Fa); [|exact Off|].
    { intros eps O. split; apply (ar_closed _ _ _ _ (ta_areal _) eps O). }
    destruct (ar_low _ _ _ _ (ta_areal true) eps p O (Off true)) as [L1 _]. destruct (ar_low _ _ _ _ (ta_areal false) eps p O (Off false)) as [_ L4]. cbn [ar] in *.
    pose proof (proj1 L1 Hp) as La. pose proof (proj1 L4 K) as Lb. destruct (Fa La) as [(s & x & m & Ix & Fx & Ox & _ & N & L)|G].
    - destruct s; cbn [negb] in *.
      + rewrite Lb in L. apply N1. exists m. split; [apply (ta_has true); exists x; auto|]. apply (ar_low _ _ _ _ (ta_areal false) eps m O N), L.
      + rewrite La in L. apply N2. exists m. split; [apply (ta_has false); exists x; auto|]. apply (ar_low _ _ _ _ (ta_areal true) eps m O N), L.
    - apply NS. apply (gencom_shared eps inp _ O IO) in G. apply (shared_segment inp) in G. destruct G as (u & v & Nu & H). exists u, v. split; [exact Nu|].
      intros z Hz. destruct (H z Hz) as [H1 H2]. split; [apply (ta_has true), H1|apply (ta_has false), H2].
  Qed.
End TwoAreas.

(** * Polygons *)
Section Polygon.
  Variable pg : polygon.
  Hypothesis V : valid_polygon pg.
  Lemma pg_border : simple_contour (border pg). Proof using V. apply V. Qed.
  Lemma pg_holes : valid_multiregion (holes pg). Proof using V. apply V. Qed.
  Lemma pg_hole h : In h (holes pg) -> simple_contour h. Proof using V. apply mr_simple, pg_holes. Qed.
  Lemma pg_within h : In h (holes pg) -> ~ meets (on_contour h) (outside (border pg)).
  Proof using V. intros I (p & P1 & P2). destruct V as (_ & _ & W & _). exact (W h p I P1 P2). Qed.
  Lemma border_hole h p : In h (holes pg) -> on_contour (border pg) p -> inside h p -> False.
  Proof using V. intros I H K. apply (enclosed_out h (border pg) (pg_hole h I) pg_border (pg_within h I)). exists p. auto. Qed.
  Lemma hole_in h p : In h (holes pg) -> inside h p -> inside (border pg) p.
  Proof using V.
    intros I H. destruct (oriented_gives (border pg) false pg_border) as (g & Hg & _). destruct (oriented_gives h false (pg_hole h I)) as (t & Ht & _).
    destruct (bounded_sub g t (region_area h) (region_area (border pg)) (drawn_region _ g pg_border Hg) (drawn_region _ t (pg_hole h I) Ht)) with (p := p) as [K|K].
    - cbn [region_area a_on]. intros Z. destruct V as (_ & _ & _ & N). exact (N h I Z).
    - apply pg_within, I.
    - exact (enclosed_out h (border pg) (pg_hole h I) pg_border (pg_within h I)).
    - left. exact H.
    - exact K.
    - exfalso. exact (border_hole h p I K H).
  Qed.
  Lemma hole_on h p : In h (holes pg) -> on_contour h p -> inside (border pg) p \/ on_contour (border pg) p.
  Proof using V.
    intros I H. destruct (in_cases (border pg) p) as [K|[K|K]]; [left; exact K|right; exact K|exfalso]. apply (pg_within h I). exists p. auto.
  Qed.
  Lemma hole_hole h h' p : In h (holes pg) -> In h' (holes pg) -> inside h p -> on_contour h' p -> False.
  Proof using V.
    intros I I' H K. destruct (mr_two _ h h' pg_holes I I') as [->|Ap]; [exact (proj1 H K)|]. exact (not_both h h' p (pg_hole h I) (pg_hole h' I') Ap H K).
  Qed.
  Definition pg_rings : list (contour * bool) := (border pg, false) :: map (fun h => (h, true)) (holes pg).
  Lemma holes_parity p (f : contour * bool -> bool) (hs : list contour) : valid_multiregion hs -> (forall h, In h hs -> ~ on_contour h p) -> (forall h, In h hs -> inside h p <-> f (h, true) = true) ->
    ((exists h, In h hs /\ inside h p) <-> parity f (map (fun h => (h, true)) hs) = true) /\ ((forall h, In h hs -> outside h p) <-> parity f (map (fun h => (h, true)) hs) = false).
  Proof using Type.
    intros Vh N Hf. set (f' := fun r : contour * bool => f (fst r, true)).
    assert (E : parity f (map (fun h => (h, true)) hs) = parity f' (map (fun h => (h, false)) hs)) by (rewrite !parity_map; apply parity_ext; reflexivity).
    rewrite E. apply (ru_in _ _ (mr_ruled hs Vh) p f').
    - intros r I. apply in_map_iff in I. destruct I as (h & <- & I). exact (N h I).
    - intros r I. apply in_map_iff in I. destruct I as (h & <- & I). exact (Hf h I).
  Qed.
  Lemma pg_ruled : ruled pg_rings (polygon_area pg).
  Proof using V.
    assert (IH : forall h, In h (holes pg) -> In (h, true) pg_rings) by (intros h I; right; apply in_map_iff; exists h; auto).
    constructor.
    - intros p. cbn [polygon_area a_on]. unfold polygon_boundary, pg_rings. split.
      + intros [H|(h & I & H)]; [exists (border pg, false); split; [left; reflexivity|exact H]|]. exists (h, true). split; [exact (IH h I)|exact H].
      + intros (r & [<-|I] & H); [left; exact H|]. apply in_map_iff in I. destruct I as (h & <- & I). right. exists h. auto.
    - cbn [polygon_area a_in a_out a_on]. unfold polygon_interior, polygon_boundary. intros p [[Hb Hh]|[Hb|(h & I & H)]] [K|(h' & I' & K)].
      + exact (proj1 Hb K).
      + exact (proj1 (Hh h' I') K).
      + exact (proj1 Hb K).
      + apply (pg_within h' I'). exists p. auto.
      + exact (border_hole h p I K H).
      + exact (hole_hole h h' p I I' H K).
    - intros p f Off Hf. assert (Nb : ~ on_contour (border pg) p) by (apply (Off (border pg, false)); left; reflexivity).
      pose proof (Hf (border pg, false) (or_introl eq_refl)) as Fb. cbn [fst] in Fb.
      destruct (holes_parity p f (holes pg) pg_holes) as [H1 H2]; [intros h I; exact (Off _ (IH h I))|intros h I; exact (Hf _ (IH h I))|].
      change (parity f pg_rings) with (xorb (f (border pg, false)) (parity f (map (fun h => (h, true)) (holes pg)))).
      cbn [polygon_area a_in a_out]. unfold polygon_interior. rewrite H1, H2.
      assert (Ob : outside (border pg) p <-> f (border pg, false) = false).
      { rewrite <- not_true_iff_false, <- Fb. destruct (in_cases (border pg) p) as [K|[K|K]]; [|contradiction|].
        - split; [intros Z; destruct (in_not_out _ _ K Z)|tauto].
        - split; [intros _ Z; exact (in_not_out _ _ Z K)|tauto]. }
      rewrite Fb, Ob. assert (Imp : parity f (map (fun h => (h, true)) (holes pg)) = true -> f (border pg, false) = true).
      { intros Z. apply H1 in Z. destruct Z as (h & I & Z). apply Fb. exact (hole_in h p I Z). }
      clear - Imp. destruct (f (border pg, false)), (parity f (map (fun h => (h, true)) (holes pg))); try (specialize (Imp eq_refl); discriminate);
        cbn [xorb]; split; split; intros Z; auto; try (destruct Z; congruence); try congruence.
    - intros c k L' p f P Hc Off Hf.
      assert (I : In (c, k) pg_rings) by (apply (Permutation_in _ (Permutation_sym P)); left; reflexivity). unfold pg_rings in *. destruct I as [E|I].
      + injection E as <- <-. apply Permutation_cons_inv in P.
        rewrite <- (parity_perm f _ _ P). apply (holes_parity p f (holes pg) pg_holes).
        * intros h Ih. apply (Off (h, true)). apply (Permutation_in _ P). apply in_map_iff. exists h. auto.
        * intros h Ih. apply (Hf (h, true)). apply (Permutation_in _ P). apply in_map_iff. exists h. auto.
        * intros h Ih. destruct (in_cases h p) as [K|[K|K]]; [destruct (border_hole h p Ih Hc K)| |exact K].
          exfalso. apply (Off (h, true)); [|exact K]. apply (Permutation_in _ P). apply in_map_iff. exists h. auto.
      + apply in_map_iff in I. destruct I as (h & E & I). injection E as -> <-. apply in_split in I. destruct I as (l1 & l2 & El).
        assert (Ph : Permutation (holes pg) (c :: l1 ++ l2)) by (rewrite El; apply Permutation_sym, Permutation_middle).
        assert (P' : Permutation ((border pg, false) :: map (fun h => (h, true)) (l1 ++ l2)) L').
        { apply (Permutation_cons_inv (a := (c, true))). eapply Permutation_trans; [|exact P]. eapply Permutation_trans; [apply perm_swap|]. apply perm_skip.
          apply Permutation_sym. exact (Permutation_map (fun h => (h, true)) Ph). }
        assert (Ic : In c (holes pg)) by (apply (Permutation_in _ (Permutation_sym Ph)); left; reflexivity).
        assert (Il : forall h, In h (l1 ++ l2) -> In h (holes pg)) by (intros h Ih; apply (Permutation_in _ (Permutation_sym Ph)); right; exact Ih).
        assert (IL : forall h, In h (l1 ++ l2) -> In (h, true) L') by (intros h Ih; apply (Permutation_in _ P'); right; apply in_map_iff; exists h; auto).
        assert (Vl : valid_multiregion (l1 ++ l2)).
        { destruct pg_holes as [F A]. apply (Permutation_Forall Ph) in F. apply (fop_perm _ _ _ apart_sym Ph) in A. inversion F; inversion A; split; assumption. }
        assert (IB : In (border pg, false) L') by (apply (Permutation_in _ P'); left; reflexivity).
        rewrite <- (parity_perm f _ _ P'). change (parity f ((border pg, false) :: map (fun h => (h, true)) (l1 ++ l2))) with (xorb (f (border pg, false)) (parity f (map (fun h => (h, true)) (l1 ++ l2)))).
        assert (E1 : f (border pg, false) = true).
        { apply (Hf _ IB). destruct (hole_on c p Ic Hc) as [K|K]; [exact K|]. exfalso. exact (Off _ IB K). }
        assert (E2 : parity f (map (fun h => (h, true)) (l1 ++ l2)) = false).
        { apply (holes_parity p f (l1 ++ l2) Vl).
          - intros h Ih. exact (Off _ (IL h Ih)).
          - intros h Ih. exact (Hf _ (IL h Ih)).
          - intros h Ih. destruct (in_cases h p) as [K|[K|K]]; [destruct (hole_hole h c p (Il h Ih) Ic K Hc)|exfalso; exact (Off _ (IL h Ih) K)|exact K]. }
        rewrite E1, E2. reflexivity.
  Qed.
  Lemma holes_rings : forall hs E, Forall simple_contour hs -> multiregion_oriented_edges hs true = Ok E -> rings (map (fun h => (h, true)) hs) E.
  Proof using Type. intros hs E F HE. exact (mr_rings hs true F E HE). Qed.
  Lemma polygon_rings E : polygon_oriented_edges pg false = Ok E -> rings pg_rings E.
  Proof using V.
    unfold polygon_oriented_edges. cbn [negb]. destruct (to_oriented_edges_endpoints (border pg) false) as [e|] eqn:He; [|discriminate]. cbn [bind].
    destruct (multiregion_oriented_edges (holes pg) true) as [es|] eqn:Hs; [|discriminate]. cbn [bind]. intros Z. injection Z as <-.
    constructor; [exact pg_border|exact He|]. apply holes_rings; [apply pg_holes|exact Hs].
  Qed.
  Lemma drawn_polygon E : polygon_oriented_edges pg false = Ok E -> drawn E (polygon_area pg).
  Proof using V.
    intros HE. destruct (polygon_gives pg false (polygon_contours pg V)) as (E' & HE' & T). rewrite HE in HE'. injection HE' as <-.
    exact (drawn_rings pg_rings E _ (polygon_rings E HE) ltac:(discriminate) T pg_ruled).
  Qed.
  Lemma polygon_cl p : a_cl (polygon_area pg) p -> a_cl (region_area (border pg)) p.
  Proof using V. intros [[H _]|[H|(h & I & H)]]; [left; exact H|right; exact H|]. destruct (hole_on h p I H); [left|right]; assumption. Qed.
  Lemma polygon_tight b : tight b (on_contour (border pg)) -> tight b (a_cl (polygon_area pg)) /\ tight b (polygon_boundary pg).
  Proof using V.
    intros T. pose proof (tight_region _ _ T) as [Tc _]. split.
    - apply (tight_hull b (on_contour (border pg))); [exact T|intros p H; right; left; exact H|]. intros p H. apply Tc, polygon_cl, H.
    - apply (tight_hull b (on_contour (border pg))); [exact T|intros p H; left; exact H|]. intros p H. apply Tc, polygon_cl. right. exact H.
  Qed.
End Polygon.
Lemma pg_edges pg : valid_polygon pg -> exists E, polygon_oriented_edges pg false = Ok E /\ tidy E.
Proof. intros V. exact (polygon_gives pg false (polygon_contours pg V)). Qed.

(** * Multipolygons *)
Definition multipolygon_area_of (l : list polygon) : area := union_area polygon_area l.
Lemma polygons_off a b p : valid_polygon a -> valid_polygon b -> polygons_apart a b -> a_in (polygon_area a) p -> a_on (polygon_area b) p -> False.
Proof.
  intros Va Vb [N _] Ha Hb. destruct (pg_edges a Va) as (t & Ht & _). destruct (pg_edges b Vb) as (g & Hg & _).
  destruct (in_on_meets g t _ _ (drawn_polygon b Vb g Hg) (drawn_polygon a Va t Ht) p Ha Hb) as (q & Q1 & Q2). exact (N q Q1 Q2).
Qed.
Lemma polygons_apart_sym a b : polygons_apart a b -> polygons_apart b a.
Proof. intros [A B]. split; [intros p H K; exact (A p K H)|intros K; apply B, share_sym, K]. Qed.
Definition mp_rings (l : list polygon) : list (contour * bool) := flat_map pg_rings l.
Lemma pg_cases pg p : valid_polygon pg -> a_in (polygon_area pg) p \/ a_on (polygon_area pg) p \/ a_out (polygon_area pg) p.
Proof. intros V. destruct (pg_edges pg V) as (E & HE & _). exact (drawn_cases E _ p (drawn_polygon pg V E HE)). Qed.
Lemma mp_cases l p : Forall valid_polygon l -> a_in (multipolygon_area_of l) p \/ a_on (multipolygon_area_of l) p \/ a_out (multipolygon_area_of l) p.
Proof.
  induction 1 as [|pg l V F IH]; [right; right; intros x []|]. destruct (pg_cases pg p V) as [H|[H|H]].
  - left. exists pg. split; [left; reflexivity|exact H].
  - right. left. exists pg. split; [left; reflexivity|exact H].
  - destruct IH as [(x & I & K)|[(x & I & K)|K]]; [left; exists x; split; [right; exact I|exact K]|right; left; exists x; split; [right; exact I|exact K]|].
    right. right. intros x [<-|I]; [exact H|exact (K x I)].
Qed.
Lemma mp_ruled l : Forall valid_polygon l -> ForallOrdPairs polygons_apart l -> ruled (mp_rings l) (multipolygon_area_of l).
Proof.
  induction l as [|pg l IH]; intros F A.
  - constructor.
    + intros p. split; [intros (x & [] & _)|intros (x & [] & _)].
    + intros p _ (x & [] & _).
    + intros p f _ _. cbn. split; split; try discriminate; try (intros (x & [] & _)); try reflexivity. intros _ x [].
    + intros c k L' p f P. apply Permutation_nil in P. discriminate.
  - inversion F as [|? ? V F']; subst. inversion A as [|? ? A1 A']; subst. specialize (IH F' A'). pose proof (pg_ruled pg V) as Rp. rewrite Forall_forall in A1, F'.
    assert (X1 : forall p, a_in (polygon_area pg) p -> a_on (multipolygon_area_of l) p -> False).
    { intros p H (y & Iy & K). exact (polygons_off pg y p V (F' y Iy) (A1 y Iy) H K). }
    assert (X2 : forall p, a_on (polygon_area pg) p -> a_in (multipolygon_area_of l) p -> False).
    { intros p H (y & Iy & K). exact (polygons_off y pg p (F' y Iy) V (polygons_apart_sym _ _ (A1 y Iy)) K H). }
    assert (X3 : forall p, a_in (polygon_area pg) p -> a_in (multipolygon_area_of l) p -> False).
    { intros p H (y & Iy & K). exact (proj1 (A1 y Iy) p H K). }
    assert (In_ : forall p, a_in (multipolygon_area_of (pg :: l)) p <-> a_in (polygon_area pg) p \/ a_in (multipolygon_area_of l) p).
    { intros p. split; [intros (x & [<-|I] & H); [left; exact H|right; exists x; auto]|]. intros [H|(x & I & H)]; [exists pg|exists x]; (split; [|exact H]); [left; reflexivity|right; exact I]. }
    assert (On_ : forall p, a_on (multipolygon_area_of (pg :: l)) p <-> a_on (polygon_area pg) p \/ a_on (multipolygon_area_of l) p).
    { intros p. split; [intros (x & [<-|I] & H); [left; exact H|right; exists x; auto]|]. intros [H|(x & I & H)]; [exists pg|exists x]; (split; [|exact H]); [left; reflexivity|right; exact I]. }
    assert (Out_ : forall p, a_out (multipolygon_area_of (pg :: l)) p <-> a_out (polygon_area pg) p /\ a_out (multipolygon_area_of l) p).
    { intros p. split; [intros H; split; [apply H; left; reflexivity|intros x I; apply H; right; exact I]|]. intros [H K] x [<-|I]; [exact H|exact (K x I)]. }
    change (mp_rings (pg :: l)) with (pg_rings pg ++ mp_rings l). constructor.
    + intros p. rewrite On_, (ru_on _ _ Rp), (ru_on _ _ IH). split.
      * intros [(r & I & H)|(r & I & H)]; exists r; (split; [apply in_app_iff; auto|exact H]).
      * intros (r & I & H). apply in_app_iff in I. destruct I as [I|I]; [left|right]; exists r; auto.
    + intros p H K. apply On_ in K. rewrite In_, Out_ in H. destruct H as [[H|H]|[H1 H2]], K as [K|K].
      * exact (ru_off _ _ Rp p (or_introl H) K).
      * exact (X1 p H K).
      * exact (X2 p K H).
      * exact (ru_off _ _ IH p (or_introl H) K).
      * exact (ru_off _ _ Rp p (or_intror H1) K).
      * exact (ru_off _ _ IH p (or_intror H2) K).
    + intros p f Off Hf. rewrite In_, Out_, parity_app.
      destruct (ru_in _ _ Rp p f) as [P1 P2]; [intros r I; apply Off, in_app_iff; auto|intros r I; apply Hf, in_app_iff; auto|].
      destruct (ru_in _ _ IH p f) as [Q1 Q2]; [intros r I; apply Off, in_app_iff; auto|intros r I; apply Hf, in_app_iff; auto|].
      pose proof (X3 p) as X. rewrite P1, Q1 in X. rewrite P1, P2, Q1, Q2. clear - X.
      destruct (parity f (pg_rings pg)), (parity f (mp_rings l)); cbn [xorb]; split; split; intros Z; auto; try (destruct Z; congruence); try congruence; exfalso; apply X; reflexivity.
    + intros c k L' p f P Hc Off Hf.
      assert (I : In (c, k) (pg_rings pg ++ mp_rings l)) by (apply (Permutation_in _ (Permutation_sym P)); left; reflexivity).
      apply in_app_iff in I. destruct I as [I|I]; apply in_split in I; destruct I as (l1 & l2 & El).
      * assert (Pl : Permutation (pg_rings pg) ((c, k) :: l1 ++ l2)) by (rewrite El; apply Permutation_sym, Permutation_middle).
        assert (P' : Permutation ((l1 ++ l2) ++ mp_rings l) L').
        { apply (Permutation_cons_inv (a := (c, k))). eapply Permutation_trans; [|exact P]. change ((c, k) :: (l1 ++ l2) ++ mp_rings l) with (((c, k) :: l1 ++ l2) ++ mp_rings l).
          apply Permutation_app_tail, Permutation_sym, Pl. }
        rewrite <- (parity_perm f _ _ P'), parity_app.
        assert (H1 : forall r, In r (l1 ++ l2) -> In r L') by (intros r I; apply (Permutation_in _ P'), in_app_iff; auto).
        assert (H2 : forall r, In r (mp_rings l) -> In r L') by (intros r I; apply (Permutation_in _ P'), in_app_iff; auto).
        rewrite (ru_side _ _ Rp c k (l1 ++ l2) p f Pl Hc); [|intros r I; apply Off, H1, I|intros r I; apply Hf, H1, I].
        assert (E : parity f (mp_rings l) = false); [|rewrite E; apply xorb_false_r].
        apply not_true_iff_false. intros Z. apply (ru_in _ _ IH p f) in Z; [|intros r I; apply Off, H2, I|intros r I; apply Hf, H2, I].
        apply (X2 p); [|exact Z]. apply (ru_on _ _ Rp). exists (c, k). split; [apply (Permutation_in _ (Permutation_sym Pl)); left; reflexivity|exact Hc].
      * assert (Pl : Permutation (mp_rings l) ((c, k) :: l1 ++ l2)) by (rewrite El; apply Permutation_sym, Permutation_middle).
        assert (P' : Permutation (pg_rings pg ++ l1 ++ l2) L').
        { apply (Permutation_cons_inv (a := (c, k))). eapply Permutation_trans; [|exact P]. eapply Permutation_trans; [apply Permutation_middle|].
          apply Permutation_app_head, Permutation_sym, Pl. }
        rewrite <- (parity_perm f _ _ P'), parity_app.
        assert (H1 : forall r, In r (l1 ++ l2) -> In r L') by (intros r I; apply (Permutation_in _ P'), in_app_iff; auto).
        assert (H2 : forall r, In r (pg_rings pg) -> In r L') by (intros r I; apply (Permutation_in _ P'), in_app_iff; auto).
        rewrite (ru_side _ _ IH c k (l1 ++ l2) p f Pl Hc); [|intros r I; apply Off, H1, I|intros r I; apply Hf, H1, I].
        assert (E : parity f (pg_rings pg) = false); [|rewrite E; apply xorb_false_l].
        apply not_true_iff_false. intros Z. apply (ru_in _ _ Rp p f) in Z; [|intros r I; apply Off, H2, I|intros r I; apply Hf, H2, I].
        apply (X1 p); [exact Z|]. apply (ru_on _ _ IH). exists (c, k). split; [apply (Permutation_in _ (Permutation_sym Pl)); left; reflexivity|exact Hc].
Qed.
Lemma rings_app L L' E E' : rings L E -> rings L' E' -> rings (L ++ L') (E ++ E').
Proof. induction 1 as [|c k e L E SC He R IH]; intros H; [exact H|]. cbn [app]. rewrite <- app_assoc. constructor; [exact SC|exact He|exact (IH H)]. Qed.
Lemma polygons_rings l : Forall valid_polygon l -> forall E, polygons_oriented_edges l false = Ok E -> rings (mp_rings l) E.
Proof.
  induction 1 as [|pg l V F IH]; intros E; cbn [polygons_oriented_edges].
  - intros H. injection H as <-. constructor.
  - destruct (polygon_oriented_edges pg false) as [e|] eqn:He; [|discriminate]. cbn [bind]. destruct (polygons_oriented_edges l false) as [es|]; [|discriminate]. cbn [bind].
    intros H. injection H as <-. change (mp_rings (pg :: l)) with (pg_rings pg ++ mp_rings l). apply rings_app; [apply polygon_rings; assumption|apply IH; reflexivity].
Qed.
Lemma drawn_polygons l E : Forall valid_polygon l -> ForallOrdPairs polygons_apart l -> l <> [] -> polygons_oriented_edges l false = Ok E -> drawn E (multipolygon_area_of l).
Proof.
  intros F A N HE. destruct (polygons_gives l false (multipolygon_polygons (MPoly l) (conj F A))) as (E' & HE' & T). rewrite HE in HE'. injection HE' as <-.
  apply (drawn_rings (mp_rings l) E _ (polygons_rings l F E HE)); [|exact T|exact (mp_ruled l F A)].
  destruct l as [|pg l]; [congruence|discriminate].
Qed.
Lemma all_edges_polygons l : all_edges (fun pg => polygon_oriented_edges pg false) l = polygons_oriented_edges l false.
Proof. induction l as [|pg l IH]; [reflexivity|]. cbn [all_edges polygons_oriented_edges]. rewrite IH. reflexivity. Qed.
Lemma mp_filter l f : Forall valid_polygon l -> ForallOrdPairs polygons_apart l -> Forall valid_polygon (filter f l) /\ ForallOrdPairs polygons_apart (filter f l).
Proof.
  intros F A. split; [|apply fop_filter, A]. rewrite Forall_forall in *. intros x I. apply filter_In in I. apply F, I.
Qed.
