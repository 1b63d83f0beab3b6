(* Segments and contours and a polygon: a line from the inside of the border to
   its outside that avoids the common points of the border and the holes has
   points of the interior of the polygon. *)
From Coq Require Import QArith Qcanon List Bool ZArith Lia Permutation.
From Verif Require Import Scalar Base Ground MLinear MSweep MCompound Planar Spec SpecAreas Geom RayParity SegProofs BoxProofs PointProofs EqualProofs
  NoFail OpenProofs Orient Area SegRegion AreaAnswer Drawn Gather Cover Sector AreaQueries ClosedProofs Polygons Inner PolyQueries Areas PolyArea Corner Pieces.
Import ListNotations.
Open Scope Qc_scope.

Lemma even_incl l l' a b x y : incl l' l -> even l a b x y -> even l' a b x y.
Proof. intros I [P H]. split; [exact P|]. intros e J. apply H, I, J. Qed.
Section Through.
  Variable (pg : polygon).
  Hypothesis (V : valid_polygon pg).
  Local Notation l := (polygon_edges pg).
  Lemma ring_even c a b x y : In c (border pg :: holes pg) -> even l a b x y -> even (cyc_pairs (vertices c)) a b x y.
  Proof using Type. intros I. apply even_incl. intros e J. exact (in_contours_edges _ c e I J). Qed.
  Lemma ring_place c a b x y : In c (border pg :: holes pg) -> even l a b x y -> uniform (inside c) x y /\ uniform (outside c) x y.
  Proof using V.
    intros I Ev. apply (place_even c) with (a := a) (b := b); [|exact (ring_even c a b x y I Ev)]. destruct I as [<-|I]; [exact (pg_border pg V)|exact (pg_hole pg V c I)].
  Qed.
  Lemma holes_even a b x y : even l a b x y -> uniform (fun p => exists h, In h (holes pg) /\ ~ outside h p) x y.
  Proof using V. intros Ev. apply uniform_some. intros h I. apply uniform_not. exact (proj2 (ring_place h a b x y (or_intror I) Ev)). Qed.
  Lemma not_holes p : (forall h, In h (holes pg) -> outside h p) <-> ~ (exists h, In h (holes pg) /\ ~ outside h p).
  Proof using V.
    split; [intros H (h & I & N); exact (N (H h I))|]. intros N h I. destruct (in_cases h p) as [K|[K|K]]; [| |exact K]; exfalso; apply N; exists h; (split; [exact I|]); intros Z;
      [exact (inside_not_outside h p (pg_hole pg V h I) K Z)|exact (outside_not_on h p (pg_hole pg V h I) Z K)].
  Qed.
  Lemma polygon_in_even a b x y : even l a b x y -> uniform (polygon_interior pg) x y.
  Proof using V.
    intros Ev. apply (uniform_ext (fun p => inside (border pg) p /\ ~ (exists h, In h (holes pg) /\ ~ outside h p))).
    - intros p. unfold polygon_interior. rewrite not_holes. tauto.
    - apply uniform_and; [exact (proj1 (ring_place (border pg) a b x y (or_introl eq_refl) Ev))|apply uniform_not, (holes_even a b x y Ev)].
  Qed.
  Lemma polygon_in_dec p : polygon_interior pg p \/ ~ polygon_interior pg p.
  Proof using V.
    pose proof (shaped_polygon pg V) as S. destruct (sh_cases _ p S) as [K|[K|K]]; [left; exact K|right|right]; intros Z; [exact (sh_in_on _ p S Z K)|exact (sh_in_out _ p S Z K)].
  Qed.
  Lemma segment_inner a b : (exists p, on_segment a b p /\ polygon_interior pg p) \/ (forall p, on_segment a b p -> ~ polygon_interior pg p).
  Proof using V.
    destruct (pt_dec a b) as [<-|N].
    - destruct (polygon_in_dec a) as [K|K]; [left; exists a; split; [apply on_segment_start|exact K]|right]. intros p (t & _ & _ & ->).
      replace (lerp a a t) with a; [exact K|apply pt_eq; cbn; ring].
    - exact (chain_decide _ _ a b (even_chain l a b N) (fun x y => polygon_in_even a b x y) polygon_in_dec).
  Qed.
  (* Without interior points of the polygon the closed holes are not left. *)
  Lemma stay_in_holes a b : clear_border (on_segment a b) pg -> (forall p, on_segment a b p -> ~ polygon_interior pg p) ->
    (exists h, In h (holes pg) /\ ~ outside h a) -> inside (border pg) a -> (exists h, In h (holes pg) /\ ~ outside h b) /\ inside (border pg) b.
  Proof using V.
    intros Cl N Ka Ia. destruct (pt_dec a b) as [E|Ne]; [rewrite <- E; auto|].
    assert (Clash : forall p, on_segment a b p -> (exists h, In h (holes pg) /\ ~ outside h p) -> ~ inside (border pg) p -> False).
    { intros p Hp (h & I & K) NB. destruct (in_cases h p) as [Z|[Z|Z]]; [exact (NB (hole_in pg V h p I Z))| |exact (K Z)].
      destruct (hole_on pg V h p I Z) as [Q|Q]; [exact (NB Q)|exact (Cl h p I Hp Q Z)]. }
    assert (G : exists h, In h (holes pg) /\ ~ outside h b).
    { apply (chain_connected _ (fun p => exists h, In h (holes pg) /\ ~ outside h p) (fun p => ~ inside (border pg) p) a b (even_chain l a b Ne)).
      - intros x y Ev. exact (holes_even a b x y Ev).
      - apply (closed_some (fun h p => ~ outside h p)). intros h I. exact (closed_region h (pg_hole pg V h I)).
      - exact (closed_around _ (pg_border pg V)).
      - intros p Hp. destruct (in_cases (border pg) p) as [K|[K|K]].
        + left. destruct (list_or (fun h => ~ outside h p) (fun h => match point_in_region p h with EXTERIOR => false | _ => true end) (holes pg)) as [G|G]; [|exact G|].
          * intros h. destruct (point_in_region_exact_l p h) as (_ & O & _). destruct (point_in_region p h) eqn:E; split; try congruence; try (intros _ Z; apply O in Z; discriminate). intros Z. destruct Z. apply O. reflexivity.
          * destruct (N p Hp). split; [exact K|apply not_holes, G].
        + right. intros Z. exact (inside_not_on _ p (pg_border pg V) Z K).
        + right. intros Z. exact (inside_not_outside _ p (pg_border pg V) Z K).
      - exact Clash.
      - exact Ka. }
    split; [exact G|]. destruct (in_cases (border pg) b) as [K|[K|K]]; [exact K|exfalso|exfalso]; apply (Clash b (on_segment_end a b) G); intros Z; [exact (inside_not_on _ b (pg_border pg V) Z K)|exact (inside_not_outside _ b (pg_border pg V) Z K)].
  Qed.
  Lemma in_holes p : inside (border pg) p -> ~ polygon_interior pg p -> exists h, In h (holes pg) /\ ~ outside h p.
  Proof using V.
    intros K N. destruct (list_or (fun h => ~ outside h p) (fun h => match point_in_region p h with EXTERIOR => false | _ => true end) (holes pg)) as [G|G]; [|exact G|].
    - intros h. destruct (point_in_region_exact_l p h) as (_ & O & _). destruct (point_in_region p h) eqn:E; split; try congruence; try (intros _ Z; apply O in Z; discriminate). intros Z. destruct Z. apply O. reflexivity.
    - destruct N. split; [exact K|apply not_holes, G].
  Qed.
  Lemma segment_through s : clear_border (in_segment s) pg -> meets (in_segment s) (inside (border pg)) -> (exists p, in_segment s p /\ ~ inside (border pg) p) -> meets (in_segment s) (polygon_interior pg).
  Proof using V.
    intros Cl (p & P1 & P2) (q & Q1 & Q2). destruct (segment_inner (s_start s) (s_end s)) as [(z & Z1 & Z2)|N]; [exists z; split; assumption|exfalso].
    assert (S : forall z, on_segment p q z -> in_segment s z) by (intros z Z; exact (on_segment_convex _ _ p q z P1 Q1 Z)).
    apply Q2. refine (proj2 (stay_in_holes p q _ _ (in_holes p P2 (N p P1)) P2)); [intros h z I Z; exact (Cl h z I (S z Z))|intros z Z; exact (N z (S z Z))].
  Qed.
  Lemma contour_through c : clear_border (on_contour c) pg -> meets (on_contour c) (inside (border pg)) -> (exists p, on_contour c p /\ ~ inside (border pg) p) -> meets (on_contour c) (polygon_interior pg).
  Proof using V.
    intros Cl (p & P1 & P2) (q & Q1 & Q2). destruct (contour_find c (polygon_interior pg) segment_inner) as [M|N]; [exact M|exfalso].
    apply Q2. refine (proj2 (contour_spread c (fun z => (exists h, In h (holes pg) /\ ~ outside h z) /\ inside (border pg) z) p q _ P1 Q1 (conj (in_holes p P2 _) P2))).
    - intros a b S [K I]. refine (stay_in_holes a b _ _ K I); [intros h z J Z; exact (Cl h z J (S z Z))|intros z Z W; apply N; exists z; split; [exact (S z Z)|exact W]].
    - intros W. apply N. exists p. auto.
  Qed.
  (* The relations to the border and to the holes give the one to the polygon. *)
  Section Line.
    Variable (X : point -> Prop) (r h : relation).
    Hypothesis (Thr : meets X (inside (border pg)) -> (exists p, X p /\ ~ inside (border pg) p) -> meets X (polygon_interior pg)).
    Hypothesis (S : linear_areal_spec X (region_area (border pg)) r).
    Let P : area := polygon_area pg.
    Lemma line_out p : outside (border pg) p -> a_out P p.
    Proof using Type. intros K. left. exact K. Qed.
    Lemma line_border : r <> WITHIN -> r <> ENCLOSED -> linear_areal_spec X P r.
    Proof using Thr S V.
      intros N1 N2. destruct r; try (destruct S; fail); try congruence.
      - intros p Hp. left. exact (S p Hp).
      - destruct S as (A & (p & P1 & P2) & (q & Q1 & Q2)). split; [intros (z & Z1 & Z2); apply A; exists z; split; [exact Z1|apply Z2]|]. split; [exists p; split; [exact P1|left; exact P2]|exists q; split; [exact Q1|left; exact Q2]].
      - destruct S as (A & (q & Q1 & Q2)). split; [|exists q; split; [exact Q1|left; exact Q2]]. apply Thr; [exact A|]. exists q. split; [exact Q1|]. intros Z. exact (inside_not_outside _ q (pg_border pg V) Z Q2).
      - intros p Hp. left. exact (S p Hp).
    Qed.
    Hypothesis (T : linear_areal_spec X (multiregion_area (holes pg)) h) (NH : holes pg <> []) (Ne : exists p, X p) (W : r = WITHIN \/ r = ENCLOSED).
    Lemma line_within p : X p -> inside (border pg) p \/ on_contour (border pg) p.
    Proof using S W. intros Hp. destruct W as [E|E]; rewrite E in S; [left; exact (S p Hp)|]. destruct (in_cases (border pg) p) as [K|[K|K]]; [auto|auto|exfalso]. apply (proj1 S). exists p. auto. Qed.
    Lemma line_inner p : X p -> a_out (multiregion_area (holes pg)) p -> meets X (polygon_interior pg).
    Proof using S W Thr.
      intros Hp O. destruct W as [E|E]; rewrite E in S; [exists p; split; [exact Hp|]; split; [exact (S p Hp)|exact O]|]. destruct S as (_ & A & (q & Q1 & Q2)). apply Thr; [exact A|].
      exists q. split; [exact Q1|]. intros Z. exact (proj1 Z Q2).
    Qed.
    Lemma line_polygon : linear_areal_spec X P (match h with DISJOINT => r | TOUCH => ENCLOSED | ENCLOSED => TOUCH | WITHIN => DISJOINT | _ => h end).
    Proof using S T W Thr V NH.
      pose proof (shaped_multiregion _ (pg_holes pg V) NH) as SH. pose proof (shaped_polygon pg V) as SP.
      destruct h; try (destruct T; fail).
      - destruct W as [E|E]; pose proof S as S0; rewrite E in S0 |- *.
        + intros p Hp. split; [exact (S0 p Hp)|exact (T p Hp)].
        + destruct S0 as (A & (p & P1 & P2) & (q & Q1 & Q2)). split; [|split; [exists p; split; [exact P1|split; [exact P2|exact (T p P1)]]|exists q; split; [exact Q1|left; exact Q2]]].
          intros (z & Z1 & [Z2|Z2]); [apply A; exists z; auto|exact (sh_in_out _ z SH Z2 (T z Z1))].
      - destruct T as (A & (p & P1 & P2) & (q & Q1 & Q2)). split; [|split; [exact (line_inner q Q1 Q2)|exists p; split; [exact P1|right; exact P2]]].
        intros (z & Z1 & [Z2|Z2]); [|apply A; exists z; auto]. destruct (line_within z Z1) as [K|K]; [exact (inside_not_outside _ z (pg_border pg V) K Z2)|exact (outside_not_on _ z (pg_border pg V) Z2 K)].
      - destruct T as ((p & P1 & P2) & (q & Q1 & Q2)). split; [exact (line_inner q Q1 Q2)|exists p; split; [exact P1|right; exact P2]].
      - intros p Hp. right. exact (T p Hp).
      - destruct T as (A & (p & P1 & P2) & (q & Q1 & Q2)). split; [|split; [exists q; split; [exact Q1|right; exact Q2]|exists p; split; [exact P1|right; exact P2]]].
        intros (z & Z1 & [_ Z2]). apply A. exists z. split; [exact Z1|exact Z2].
      - intros p Hp. right. exact (T p Hp).
    Qed.
  End Line.
  Lemma line_answer X rel : (exists p, X p) -> linear_areal_spec X (polygon_area pg) rel -> answer_is (linear_areal_spec X (polygon_area pg)) (Ok rel).
  Proof using V. intros Ne S. exists rel. split; [reflexivity|]. split; [exact S|]. intros rel' S'. exact (linear_areal_unique X _ rel rel' Ne (polygon_apart_area pg V) S S'). Qed.
  Lemma segment_in_polygon_of s : nondegenerate s -> answer_is (linear_areal_spec (in_segment s) (region_area (border pg))) (segment_in_region s (border pg)) ->
    meet_at_ends (in_segment s) (contours_edges (holes pg)) -> clear_border (in_segment s) pg ->
    answer_is (linear_areal_spec (in_segment s) (polygon_area pg)) (segment_in_polygon s pg).
  Proof using V.
    intros D (r & Er & Sr & _) M Cl. assert (Ne : exists p, in_segment s p) by (exists (s_start s); apply on_segment_start). unfold segment_in_region in Er. unfold segment_in_polygon, polygon_relate_segment. rewrite Er. cbn [bind].
    pose proof (segment_through s Cl) as Thr. assert (HD : holes pg = [] \/ holes pg <> []) by (destruct (holes pg); [left; reflexivity|right; discriminate]). destruct HD as [E|NH].
    - rewrite E. cbn [nonempty andb]. apply (line_answer _ _ Ne). apply (linear_areal_ext _ _ _ _ (fun p => iff_refl _) (bare_area pg E)). exact Sr.
    - replace (nonempty (holes pg)) with true by (destruct (holes pg); [congruence|reflexivity]). cbn [andb]. destruct (relation_eqb r WITHIN || relation_eqb r ENCLOSED) eqn:Q.
      + destruct (segment_in_multiregion_exact_l s _ D (pg_holes pg V) NH M) as (h & Eh & Sh & _). unfold segment_in_multiregion in Eh. rewrite Eh. cbn [bind]. apply (line_answer _ _ Ne).
        apply (line_polygon (in_segment s) r h Thr Sr Sh NH). destruct r; try discriminate Q; auto.
      + apply (line_answer _ _ Ne). apply (line_border _ _ Thr Sr); intros Z; rewrite Z in Q; discriminate.
  Qed.
  Lemma contour_in_polygon_exact_l c : simple_contour c -> meet_at_ends (on_contour c) (contours_edges (holes pg)) -> clear_border (on_contour c) pg ->
    answer_is (linear_areal_spec (on_contour c) (polygon_area pg)) (contour_in_polygon c pg).
  Proof using V.
    intros C M Cl. destruct (contour_box_tight _ (simple_nonempty c C)) as (cb & Eb & Tb). assert (Ne : exists p, on_contour c p) by (destruct Tb as (_ & (p & Hp & _) & _); exists p; exact Hp).
    destruct (contour_in_region_exact_l c _ C (pg_border pg V)) as (r & Er & Sr & _). unfold contour_in_region, region_relate_contour in Er. rewrite Eb in Er. cbn [bind] in Er.
    unfold contour_in_polygon, polygon_relate_contour. rewrite Eb. cbn [bind]. rewrite Er. cbn [bind].
    pose proof (contour_through c Cl) as Thr. assert (HD : holes pg = [] \/ holes pg <> []) by (destruct (holes pg); [left; reflexivity|right; discriminate]). destruct HD as [E|NH].
    - rewrite E. cbn [nonempty andb]. apply (line_answer _ _ Ne). apply (linear_areal_ext _ _ _ _ (fun p => iff_refl _) (bare_area pg E)). exact Sr.
    - replace (nonempty (holes pg)) with true by (destruct (holes pg); [congruence|reflexivity]). cbn [andb]. destruct (relation_eqb r ENCLOSED || relation_eqb r WITHIN) eqn:Q.
      + destruct (contour_in_multiregion_exact_l c _ C (pg_holes pg V) NH M) as (h & Eh & Sh & _). unfold contour_in_multiregion, multiregion_relate_contour in Eh. rewrite Eb in Eh. cbn [bind] in Eh. rewrite Eh. cbn [bind]. apply (line_answer _ _ Ne).
        assert (W : r = WITHIN \/ r = ENCLOSED) by (destruct r; try discriminate Q; auto).
        pose proof (line_polygon (on_contour c) r h Thr Sr Sh NH W) as L. destruct h; try (destruct Sh; fail); exact L.
      + apply (line_answer _ _ Ne). apply (line_border _ _ Thr Sr); intros Z; rewrite Z in Q; discriminate.
  Qed.
End Through.
Lemma segment_in_polygon_exact_l s pg : nondegenerate s -> valid_polygon pg -> ~ share_segment (in_segment s) (on_contour (border pg)) -> ends_settled s (border pg) ->
  meet_at_ends (in_segment s) (contours_edges (holes pg)) -> clear_border (in_segment s) pg ->
  answer_is (linear_areal_spec (in_segment s) (polygon_area pg)) (segment_in_polygon s pg).
Proof. intros D V NS ES. apply (segment_in_polygon_of pg V s D). exact (segment_in_region_exact_l s _ D (pg_border pg V) NS ES). Qed.
Lemma segment_in_polygon_outside_l s pg : nondegenerate s -> valid_polygon pg -> ~ share_segment (in_segment s) (on_contour (border pg)) -> ends_settled s (border pg) ->
  meet_at_ends (in_segment s) (contours_edges (holes pg)) -> clear_border (in_segment s) pg ->
  (forall p, in_segment s p -> ~ polygon_interior pg p) ->
  segment_in_polygon s pg = Ok DISJOINT \/ segment_in_polygon s pg = Ok TOUCH \/ segment_in_polygon s pg = Ok COMPONENT.
Proof.
  intros N V NS E M C O. destruct (segment_in_polygon_exact_l s pg N V NS E M C) as (rel & -> & S & _).
  assert (H : in_segment s (s_start s)) by apply on_segment_start.
  destruct rel; cbn [linear_areal_spec] in S; try contradiction; auto; exfalso.
  - destruct S as [(p & P1 & P2) _]. exact (O p P1 P2).
  - destruct S as (_ & (p & P1 & P2) & _). exact (O p P1 P2).
  - exact (O _ H (S _ H)).
Qed.
