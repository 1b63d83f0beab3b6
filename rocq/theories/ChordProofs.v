(* Segments in regions and polygons, whether or not they run along the border. *)
From Coq Require Import QArith Qcanon List Bool ZArith Lia.
From Verif Require Import Scalar Base Ground MLinear MSweep MCompound Planar Spec SpecAreas SpecAround SpecContact SpecMore SpecRings SpecNested SpecLines SpecChord Geom RayParity SegProofs PointProofs EqualProofs
  NoFail RangeProofs RefuteProofs Orient SegMulti SegContour SegEdges SegStraight Corner SegRegion SegTold Area AreaAnswer Drawn Areas PolyArea Polygons PolyQueries PolyLine ContactProofs EdgeByEdge NestedProofs LinesProofs.
Import ListNotations.
Open Scope Qc_scope.

Section Region.
  Variables (s : segment) (c : contour).
  Hypothesis (N : nondegenerate s) (C : simple_contour c).
  Let X := in_segment s.
  Let Y := on_contour c.
  Local Notation Sp := (linear_areal_spec X (region_area c)).
  Lemma ch_some : exists p, X p.
  Proof using Type. exists (s_start s). apply on_segment_start. Qed.
  Lemma ch_share_dec : share_segment X Y \/ ~ share_segment X Y.
  Proof using N C.
    destruct (existsb (fun e => match segments_relation s e with TOUCH | CROSS | DISJOINT => false | _ => true end) (contour_segments c)) eqn:E.
    - left. apply existsb_exists in E. destruct E as (e & I & R). destruct (rel_cases s e) as [K|[K|[K|[K|K]]]].
      + apply (one_edge_share s c N). apply (one_edge s c N C). exists e. auto.
      + apply (one_edge_share s c N). apply (one_edge s c N C). exists e. auto.
      + apply (long_share s c N C e I). auto.
      + apply (long_share s c N C e I). auto.
      + exfalso. destruct K as [K|[K|K]]; rewrite K in R; discriminate.
    - right. apply (all_short_finite s c N C). intros e I. destruct (rel_cases s e) as [K|[K|[K|[K|K]]]]; try exact K; exfalso;
        (assert (Q : existsb (fun e => match segments_relation s e with TOUCH | CROSS | DISJOINT => false | _ => true end) (contour_segments c) = true) by (apply existsb_exists; exists e; rewrite K; auto)); congruence.
  Qed.
  Lemma ch_settled_dec : ends_settled s c \/ ~ ends_settled s c.
  Proof using C.
    unfold ends_settled. assert (D : forall p, on_contour c p \/ ~ on_contour c p).
    { intros p. destruct (in_cases c p) as [K|[K|K]]; [right|left; exact K|right]; intros Q; [exact (proj1 K Q)|exact (proj1 K Q)]. }
    destruct (D (s_start s)) as [A|A]; [|left; left; exact A]. destruct (D (s_end s)) as [B|B]; [|left; right; left; exact B].
    assert (L : interior_on_left c \/ ~ interior_on_left c).
    { rewrite (interior_left_ccw c C). destruct (contour_orientation c) as [[]|]; try (right; discriminate). left. reflexivity. }
    destruct L as [L|L]; [left; right; right; right; exact L|].
    destruct (in_dec pt_dec (s_start s) (vertices c)) as [I|I]; [right; tauto|]. destruct (in_dec pt_dec (s_end s) (vertices c)) as [J|J]; [right; tauto|]. left. right. right. left. auto.
  Qed.
  Lemma ch_cross : ~ share_segment X Y -> Sp CROSS -> segment_in_region s c = Ok CROSS.
  Proof using N C.
    intros NS ((p & P1 & P2) & (q & Q1 & Q2)). cbn [a_in a_out region_area] in *.
    destruct (region_cases s c C) as [((e & I & R) & _)|[(_ & A)|(NF & _)]].
    - exfalso. destruct (ns_short s c N C NS e I) as [Q|[Q|Q]], R as [R|R]; congruence.
    - apply (code_of s c _ A); auto.
    - exfalso. pose proof (nf_same s c N C NS NF p q P1 Q1 (proj1 P2) (proj1 Q2)) as E. apply inside_location in P2. apply outside_location in Q2. congruence.
  Qed.
  Lemma ch_leaves z t : X z -> X t -> leaves c z t -> meets X (outside c).
  Proof using Type.
    intros Z T (d & D0 & D1 & H). exists (lerp z t d). split; [|apply H; [exact D0|qlra]]. apply (on_segment_convex _ _ z t _ Z T). exists d. split; [qlra|]. split; [exact D1|reflexivity].
  Qed.
  Lemma ch_out : ends_out s c -> meets X (outside c).
  Proof using Type.
    assert (XS : X (s_start s)) by apply on_segment_start. assert (XE : X (s_end s)) by apply on_segment_end.
    intros [K|(_ & [K|(_ & [K|(_ & K)])])]; [exists (s_start s); auto|exists (s_end s); auto|exact (ch_leaves _ _ XE XS K)|exact (ch_leaves _ _ XS XE K)].
  Qed.
  (* TOUCH is right about the points outside. *)
  Lemma segment_touch_out : ends_settled s c -> segment_in_region s c = Ok TOUCH -> meets X (outside c).
  Proof using N C.
    intros ES E. destruct (segment_in_region_told_l s c N C ES) as (r & E' & T & _). rewrite E in E'. injection E' as <-. apply ch_out. apply T.
  Qed.
  Lemma segment_in_region_amiss_l : exists rel y, segment_in_region s c = Ok rel /\ Sp y /\ (rel = y \/ told_amiss s c rel y).
  Proof using N C.
    destruct (line_total (LSegment s) (GRegion c) N C) as (y & T). cbn [line_set geo_area] in T. fold X in T.
    pose proof (shaped_region c C) as SA. destruct (segment_in_region_plain_l s c N (simple_nondegenerate c C)) as (P1 & P2 & P3).
    assert (R : exists r, segment_in_region s c = Ok r /\ In r linear_areal_relations).
    { destruct (region_relate_segment_returns c s C) as (r & E). exists r. split; [exact E|].
      destruct (linear_areal_range_l s (MSeg []) c c [] (Poly c []) (MPoly [])) as (Q & _). unfold segment_in_region in Q. rewrite E in Q. exact Q. }
    destruct R as (r & E & I). exists r, y. split; [exact E|]. split; [exact T|].
    assert (U : Sp r -> r = y) by (intros K; exact (line_one _ _ _ _ SA ch_some T K)).
    destruct (segment_in_region_cross_iff_l s c N C) as (_ & P4).
    destruct I as [<-|[<-|[<-|[<-|[<-|[<-|[]]]]]]].
    - left. apply U. apply P1, E.
    - destruct y; try (destruct T; fail).
      + exfalso. assert (K := proj2 P1 T). congruence.
      + left. reflexivity.
      + right. right. left. split; [auto|]. split; [reflexivity|]. destruct ch_share_dec as [K|K]; [exact K|]. pose proof (ch_cross K T). congruence.
      + right. right. right. right. split; [reflexivity|]. split; [auto|]. intros ES. destruct (segment_touch_out ES E) as (p & A & B). exact (sh_on_out _ p SA (T p A) B).
      + right. right. right. right. split; [reflexivity|]. split; [auto|]. intros ES. apply (proj1 T). exact (segment_touch_out ES E).
      + exfalso. assert (K := proj2 P2 T). congruence.
    - left. apply U. exact (segment_in_region_cross_l s c N C E).
    - left. apply U. exact (P3 E).
    - destruct y; try (destruct T; fail).
      + exfalso. assert (K := proj2 P1 T). congruence.
      + right. right. right. left. split; [reflexivity|]. split; [reflexivity|].
        assert (XS : X (s_start s)) by apply on_segment_start. assert (XE : X (s_end s)) by apply on_segment_end. destruct T as (T1 & T2 & T3).
        assert (On : forall p, X p -> ~ outside c p -> on_contour c p) by (intros p Xp O; destruct (in_cases c p) as [K|[K|K]]; [destruct T1; exists p; auto|exact K|contradiction]).
        destruct ch_settled_dec as [ES|ES].
        * destruct (segment_in_region_told_l s c N C ES) as (r & E' & O & _). rewrite E in E'. injection E' as <-. destruct O as (_ & _ & _ & O).
          assert (OS : on_contour c (s_start s)) by (apply On; [exact XS|intros K; apply O; left; exact K]).
          assert (OE : on_contour c (s_end s)) by (apply On; [exact XE|intros K; apply O; right; split; [exact OS|left; exact K]]).
          split; [split; assumption|]. left. destruct ch_share_dec as [K|K]; [exact K|exfalso].
          destruct (segment_in_region_exact_l s c N C K ES) as (r & E' & Q & _). rewrite E in E'. injection E' as <-. pose proof (line_one _ _ _ _ SA ch_some Q (conj T1 (conj T2 T3) : Sp TOUCH)). discriminate.
        * split; [|right; exact ES]. split; apply On; try assumption; intros K; apply ES; [left|right; left]; exact (proj1 K).
      + right. right. left. split; [auto|]. split; [reflexivity|]. destruct ch_share_dec as [K|K]; [exact K|]. pose proof (ch_cross K T). congruence.
      + right. left. split; [reflexivity|]. split; [reflexivity|]. intros K. apply P4 in K. congruence.
      + left. reflexivity.
      + exfalso. assert (K := proj2 P2 T). congruence.
    - left. apply U. apply P2, E.
  Qed.
End Region.

Section Polygon.
  Variables (s : segment) (pg : polygon).
  Hypothesis (N : nondegenerate s) (V : valid_polygon pg).
  Let X := in_segment s.
  Let P : area := polygon_area pg.
  (* What is answered for the border and, if it is asked for, for the holes. *)
  Lemma ch_parts : exists r x, segment_in_region s (border pg) = Ok r /\ segment_in_polygon s pg = Ok x
    /\ ((x = r /\ ((r = WITHIN \/ r = ENCLOSED) -> holes pg = [] \/ subset X (a_out (multiregion_area (holes pg)))))
        \/ ((r = WITHIN \/ r = ENCLOSED) /\ holes pg <> [] /\ exists h, linear_areal_spec X (multiregion_area (holes pg)) h
            /\ (x = match h with TOUCH => ENCLOSED | ENCLOSED => TOUCH | WITHIN => DISJOINT | _ => h end /\ h <> DISJOINT \/ x = CROSS /\ h = ENCLOSED))).
  Proof using N V.
    pose proof (pg_border pg V) as Bd. destruct (region_relate_segment_returns (border pg) s Bd) as (r & E). exists r.
    unfold segment_in_region, segment_in_polygon, polygon_relate_segment. rewrite E. cbn [bind].
    assert (HD : holes pg = [] \/ holes pg <> []) by (destruct (holes pg); [left; reflexivity|right; discriminate]). destruct HD as [H|NH].
    - exists r. rewrite H. cbn [nonempty andb]. split; [reflexivity|]. split; [reflexivity|]. left. auto.
    - replace (nonempty (holes pg)) with true by (destruct (holes pg); [congruence|reflexivity]). cbn [andb]. destruct (relation_eqb r WITHIN || relation_eqb r ENCLOSED) eqn:Q.
      + assert (W : r = WITHIN \/ r = ENCLOSED) by (destruct r; try discriminate Q; auto).
        destruct (segment_in_multiregion_or_l s _ N (pg_holes pg V) NH) as [(h & Eh & Sh & _)|(Eh & _ & Sh)]; unfold segment_in_multiregion in Eh; rewrite Eh; cbn [bind].
        * eexists. split; [reflexivity|]. split; [reflexivity|]. destruct h; try (destruct Sh; fail); [left; split; [reflexivity|intros _; right; exact Sh]|..];
            (right; split; [exact W|]; split; [exact NH|]; eexists; split; [exact Sh|]; left; split; [reflexivity|discriminate]).
        * exists CROSS. split; [reflexivity|]. split; [reflexivity|]. right. split; [exact W|]. split; [exact NH|]. exists ENCLOSED. split; [exact Sh|right; auto].
      + exists r. split; [reflexivity|]. split; [reflexivity|]. left. split; [reflexivity|]. intros W. exfalso. destruct W as [-> | ->]; discriminate Q.
  Qed.
  Lemma segment_polygon_sides_l :
    (segment_in_polygon s pg = Ok CROSS -> meets X (a_out P)) /\ (segment_in_polygon s pg = Ok COMPONENT -> subset X (a_on P))
    /\ (ends_settled s (border pg) -> segment_in_polygon s pg = Ok TOUCH -> meets X (a_out P)).
  Proof using N V.
    pose proof (pg_border pg V) as Bd. destruct ch_parts as (r & x & E & -> & H).
    assert (OB : meets X (outside (border pg)) -> meets X (a_out P)) by (intros (p & A & B); exists p; split; [exact A|left; exact B]).
    assert (OH : meets X (a_in (multiregion_area (holes pg))) -> meets X (a_out P)) by (intros (p & A & B); exists p; split; [exact A|right; exact B]).
    destruct H as [(-> & _)|(W & NH & h & Sh & K)].
    - split; [intros Q; injection Q as ->; apply OB, (segment_in_region_cross_l s _ N Bd E)|]. split.
      + intros Q. injection Q as ->. intros p Hp. left. exact (proj2 (proj2 (segment_in_region_plain_l s _ N (simple_nondegenerate _ Bd))) E p Hp).
      + intros ES Q. injection Q as ->. apply OB, (segment_touch_out s _ N Bd ES E).
    - split; [|split; [|intros _]]; intros Q; injection Q as ->.
      + destruct K as [(K & _)|(_ & ->)]; [destruct h; try discriminate K|]; apply OH; apply Sh.
      + destruct K as [(K & _)|(K & _)]; [destruct h; try discriminate K|discriminate]. intros p Hp. right. exact (Sh p Hp).
      + destruct K as [(K & _)|(K & _)]; [destruct h; try discriminate K|discriminate]. apply OH, Sh.
  Qed.
End Polygon.

(** * Covered lines *)
Lemma covered_out l a : geo_valid a -> subset (line_set l) (a_cl (geo_area a)) -> ~ meets (line_set l) (a_out (geo_area a)).
Proof.
  intros V H (p & A & B). pose proof (geo_shaped a V) as SA. destruct (H p A) as [K|K]; [exact (sh_in_out _ p SA K B)|exact (sh_on_out _ p SA K B)].
Qed.
Lemma line_covered_l l a x : line_valid l -> geo_valid a -> line_ends_settled l a -> asked_line l a x -> subset (line_set l) (a_cl (geo_area a)) ->
  (exists r, x = Ok r /\ inside_relation r) \/ x = Ok CROSS /\ inside_missed l a.
Proof.
  intros Vl V St Q H. pose proof (covered_out l a V H) as NO.
  assert (F : line_settled l a -> (exists r, x = Ok r /\ inside_relation r) \/ x = Ok CROSS /\ inside_missed l a) by (intros L; exact (proj2 (proj2 (proj2 (line_facts_l l a x Vl V L Q))) H)).
  destruct Q; try (apply F; exact I); left; cbn [line_valid geo_valid line_ends_settled line_set geo_area] in *.
  - destruct (segment_in_region_amiss_l s r Vl V) as (rel & y & E & Sy & K). exists rel. split; [exact E|].
    assert (Iy : inside_relation y).
    { unfold inside_relation. destruct y; try (destruct Sy; fail); cbn; auto; exfalso; apply NO.
      - exists (s_start s). split; [apply on_segment_start|apply Sy, on_segment_start].
      - apply Sy.
      - apply Sy. }
    destruct K as [->|[(-> & _)|[(_ & -> & _)|[(_ & -> & _)|(_ & _ & K)]]]]; [exact Iy|cbn; auto|destruct Iy as [Iy|[Iy|[Iy|[]]]]; discriminate|destruct Iy as [Iy|[Iy|[Iy|[]]]]; discriminate|contradiction].
  - destruct (ch_parts s pg Vl V) as (_ & x & _ & E & _). destruct (segment_polygon_sides_l s pg Vl V) as (A & _ & B). destruct (segment_in_polygon_one s pg Vl V) as (D & _).
    exists x. split; [exact E|]. destruct (linear_areal_range_l s (MSeg []) (border pg) (border pg) [] pg (MPoly [])) as (_ & _ & _ & _ & _ & _ & R & _). rewrite E in *. cbn [answers] in R.
    destruct R as [<-|[<-|[<-|[<-|[<-|[<-|[]]]]]]]; try (cbn; auto; fail); exfalso; apply NO.
    + exists (s_start s). split; [apply on_segment_start|]. apply D; [reflexivity|apply on_segment_start].
    + apply B; [exact St|reflexivity].
    + apply A. reflexivity.
Qed.
Lemma line_nested_wide_l l l' a b rel x x' : line_valid l -> line_valid l' -> geo_valid a -> geo_valid b -> line_ends_settled l b -> line_settled l' a ->
  subset (line_set l) (line_set l') -> SpecNested.found a b rel -> part_relation rel -> asked_line l' a x' -> asked_line l b x -> (exists r, x' = Ok r /\ inside_relation r) ->
  (exists r, x = Ok r /\ inside_relation r) \/ x = Ok CROSS /\ inside_missed l b.
Proof.
  intros Vl Vl' Va Vb Sl Sl' Su F R Q' Q I. apply (line_covered_l l b x Vl Vb Sl Q).
  pose proof (part_found a b rel Va Vb F R) as Sub. pose proof (proj1 (proj2 (proj2 (line_facts_l l' a x' Vl' Va Sl' Q'))) I) as J. intros p Hp. apply Sub, J, Su, Hp.
Qed.
