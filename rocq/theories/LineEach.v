(* Each answer of the one-sweep queries for lines and areas, exactly. *)
From Coq Require Import QArith Qcanon List Bool ZArith Lia.
From Verif Require Import Scalar Base Ground MLinear MSweep MCompound Planar Spec SpecAreas SpecMore SpecAround SpecSeen SpecContact SpecSelf SpecEachLine Geom RayParity SegProofs BoxProofs PointProofs EqualProofs Check
  NoFail OpenProofs Orient Area SegRegion AreaAnswer Drawn Gather Cover Sector AreaQueries ClosedProofs Polygons Inner PolyQueries Areas PolyArea Corner Pieces ContactProofs JoinLines JoinQueries EdgeByEdge SelfProofs Located SeenProofs SeenEach SeenAgree.
Import ListNotations.
Open Scope Qc_scope.

Lemma cut_by_dec l l' : wide l -> wide l' -> cut_by l l' \/ ~ cut_by l l'.
Proof.
  intros W W'. destruct (some_dec (fun e => exists e', In e' l' /\ cuts e e') l) as [(e & I & e' & I' & K)|K].
  - intros e I. apply some_dec. intros e' I'. exact (cut_dec e e' (W e I) (W' e' I')).
  - left. exists e, e'. auto.
  - right. intros (e & e' & I & I' & C). apply K. exists e. split; [exact I|]. exists e'. auto.
Qed.
Lemma cut_by_on l l' (X Y : point -> Prop) : (forall p, ends_set l p -> X p) -> (forall p, ends_set l' p -> Y p) -> cut_by l l' -> meets X Y.
Proof. intros HX HY (e & e' & I & I' & p & C1 & C2 & _). exists p. split; [apply HX; exists e|apply HY; exists e']; auto. Qed.
Lemma seen_on l l' (X Y : point -> Prop) : (forall p, ends_set l p -> X p) -> (forall p, ends_set l' p -> Y p) -> seen_cut l l' -> meets X Y.
Proof. intros HX HY (e & e' & p & I & I' & (C1 & C2 & _) & _). exists p. split; [apply HX; exists e|apply HY; exists e']; auto. Qed.
Lemma ok_same (a b : relation) : Ok a = Ok b -> a = b.
Proof. intros Z. injection Z. auto. Qed.
Lemma lines_each X A (around C : Prop) r : shaped A -> C \/ ~ C -> (C -> meets X (a_on A)) -> (around -> meets X (a_in A) /\ meets X (a_out A)) ->
  lines_told_by (linear_areal_spec X A) around C r -> each_lines_answer X A around C r.
Proof.
  intros SA D HC HA [T1 T2].
  assert (IO : forall p, a_in A p -> a_out A p -> False) by (intros p I O; exact (sh_cl_out A p SA (or_introl I) O)).
  assert (NO : forall p, a_on A p -> a_out A p -> False) by (intros p I O; exact (sh_cl_out A p SA (or_intror I) O)).
  assert (IN : forall p, a_in A p -> a_on A p -> False) by (intros p; exact (sh_in_on A p SA)).
  assert (NA : forall rel, In rel [DISJOINT; WITHIN; COMPONENT; ENCLOSED] -> linear_areal_spec X A rel -> ~ around).
  { intros rel I S R. destruct (HA R) as [(p & P1 & P2) (q & Q1 & Q2)]. destruct I as [<-|[<-|[<-|[<-|[]]]]]; cbn [linear_areal_spec] in S.
    - exact (IO p P2 (S p P1)).
    - exact (IO q (S q Q1) Q2).
    - exact (IN p P2 (S p P1)).
    - apply (proj1 S). exists q. auto. }
  assert (Is : ~ C -> forall rel, r = Ok rel -> rel <> TOUCH -> linear_areal_spec X A rel).
  { intros N rel -> NT. destruct (T2 N) as [K1 K2]. assert (R : ~ around) by (intros R; apply NT, ok_same, K2, R). destruct (K1 R) as (x & E & Sx & _). apply ok_same in E. subst x. exact Sx. }
  assert (To : ~ C -> ~ around -> forall rel, linear_areal_spec X A rel -> r = Ok rel).
  { intros N R rel S. destruct (proj1 (T2 N) R) as (x & -> & _ & U). f_equal. symmetry. exact (U rel S). }
  assert (NC : forall rel, r = Ok rel -> rel <> CROSS -> ~ C) by (intros rel E N K; rewrite (T1 K) in E; apply N; symmetry; exact (ok_same _ _ E)).
  split; [|split; [|split]].
  - intros rel I. assert (N : rel <> CROSS /\ rel <> TOUCH) by (destruct I as [<-|[<-|[]]]; split; discriminate). split.
    + intros E. exact (Is (NC rel E (proj1 N)) rel E (proj2 N)).
    + intros S. assert (K : ~ C).
      { intros K. destruct (HC K) as (p & P1 & P2). destruct I as [<-|[<-|[]]]; cbn [linear_areal_spec] in S; [exact (NO p P2 (S p P1))|exact (IN p (S p P1) P2)]. }
      apply (To K); [|exact S]. apply (NA rel); [|exact S]. cbn in *. tauto.
  - intros rel I. assert (N : rel <> CROSS /\ rel <> TOUCH) by (destruct I as [<-|[<-|[]]]; split; discriminate). split.
    + intros E. pose proof (NC rel E (proj1 N)) as K. split; [exact (Is K rel E (proj2 N))|exact K].
    + intros [S K]. apply (To K); [|exact S]. apply (NA rel); [|exact S]. cbn in *. tauto.
  - split.
    + intros E. assert (K : ~ C) by (apply (NC TOUCH E); discriminate). split; [exact K|]. intros R. destruct (proj1 (T2 K) R) as (x & Ex & Sx & _). rewrite E in Ex. apply ok_same in Ex. subst x. exact Sx.
    + intros [K S]. assert (De : r = Ok TOUCH \/ r <> Ok TOUCH) by (destruct r as [x|x]; [destruct x; first [left; reflexivity|right; discriminate]|right; discriminate]).
      destruct De as [E|E]; [exact E|]. assert (R : ~ around) by (intros R; exact (E (proj2 (T2 K) R))). exact (To K R TOUCH (S R)).
  - split.
    + intros E. destruct D as [K|K]; [left; exact K|right]. split; [apply (Is K CROSS E); discriminate|]. intros R. rewrite (proj2 (T2 K) R) in E. discriminate (ok_same _ _ E).
    + intros [K|[S R]]; [exact (T1 K)|]. destruct D as [K|K]; [exact (T1 K)|exact (To K R CROSS S)].
Qed.
Lemma line_each X A (C : Prop) r : shaped A -> C \/ ~ C -> (C -> meets X (a_on A)) -> told_by (linear_areal_spec X A) CROSS C r -> each_line_answer X A C r.
Proof.
  intros SA D HC [T1 T2]. destruct (lines_each X A False C r SA D HC (fun F => match F with end)) as (E1 & E2 & E3 & E4).
  { split; [exact T1|]. intros K. split; [intros _; exact (T2 K)|intros []]. }
  split; [exact E1|]. split; [|tauto]. intros rel [<-|I]; [rewrite E3; tauto|]. apply E2. exact I.
Qed.
Lemma wide_segment s : nondegenerate s -> wide [(s_start s, s_end s)].
Proof. intros N e [<-|[]]. exact N. Qed.
Lemma wide_segments m : valid_multisegment m -> wide (multisegment_edges m).
Proof. intros (_ & F & _) e I. unfold multisegment_edges in I. apply in_map_iff in I. destruct I as (s & <- & J). rewrite Forall_forall in F. exact (F s J). Qed.
Lemma ends_segment s p : ends_set [(s_start s, s_end s)] p -> in_segment s p.
Proof. intros (e & [<-|[]] & O). exact O. Qed.
Lemma ends_segments m p : ends_set (multisegment_edges m) p -> in_multisegment m p.
Proof. intros (e & I & O). unfold multisegment_edges in I. apply in_map_iff in I. destruct I as (s & <- & J). exists s. auto. Qed.
Lemma ends_contour c p : ends_set (contours_edges [c]) p -> on_contour c p.
Proof. intros E. apply ends_multiregion in E. destruct E as (r & [<-|[]] & O). exact O. Qed.
Lemma wide_contour c : simple_contour c -> wide (contours_edges [c]).
Proof. intros S. apply wide_contours. apply Forall_cons; [exact S|apply Forall_nil]. Qed.
Lemma wide_polygon pg : valid_polygon pg -> wide (polygon_edges pg).
Proof. intros V. apply (wide_contours (border pg :: holes pg)). apply Forall_cons; [exact (pg_border pg V)|apply Forall_forall; exact (pg_hole pg V)]. Qed.
Lemma ends_polygon pg p : ends_set (polygon_edges pg) p -> polygon_boundary pg p.
Proof. intros E. apply (ends_multiregion (border pg :: holes pg)) in E. destruct E as (c & [<-|I] & O); [left; exact O|right; exists c; auto]. Qed.
Lemma segment_in_multiregion_each_l s rs : nondegenerate s -> valid_multiregion rs -> rs <> [] ->
  each_line_answer (in_segment s) (multiregion_area rs) (cut_by [(s_start s, s_end s)] (contours_edges rs)) (segment_in_multiregion s rs).
Proof.
  intros S V N. apply line_each; [exact (shaped_multiregion rs V N)|exact (cut_by_dec _ _ (wide_segment s S) (wide_contours rs (proj1 V)))| |exact (segment_in_multiregion_seen_l s rs S V N)].
  apply cut_by_on; [exact (ends_segment s)|intros p; apply ends_multiregion].
Qed.
Lemma contour_in_multiregion_each_l c rs : simple_contour c -> valid_multiregion rs -> rs <> [] ->
  each_line_answer (on_contour c) (multiregion_area rs) (cut_by (contours_edges [c]) (contours_edges rs)) (contour_in_multiregion c rs).
Proof.
  intros S V N. apply line_each; [exact (shaped_multiregion rs V N)|exact (cut_by_dec _ _ (wide_contour c S) (wide_contours rs (proj1 V)))| |exact (contour_in_multiregion_seen_l c rs S V N)].
  apply cut_by_on; [exact (ends_contour c)|intros p; apply ends_multiregion].
Qed.
Lemma segment_in_multipolygon_each_l s mp : nondegenerate s -> valid_multipolygon mp -> polygons mp <> [] ->
  each_line_answer (in_segment s) (multipolygon_area mp) (cut_by [(s_start s, s_end s)] (multipolygon_edges mp)) (segment_in_multipolygon s mp).
Proof.
  intros S V N. apply line_each; [exact (shaped_multipolygon mp V N)|exact (cut_by_dec _ _ (wide_segment s S) (wide_polygons mp V))| |exact (segment_in_multipolygon_seen_l s mp S V N)].
  apply cut_by_on; [exact (ends_segment s)|intros p; apply ends_multipolygon].
Qed.
Lemma contour_in_multipolygon_each_l c mp : simple_contour c -> valid_multipolygon mp -> polygons mp <> [] ->
  each_line_answer (on_contour c) (multipolygon_area mp) (cut_by (contours_edges [c]) (multipolygon_edges mp)) (contour_in_multipolygon c mp).
Proof.
  intros S V N. apply line_each; [exact (shaped_multipolygon mp V N)|exact (cut_by_dec _ _ (wide_contour c S) (wide_polygons mp V))| |exact (contour_in_multipolygon_seen_l c mp S V N)].
  apply cut_by_on; [exact (ends_contour c)|intros p; apply ends_multipolygon].
Qed.
Lemma multisegment_in_polygon_each_l m pg : valid_multisegment m -> valid_polygon pg ->
  each_lines_answer (in_multisegment m) (polygon_area pg) (runs_around (in_multisegment m) (polygon_area pg)) (seen_cut (multisegment_edges m) (polygon_edges pg)) (multisegment_in_polygon m pg).
Proof.
  intros M V. apply lines_each; [exact (shaped_polygon pg V)|exact (seen_dec _ _ (wide_segments m M) (wide_polygon pg V))| |intros (_ & R); exact R|exact (multisegment_in_polygon_seen_l m pg M V)].
  apply seen_on; [exact (ends_segments m)|exact (ends_polygon pg)].
Qed.
Lemma multisegment_in_multiregion_each_l m rs : valid_multisegment m -> valid_multiregion rs -> rs <> [] ->
  each_lines_answer (in_multisegment m) (multiregion_area rs) (runs_round (in_multisegment m) region_area (multiregion_area rs) rs) (seen_cut (multisegment_edges m) (contours_edges rs)) (multisegment_in_multiregion m rs).
Proof.
  intros M V N. apply lines_each; [exact (shaped_multiregion rs V N)|exact (seen_dec _ _ (wide_segments m M) (wide_contours rs (proj1 V)))| |intros (R1 & R2 & _); auto|exact (multisegment_in_multiregion_seen_l m rs M V N)].
  apply seen_on; [exact (ends_segments m)|intros p; apply ends_multiregion].
Qed.
Lemma multisegment_in_multipolygon_each_l m mp : valid_multisegment m -> valid_multipolygon mp -> polygons mp <> [] ->
  each_lines_answer (in_multisegment m) (multipolygon_area mp) (runs_round (in_multisegment m) polygon_area (multipolygon_area mp) (polygons mp)) (seen_cut (multisegment_edges m) (multipolygon_edges mp)) (multisegment_in_multipolygon m mp).
Proof.
  intros M V N. apply lines_each; [exact (shaped_multipolygon mp V N)|exact (seen_dec _ _ (wide_segments m M) (wide_polygons mp V))| |intros (R1 & R2 & _); auto|exact (multisegment_in_multipolygon_seen_l m mp M V N)].
  apply seen_on; [exact (ends_segments m)|intros p; apply ends_multipolygon].
Qed.
Lemma multisegment_in_region_each_l m r : valid_multisegment m -> simple_contour r ->
  each_lines_answer (in_multisegment m) (region_area r) (runs_around (in_multisegment m) (region_area r)) (seen_cut (multisegment_edges m) (contours_edges [r])) (multisegment_in_region m r).
Proof.
  intros M V. apply lines_each; [exact (shaped_region r V)|exact (seen_dec _ _ (wide_segments m M) (wide_contour r V))| |intros (_ & R); exact R|exact (multisegment_in_region_seen_l m r M V)].
  apply seen_on; [exact (ends_segments m)|exact (ends_contour r)].
Qed.
