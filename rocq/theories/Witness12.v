(* Inputs for the examples and counterexamples of PropsPolyArea.v. *)
From Coq Require Import QArith Qcanon List Bool ZArith.
From Verif Require Import Scalar Base Ground MLinear MSweep MCompound Planar Spec SpecAreas Geom PointProofs SegProofs EqualProofs Check NoFail RefuteProofs Drawn AreaQueries ClosedProofs
  Polygons PolyQueries BoxProofs Areas PolyArea PolyLine PolyMulti PolyPoly Rings Orient Corner SegContour SegEdges SegRegion Witness6 Witness10 Witness11.
Import ListNotations.
Open Scope Qc_scope.

(** * Checkers *)
Definition apartb (c c' : contour) : bool :=
  forallb (fun e => forallb (fun f => relation_eqb (segments_relation e f) DISJOINT) (contour_segments c')) (contour_segments c).
Fixpoint rings_apartb (l : list contour) : bool :=
  match l with [] => true | c :: l' => forallb (apartb c) l' && rings_apartb l' end.
Lemma apartb_ok c c' p : simple_contour c -> simple_contour c' -> apartb c c' = true -> on_contour c p -> on_contour c' p -> False.
Proof.
  intros C C' E O O'. apply on_contour_segments in O. apply on_contour_segments in O'. destruct O as (e & I & O), O' as (f & J & O').
  unfold apartb in E. rewrite forallb_forall in E. specialize (E e I). rewrite forallb_forall in E. specialize (E f J).
  pose proof (segments_relation_sound e f (edge_nd c C e I) (edge_nd c' C' f J)) as S. destruct (segments_relation e f); try discriminate E. apply S. exists p. auto.
Qed.
Lemma rings_apartb_ok l c c' p : Forall simple_contour l -> rings_apartb l = true -> In c l -> In c' l -> c <> c' -> on_contour c p -> on_contour c' p -> False.
Proof.
  intros F. induction F as [|d l D F IH]; intros E I J N O O'; [destruct I|]. cbn [rings_apartb] in E. apply andb_true_iff in E. destruct E as [E1 E2].
  rewrite forallb_forall in E1. rewrite Forall_forall in F. destruct I as [<-|I], J as [<-|J].
  - exact (N eq_refl).
  - exact (apartb_ok d c' p D (F c' J) (E1 c' J) O O').
  - exact (apartb_ok d c p D (F c I) (E1 c I) O' O).
  - exact (IH E2 I J N O O').
Qed.
Lemma clear_ringsb_ok X pg : valid_polygon pg -> rings_apartb (border pg :: holes pg) = true -> clear_rings X pg.
Proof.
  intros V E c c' p I J N _ O O'. apply (rings_apartb_ok (border pg :: holes pg) c c' p); try assumption.
  apply Forall_forall. intros d. apply ring_simple, V.
Qed.
Definition no_touchb (pt pg : polygon) : bool :=
  forallb (fun h => match region_in_region h (border pt) with Ok TOUCH => false | _ => true end) (holes pg).
Lemma no_touchb_ok pt pg : valid_polygon pt -> valid_polygon pg -> no_touchb pt pg = true -> no_touching_holes pt pg.
Proof.
  intros VT VG E h I S. unfold no_touchb in E. rewrite forallb_forall in E. specialize (E h I).
  destruct (region_in_region_exact_l h (border pt) (pg_hole pg VG h I) (pg_border pt VT)) as (rel & Q & _ & U). rewrite Q in E. rewrite <- (U TOUCH S) in E. discriminate.
Qed.

(** * Answers *)
Lemma square_left : interior_on_left (sqr 0 8).
Proof. apply interior_left_ccw; [simple|vm_compute; reflexivity]. Qed.
Lemma wit_polygon_lines :
  valid_polygon ring_q /\ (forall X, clear_rings X ring_q) /\ (forall X, meet_at_ends X (contours_edges (holes ring_q)))
  /\ Forall (fun s => nondegenerate s /\ ~ share_segment (in_segment s) (on_contour (border ring_q)) /\ ends_settled s (border ring_q)) s_lines
  /\ map (fun s => segment_in_polygon s ring_q) s_lines = [Ok WITHIN; Ok CROSS; Ok ENCLOSED; Ok COMPONENT; Ok TOUCH; Ok DISJOINT; Ok CROSS]
  /\ Forall simple_contour c_lines
  /\ map (fun c => contour_in_polygon c ring_q) c_lines = [Ok WITHIN; Ok COMPONENT; Ok DISJOINT; Ok TOUCH; Ok CROSS; Ok ENCLOSED].
Proof.
  split; [exact ring_q_valid|]. split; [intros X; apply clear_ringsb_ok; [exact ring_q_valid|vm_compute; reflexivity]|]. split; [intros X; ends|].
  split; [|split; [vm_compute; reflexivity|split; [all_simple|vm_compute; reflexivity]]].
  assert (SB : simple_contour (sqr 0 8)) by simple.
  assert (L : forall s, nondegenerate s -> forallb (shortb s) (contour_segments (sqr 0 8)) = true ->
    nondegenerate s /\ ~ share_segment (in_segment s) (on_contour (border ring_q)) /\ ends_settled s (border ring_q)).
  { intros s N H. split; [exact N|]. split; [exact (no_shareb_ok s _ N SB H)|]. right. right. right. exact square_left. }
  repeat (apply Forall_cons; [apply L; [nd|vm_compute; reflexivity]|]); apply Forall_nil.
Qed.
Definition bare : polygon := one (sqr 0 12).
Lemma big_ring_valid : valid_polygon big_ring. Proof. valid_pg. Qed.
Lemma wit_polygon_areas :
  valid_polygon big_ring /\ (forall X, clear_rings X big_ring)
  /\ Forall simple_contour (sqr 0 12 :: r_areas)
  /\ map (fun r => region_in_polygon r big_ring) (sqr 0 12 :: r_areas)
     = [Ok ENCLOSES; Ok TOUCH; Ok WITHIN; Ok ENCLOSED; Ok OVERLAP; Ok TOUCH; Ok DISJOINT; Ok ENCLOSES; Ok COVER]
  /\ Forall valid_multiregion mr_areas /\ Forall (fun rs => rs <> []) mr_areas
  /\ map (fun rs => multiregion_in_polygon rs big_ring) mr_areas
     = [Ok WITHIN; Ok ENCLOSED; Ok TOUCH; Ok TOUCH; Ok DISJOINT; Ok COVER; Ok OVERLAP]
  /\ valid_polygon bare /\ (forall X, clear_rings X bare)
  /\ region_in_polygon (sqr 0 12) bare = Ok EQUAL /\ multiregion_in_polygon [sqr 0 12] bare = Ok EQUAL /\ multiregion_in_polygon [sqr 0 12; big_tri] bare = Ok COMPOSITE
  /\ Forall valid_polygon p_areas
  /\ Forall (fun pg => (forall X, clear_rings X pg) /\ no_touching_holes pg big_ring /\ no_touching_holes big_ring pg) p_areas
  /\ map (fun pg => polygon_in_polygon pg big_ring) p_areas
     = [Ok EQUAL; Ok WITHIN; Ok ENCLOSED; Ok OVERLAP; Ok TOUCH; Ok DISJOINT; Ok ENCLOSES; Ok COVER].
Proof.
  assert (VB : valid_polygon bare) by valid_pg.
  split; [exact big_ring_valid|]. split; [intros X; apply clear_ringsb_ok; [exact big_ring_valid|vm_compute; reflexivity]|].
  split; [all_simple|]. split; [vm_compute; reflexivity|]. split; [repeat (apply Forall_cons; [valid_mr|]); apply Forall_nil|].
  split; [repeat (apply Forall_cons; [discriminate|]); apply Forall_nil|]. split; [vm_compute; reflexivity|]. split; [exact VB|].
  split; [intros X; apply clear_ringsb_ok; [exact VB|vm_compute; reflexivity]|]. split; [vm_compute; reflexivity|]. split; [vm_compute; reflexivity|]. split; [vm_compute; reflexivity|].
  split; [repeat (apply Forall_cons; [valid_pg|]); apply Forall_nil|].
  split; [|vm_compute; reflexivity].
  assert (L : forall pg, valid_polygon pg -> rings_apartb (border pg :: holes pg) = true -> no_touchb pg big_ring = true -> no_touchb big_ring pg = true ->
    (forall X, clear_rings X pg) /\ no_touching_holes pg big_ring /\ no_touching_holes big_ring pg).
  { intros pg V E1 E2 E3. split; [intros X; exact (clear_ringsb_ok X pg V E1)|]. split; apply no_touchb_ok; try assumption; exact big_ring_valid. }
  repeat (apply Forall_cons; [apply L; [valid_pg|vm_compute; reflexivity|vm_compute; reflexivity|vm_compute; reflexivity]|]); apply Forall_nil.
Qed.

(** * Rings that touch *)

(* A square cut in two by a hole. *)
Definition cut : polygon := Poly (Ctr [P 0 0; P 4 0; P 4 2; P 4 4; P 0 4; P 0 2]) [Ctr [P 0 2; P 2 1; P 4 2; P 2 3]].
Definition cut_low : contour := Ctr [P 0 0; P 4 0; P 4 2; P 2 1; P 0 2].
Definition cut_high : contour := Ctr [P 0 2; P 2 3; P 4 2; P 4 4; P 0 4].
(* A contour through the hole. *)
Definition through_cut : contour := Ctr [P 0 2; P 4 2; P 6 2; P 6 (-3); P (-2) (-3); P (-2) 2].
Lemma cut_valid : valid_polygon cut. Proof. valid_pg. Qed.
Lemma cut_multi : valid_multipolygon (MPoly [cut]). Proof. valid_mp. Qed.
Lemma single_area pg : area_eq (multipolygon_area (MPoly [pg])) (polygon_area pg).
Proof.
  intros p. unfold multipolygon_area. cbn [a_in a_on a_out polygons]. split; [|split].
  - split; [intros (g & [<-|[]] & H); exact H|intros H; exists pg; cbn; auto].
  - split; [intros (g & [<-|[]] & H); exact H|intros H; exists pg; cbn; auto].
  - split; [intros H; exact (H pg (or_introl eq_refl))|intros H g [<-|[]]; exact H].
Qed.
Lemma refl_area A : area_eq A A.
Proof. intros p. split; [|split]; apply iff_refl. Qed.
Lemma areal_single A pg rel : areal_spec A (multipolygon_area (MPoly [pg])) rel -> areal_spec A (polygon_area pg) rel.
Proof. apply (areal_spec_ext _ _ _ _ (refl_area A) (single_area pg)). Qed.
Lemma areal_answer A B r rel : answer_is (areal_spec A B) r -> r = Ok rel -> areal_spec A B rel.
Proof. intros (x & E & S & _) E'. rewrite E in E'. injection E' as <-. exact S. Qed.
Lemma region_in_polygon_component_refuted_l : exists r pg, simple_contour r /\ valid_polygon pg
  /\ areal_spec (region_area r) (polygon_area pg) COMPONENT /\ region_in_polygon r pg = Ok ENCLOSED.
Proof.
  exists cut_low, cut. assert (S : simple_contour cut_low) by simple. split; [exact S|]. split; [exact cut_valid|]. split; [|vm_compute; reflexivity].
  apply areal_single. apply (areal_answer _ _ _ _ (region_in_multipolygon_exact_l cut_low (MPoly [cut]) S cut_multi ltac:(discriminate))). vm_compute. reflexivity.
Qed.
Lemma multiregion_in_polygon_equal_refuted_l : exists rs pg, valid_multiregion rs /\ rs <> [] /\ valid_polygon pg
  /\ areal_spec (multiregion_area rs) (polygon_area pg) EQUAL /\ multiregion_in_polygon rs pg = Ok ENCLOSED.
Proof.
  exists [cut_low; cut_high], cut. assert (S : valid_multiregion [cut_low; cut_high]) by valid_mr. split; [exact S|]. split; [discriminate|]. split; [exact cut_valid|].
  split; [|vm_compute; reflexivity]. apply areal_single.
  apply (areal_answer _ _ _ _ (multiregion_in_multipolygon_exact_l [cut_low; cut_high] (MPoly [cut]) S ltac:(discriminate) cut_multi ltac:(discriminate) ltac:(left; ends))). vm_compute. reflexivity.
Qed.
Lemma contour_in_polygon_cross_refuted_l : exists c pg, simple_contour c /\ valid_polygon pg /\ meet_at_ends (on_contour c) (polygon_edges pg)
  /\ (forall p, on_contour c p -> ~ polygon_interior pg p) /\ contour_in_polygon c pg = Ok CROSS.
Proof.
  exists through_cut, cut. assert (S : simple_contour through_cut) by simple. split; [exact S|]. split; [exact cut_valid|]. split; [ends|]. split; [|vm_compute; reflexivity].
  destruct (contour_in_multipolygon_exact_l through_cut (MPoly [cut]) S cut_multi ltac:(discriminate) ltac:(ends)) as (rel & E & Sp & _).
  assert (E' : contour_in_multipolygon through_cut (MPoly [cut]) = Ok TOUCH) by (vm_compute; reflexivity). rewrite E in E'. injection E' as ->.
  intros p Hp K. apply (proj1 Sp). exists p. split; [exact Hp|]. exists cut. cbn. auto.
Qed.
(* Areas with the same points. *)
Lemma same_area A B : shaped A -> shaped B -> areal_spec A B EQUAL -> area_eq A B.
Proof.
  intros SA SB E. pose proof (sh_equal_on A B SA SB E) as E1. assert (E' : areal_spec B A EQUAL) by (intros p; symmetry; apply E). pose proof (sh_equal_on B A SB SA E') as E2. cbn [areal_spec] in E.
  assert (In' : forall p, a_in A p <-> a_in B p).
  { intros p. split; intros H.
    - destruct (proj1 (E p) (or_introl H)) as [K|K]; [exact K|destruct (sh_in_on A p SA H (E2 p K))].
    - destruct (proj2 (E p) (or_introl H)) as [K|K]; [exact K|destruct (sh_in_on B p SB H (E1 p K))]. }
  intros p. split; [apply In'|]. split; [split; auto|]. split; intros H.
  - destruct (sh_cases B p SB) as [K|[K|K]]; [destruct (sh_in_out A p SA (proj2 (In' p) K) H)|destruct (sh_on_out A p SA (E2 p K) H)|exact K].
  - destruct (sh_cases A p SA) as [K|[K|K]]; [destruct (sh_in_out B p SB (proj1 (In' p) K) H)|destruct (sh_on_out B p SB (E1 p K) H)|exact K].
Qed.
(* Two polygons without common interior points, with edges that cross where
   holes touch their borders; and the same with vertices there. *)
Definition left_p : polygon := Poly (Ctr [P (-20) (-20); P 0 (-20); P 0 20; P (-20) 20]) [Ctr [P 0 0; P (-10) 5; P (-20) 0; P (-10) (-5)]].
Definition upper_p : polygon := Poly (Ctr [P (-20) 0; P 50 0; P 50 50; P (-40) 50]) [Ctr [P 0 0; P 10 30; P (-30) 30; P (-20) 0; P (-10) 1]].
Definition left_v : polygon := Poly (Ctr [P (-20) (-20); P 0 (-20); P 0 0; P 0 20; P (-20) 20; P (-20) 0]) [Ctr [P 0 0; P (-10) 5; P (-20) 0; P (-10) (-5)]].
Definition upper_v : polygon := Poly (Ctr [P (-20) 0; P 0 0; P 50 0; P 50 50; P (-40) 50]) [Ctr [P 0 0; P 10 30; P (-30) 30; P (-20) 0; P (-10) 1]].
Lemma left_v_valid : valid_polygon left_v. Proof. valid_pg. Qed.
Lemma upper_v_valid : valid_polygon upper_v. Proof. valid_pg. Qed.
Lemma left_p_valid : valid_polygon left_p. Proof. valid_pg. Qed.
Lemma upper_p_valid : valid_polygon upper_p. Proof. valid_pg. Qed.
Lemma multi_one pg : valid_polygon pg -> valid_multipolygon (MPoly [pg]).
Proof. intros V. split; [apply Forall_cons; [exact V|apply Forall_nil]|]. apply FOP_cons; [apply Forall_nil|apply FOP_nil]. Qed.
Lemma left_same : area_eq (polygon_area left_p) (polygon_area left_v).
Proof.
  apply same_area; [apply shaped_polygon, left_p_valid|apply shaped_polygon, left_v_valid|]. apply areal_single.
  apply (areal_answer _ _ _ _ (polygon_in_multipolygon_exact_l left_p (MPoly [left_v]) left_p_valid (multi_one _ left_v_valid) ltac:(discriminate) ltac:(right; ends))). vm_compute. reflexivity.
Qed.
Lemma upper_same : area_eq (polygon_area upper_p) (polygon_area upper_v).
Proof.
  apply same_area; [apply shaped_polygon, upper_p_valid|apply shaped_polygon, upper_v_valid|]. apply areal_single.
  apply (areal_answer _ _ _ _ (polygon_in_multipolygon_exact_l upper_p (MPoly [upper_v]) upper_p_valid (multi_one _ upper_v_valid) ltac:(discriminate) ltac:(right; ends))). vm_compute. reflexivity.
Qed.
Lemma left_upper : areal_spec (polygon_area left_v) (polygon_area upper_v) TOUCH.
Proof.
  apply areal_single.
  apply (areal_answer _ _ _ _ (polygon_in_multipolygon_exact_l left_v (MPoly [upper_v]) left_v_valid (multi_one _ upper_v_valid) ltac:(discriminate) ltac:(right; ends))). vm_compute. reflexivity.
Qed.
Lemma polygon_in_polygon_overlap_refuted_l : exists l r, valid_polygon l /\ valid_polygon r /\ (forall X, meet_at_ends X (polygon_edges l)) /\ (forall X, meet_at_ends X (polygon_edges r))
  /\ (forall p, polygon_interior l p -> polygon_interior r p -> False) /\ polygon_in_polygon l r = Ok OVERLAP.
Proof.
  exists left_v, upper_v. split; [exact left_v_valid|]. split; [exact upper_v_valid|]. split; [intros X; ends|]. split; [intros X; ends|]. split; [|vm_compute; reflexivity].
  intros p H K. apply (proj1 left_upper). exists p. auto.
Qed.
Lemma polygon_in_multipolygon_overlap_refuted_l : exists l r, valid_polygon l /\ valid_polygon r
  /\ (forall p, polygon_interior l p -> polygon_interior r p -> False)
  /\ polygon_in_multipolygon l (MPoly [r]) = Ok OVERLAP /\ multipolygon_in_multipolygon (MPoly [l]) (MPoly [r]) = Ok OVERLAP.
Proof.
  exists left_p, upper_p. split; [exact left_p_valid|]. split; [exact upper_p_valid|]. split; [|split; vm_compute; reflexivity].
  intros p H K. apply (proj1 left_upper). exists p. split; [apply left_same|apply upper_same]; assumption.
Qed.
(* A contour in two regions that touch at ends of a longer edge. *)
Definition dart : multiregion := [Ctr [P (-4) (-4); P 0 (-4); P 0 4; P (-4) 4]; Ctr [P 0 (-2); P 4 0; P 0 2; P 1 0]].
Definition dart_v : multiregion := [Ctr [P (-4) (-4); P 0 (-4); P 0 (-2); P 0 2; P 0 4; P (-4) 4]; Ctr [P 0 (-2); P 4 0; P 0 2; P 1 0]].
Definition in_dart : contour := Ctr [P (-1) 3; P (-1) (-3); P 2 0].
Lemma contour_in_multiregion_cross_refuted_l : exists c rs, simple_contour c /\ valid_multiregion rs
  /\ (forall p, on_contour c p -> exists r, In r rs /\ ~ outside r p) /\ contour_in_multiregion c rs = Ok CROSS.
Proof.
  exists in_dart, dart. assert (S : simple_contour in_dart) by simple. assert (V : valid_multiregion dart) by valid_mr. assert (W : valid_multiregion dart_v) by valid_mr.
  split; [exact S|]. split; [exact V|]. split; [|vm_compute; reflexivity].
  assert (E : areal_spec (multiregion_area dart) (multiregion_area dart_v) EQUAL).
  { apply (areal_answer _ _ _ _ (multiregion_in_multiregion_exact_l dart dart_v V W ltac:(discriminate) ltac:(discriminate))). vm_compute. reflexivity. }
  destruct (contour_in_multiregion_exact_l in_dart dart_v S W ltac:(discriminate) ltac:(ends)) as (rel & Er & Sp & _).
  assert (E' : contour_in_multiregion in_dart dart_v = Ok ENCLOSED) by (vm_compute; reflexivity). rewrite Er in E'. injection E' as ->. destruct Sp as [Sp _].
  intros p Hp. assert (K : a_cl (multiregion_area dart) p).
  { apply E. destruct (sh_cases _ p (shaped_multiregion dart_v W ltac:(discriminate))) as [K|[K|K]]; [left; exact K|right; exact K|exfalso]. apply Sp. exists p. auto. }
  destruct K as [(r & I & K)|(r & I & K)]; exists r; (split; [exact I|]); intros Z.
  - exact (inside_not_outside r p (mr_simple dart r V I) K Z).
  - exact (outside_not_on r p (mr_simple dart r V I) Z K).
Qed.
