(* Inputs for the examples of PropsOneRegion.v. *)
From Coq Require Import QArith Qcanon List Bool ZArith.
From Verif Require Import Scalar Base Ground MLinear MSweep MCompound Planar Spec SpecAreas SpecMore SpecSeen SpecRings SpecBare SpecOneRegion Geom PointProofs SegProofs Check RefuteProofs Drawn AreaQueries AreaQueries Areas PolyArea SeenProofs Consequences Bare OnePoly OneRegion
  Witness Witness6 Witness11 Witness12 Witness22 Witness33 Witness34.
Import ListNotations.
Open Scope Qc_scope.

(* An edge that cuts the border of [cut_pg] where its hole touches it. *)
Definition past : contour := Ctr [P (-1) (-2); P 4 (-2); P 4 10; P (-1) 10].
Lemma every_regions_pair_l a b : In (a, b) regions_told_apart ->
  exists rs pg, valid_multiregion rs /\ rs <> [] /\ valid_polygon pg /\ multiregion_in_polygon rs pg = Ok a /\ multiregion_in_multipolygon rs (MPoly [pg]) = Ok b.
Proof.
  intros I. cbn [regions_told_apart In] in I. destruct I as [E|[E|[E|[E|[]]]]]; injection E as <- <-.
  - exists [left_c], cut_pg. split; [valid_mr|]. split; [discriminate|]. split; [valid_pg|]. split; vm_compute; reflexivity.
  - exists [left_c; right_c], cut_pg. split; [valid_mr|]. split; [discriminate|]. split; [valid_pg|]. split; vm_compute; reflexivity.
  - exists [wide_c; right_c], cut_pg. split; [valid_mr|]. split; [discriminate|]. split; [valid_pg|]. split; vm_compute; reflexivity.
  - exists [left_c; right_c; sqr 9 10], cut_pg. split; [valid_mr|]. split; [discriminate|]. split; [valid_pg|]. split; vm_compute; reflexivity.
Qed.
Lemma wit_one_regions : valid_polygon cut_pg /\ valid_multiregion [past; right_c] /\ seen_cut (contours_edges [past; right_c]) (polygon_edges cut_pg)
  /\ areal_spec (multiregion_area [past; right_c]) (polygon_area cut_pg) ENCLOSES
  /\ simple_contour past /\ areal_spec (region_area past) (polygon_area cut_pg) OVERLAP /\ seen_cut (contours_edges [past]) (polygon_edges cut_pg)
  /\ valid_multiregion [left_c; right_c] /\ ~ seen_cut (contours_edges [left_c; right_c]) (polygon_edges cut_pg) /\ areal_spec (multiregion_area [left_c; right_c]) (polygon_area cut_pg) EQUAL.
Proof.
  destruct wit_rings_areas as (V1 & _ & E1 & A1 & _). assert (V : valid_polygon cut_pg) by valid_pg. assert (V2 : valid_multiregion [past; right_c]) by valid_mr.
  assert (C : seen_cut (contours_edges [past; right_c]) (polygon_edges cut_pg)) by seen_at (P 4 (-2), P 4 10) (P 0 0, P 8 0) (P 4 0) (P 4 10).
  assert (C1 : seen_cut (contours_edges [past]) (polygon_edges cut_pg)) by seen_at (P 4 (-2), P 4 10) (P 0 0, P 8 0) (P 4 0) (P 4 10).
  assert (S : simple_contour past) by simple. assert (L : simple_contour left_c) by simple.
  split; [exact V|]. split; [exact V2|]. split; [exact C|]. split.
  { destruct (cut_regions [past; right_c] cut_pg V2 ltac:(discriminate) V C) as [_ [O|O]]; [exfalso|exact O]. apply (proj2 (proj2 O)).
    assert (K : areal_spec (region_area left_c) (region_area past) ENCLOSED).
    { destruct (region_in_region_exact_l left_c past L S) as (x & E & X & _). assert (Z : region_in_region left_c past = Ok ENCLOSED) by (vm_compute; reflexivity). rewrite E in Z. injection Z as ->. exact X. }
    intros p Hp. apply A1 in Hp. assert (Q : a_cl (region_area left_c) p \/ a_cl (region_area right_c) p) by (destruct Hp as [(r & [<-|[<-|[]]] & Hp)|(r & [<-|[<-|[]]] & Hp)]; [left; left|right; left|left; right|right; right]; exact Hp).
    destruct Q as [Q|Q]; [apply (proj1 (proj1 K)) in Q; destruct Q as [Q|Q]; [left|right]; exists past; cbn; auto|destruct Q as [Q|Q]; [left|right]; exists right_c; cbn; auto]. }
  split; [exact S|]. split; [exact (cut_region_truth past cut_pg S V C1)|]. split; [exact C1|]. split; [exact V1|].
  split; [|exact A1]. intros Z. destruct (cut_regions [left_c; right_c] cut_pg V1 ltac:(discriminate) V Z) as [O _]. rewrite E1 in O. discriminate O.
Qed.
