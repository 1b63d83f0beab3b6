(* Inputs for the examples of PropsPolySame.v. *)
From Coq Require Import QArith Qcanon List Bool ZArith.
From Verif Require Import Scalar Base Ground MLinear MSweep MCompound Planar Spec SpecAreas SpecRings Geom PointProofs SegProofs Check RefuteProofs LinesTold
  Witness Witness6 Witness11 Witness12 Witness22 Witness33 Witness36.
Import ListNotations.
Open Scope Qc_scope.

(* More vertices, in another order. *)
Definition cut_more : polygon := Poly (Ctr [P 0 0; P 4 0; P 8 0; P 8 8; P 4 8; P 0 8]) [Ctr [P 6 4; P 4 0; P 2 4; P 4 8]].
Definition left_more : contour := Ctr [P 0 0; P 4 0; P 3 2; P 2 4; P 4 8; P 0 8; P 0 4].
Definition left_most : polygon := Poly (Ctr [P (-20) (-20); P 0 (-20); P 0 0; P 0 20; P (-20) 20; P (-20) 0]) [Ctr [P 0 0; P (-10) 5; P (-20) 0; P (-10) (-5)]].
Definition in_dart_more : contour := Ctr [P (-1) 3; P (-1) (-3); P 0 (-2); P 2 0; P 0 2].
Lemma one_hole b b' h h' : simple_contour b -> simple_contour b' -> simple_contour h -> simple_contour h' -> (forall p, point_in_contour p b = point_in_contour p b') -> (forall p, point_in_contour p h = point_in_contour p h') ->
  forall p, point_in_polygon p (Poly b [h]) = point_in_polygon p (Poly b' [h']).
Proof.
  intros B B' H H' E F p. pose proof (region_of_ring b b' B B' E p) as Q1. pose proof (region_of_ring h h' H H' F p) as Q2. unfold point_in_region in Q1, Q2.
  unfold point_in_polygon, polygon_locate_point. cbn [border holes]. rewrite Q1. unfold polygon_locate_in_holes. rewrite Q2. reflexivity.
Qed.
Lemma cut_same p : point_in_polygon p cut_pg = point_in_polygon p cut_more.
Proof. apply one_hole; try simple; intros q; [by_cuts [P 4 0; P 4 8]|by_cuts (@nil point)]. Qed.
Lemma left_same p : point_in_polygon p left_p = point_in_polygon p left_most.
Proof. apply one_hole; try simple; intros q; [by_cuts [P 0 0; P (-20) 0]|by_cuts (@nil point)]. Qed.
Lemma in_dart_same p : point_in_contour p in_dart = point_in_contour p in_dart_more.
Proof. by_cuts [P 0 (-2); P 0 2]. Qed.
Lemma left_more_same p : point_in_contour p left_c = point_in_contour p left_more.
Proof. by_cuts [P 3 2; P 0 4]. Qed.
Lemma wit_same_areas : valid_polygon cut_pg /\ valid_polygon cut_more /\ (forall p, point_in_polygon p cut_pg = point_in_polygon p cut_more)
  /\ valid_polygon left_p /\ valid_polygon left_most /\ valid_polygon upper_p /\ (forall p, point_in_polygon p left_p = point_in_polygon p left_most)
  /\ polygon_in_polygon left_p upper_p = Ok OVERLAP /\ polygon_in_polygon left_most upper_p = Ok OVERLAP
  /\ valid_multiregion [left_c; right_c] /\ valid_multiregion [left_more; right_c] /\ (forall p, point_in_multiregion p [left_c; right_c] = point_in_multiregion p [left_more; right_c])
  /\ multiregion_in_polygon [left_c; right_c] cut_pg = Ok ENCLOSED /\ multiregion_in_polygon [left_more; right_c] cut_more = Ok ENCLOSED
  /\ simple_contour left_c /\ simple_contour left_more /\ (forall p, point_in_contour p left_c = point_in_contour p left_more)
  /\ contour_in_polygon left_c cut_pg = Ok ENCLOSED /\ contour_in_polygon left_more cut_more = Ok ENCLOSED.
Proof.
  split; [valid_pg|]. split; [valid_pg|]. split; [exact cut_same|]. split; [valid_pg|]. split; [valid_pg|]. split; [valid_pg|]. split; [exact left_same|].
  split; [vm_compute; reflexivity|]. split; [vm_compute; reflexivity|]. split; [valid_mr|]. split; [valid_mr|]. split.
  { intros p. assert (S : simple_contour left_c) by simple. assert (S' : simple_contour left_more) by simple. pose proof (region_of_ring left_c left_more S S' left_more_same p) as E. unfold point_in_region in E.
    unfold point_in_multiregion. cbn [multiregion_locate_point]. rewrite E. reflexivity. }
  split; [vm_compute; reflexivity|]. split; [vm_compute; reflexivity|]. split; [simple|]. split; [simple|]. split; [exact left_more_same|]. split; vm_compute; reflexivity.
Qed.
Lemma contour_same_refuted_l : exists c c' pg, simple_contour c /\ simple_contour c' /\ valid_polygon pg /\ (forall p, point_in_contour p c = point_in_contour p c')
  /\ contour_in_polygon c pg = Ok CROSS /\ contour_in_polygon c' pg = Ok TOUCH.
Proof.
  exists in_dart, in_dart_more, darted. split; [simple|]. split; [simple|]. split; [valid_pg|]. split; [exact in_dart_same|]. split; vm_compute; reflexivity.
Qed.
Lemma polygon_same_refuted_l : exists pg pg' mp, valid_polygon pg /\ valid_polygon pg' /\ valid_multipolygon mp /\ (forall p, point_in_polygon p pg = point_in_polygon p pg')
  /\ polygon_in_multipolygon pg mp = Ok OVERLAP /\ polygon_in_multipolygon pg' mp = Ok TOUCH.
Proof.
  exists left_p, left_most, (MPoly [upper_p]). split; [valid_pg|]. split; [valid_pg|]. split; [valid_mp|]. split; [exact left_same|]. split; vm_compute; reflexivity.
Qed.
