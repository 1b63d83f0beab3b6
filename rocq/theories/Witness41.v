(* Inputs for the examples of PropsOne.v. *)
From Coq Require Import QArith Qcanon List Bool ZArith.
From Verif Require Import Scalar Base Ground MLinear MSweep MCompound Planar Spec SpecAreas SpecMore SpecSeen SpecOne Geom PointProofs SegProofs Check RefuteProofs SeenProofs Drawn Consequences OnePoly
  Witness Witness6 Witness11 Witness12 Witness22 Witness33 Witness34 Witness36 Witness40.
Import ListNotations.
Open Scope Qc_scope.

Lemma every_pair_l a b : In (a, b) told_apart -> exists pt pg, valid_polygon pt /\ valid_polygon pg /\ polygon_in_polygon pt pg = Ok a /\ polygon_in_multipolygon pt (MPoly [pg]) = Ok b.
Proof.
  intros I. cbn [told_apart In] in I. destruct I as [E|[E|[E|[E|[E|[]]]]]]; injection E as <- <-.
  - exists left_most, upper_p. split; [valid_pg|]. split; [valid_pg|]. split; vm_compute; reflexivity.
  - exists w_in, w_out. split; [valid_pg|]. split; [valid_pg|]. split; vm_compute; reflexivity.
  - exists (Poly left_c []), cut_pg. split; [valid_pg|]. split; [valid_pg|]. split; vm_compute; reflexivity.
  - exists w_out, w_in. split; [valid_pg|]. split; [valid_pg|]. split; vm_compute; reflexivity.
  - exists cut_pg, (Poly left_c []). split; [valid_pg|]. split; [valid_pg|]. split; vm_compute; reflexivity.
Qed.
Lemma wit_one : valid_polygon left_p /\ valid_polygon left_most /\ valid_polygon upper_p
  /\ seen_cut (polygon_edges left_p) (polygon_edges upper_p) /\ areal_spec (polygon_area left_p) (polygon_area upper_p) TOUCH
  /\ ~ seen_cut (polygon_edges left_most) (polygon_edges upper_p) /\ areal_spec (polygon_area left_most) (polygon_area upper_p) TOUCH.
Proof.
  assert (V1 : valid_polygon left_p) by valid_pg. assert (V2 : valid_polygon left_most) by valid_pg. assert (V3 : valid_polygon upper_p) by valid_pg.
  assert (N : ~ seen_cut (polygon_edges left_most) (polygon_edges upper_p)).
  { intros K.
    destruct (polygon_in_multipolygon_seen_l left_most (MPoly [upper_p]) V2 (one_multipolygon upper_p V3) ltac:(discriminate)) as [C _]. rewrite one_edges in C.
    assert (E : polygon_in_multipolygon left_most (MPoly [upper_p]) = Ok TOUCH) by (vm_compute; reflexivity). rewrite (C K) in E. discriminate. }
  split; [exact V1|]. split; [exact V2|]. split; [exact V3|]. split; [exact (proj1 (proj2 (proj2 wit_seen_areas)))|].
  assert (T : areal_spec (polygon_area left_most) (polygon_area upper_p) TOUCH).
  { destruct (polygon_in_multipolygon_seen_l left_most (MPoly [upper_p]) V2 (one_multipolygon upper_p V3) ltac:(discriminate)) as [_ C]. rewrite one_edges in C. destruct (C N) as (z & Ez & Sz & _).
    assert (E : polygon_in_multipolygon left_most (MPoly [upper_p]) = Ok TOUCH) by (vm_compute; reflexivity). rewrite E in Ez. injection Ez as <-.
    exact (proj1 (areal_spec_ext _ _ _ _ (area_refl (polygon_area left_most)) (one_polygon_area upper_p) TOUCH) Sz). }
  split; [exact (proj1 (proj2 (proj2 (proj2 wit_seen_areas))))|]. split; [exact N|exact T].
Qed.
