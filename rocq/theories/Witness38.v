(* Inputs for the examples of PropsChain.v. *)
From Coq Require Import QArith Qcanon List Bool ZArith.
From Verif Require Import Scalar Base Ground MLinear MSweep MCompound Planar Spec SpecAreas SpecMore SpecSeen SpecChain Geom PointProofs SegProofs Check RefuteProofs SeenProofs PolyChain
  Witness Witness6 Witness11 Witness12 Witness22.
Import ListNotations.
Open Scope Qc_scope.

Definition wedge : contour := Ctr [P 12 6; P 14 5; P 14 7].
Definition filled : polygon := Poly (sqr 0 20) [wedge].
Definition bite : polygon := Poly wedge [].
Definition frame (a b c d : Z) : polygon := Poly (sqr a b) [sqr c d].
Lemma wit_chain_polygons : valid_polygon w_in /\ valid_polygon w_out /\ valid_polygon filled /\ valid_polygon bite /\ Forall valid_polygon [frame 0 12 4 8; frame 1 11 3 9; Poly (sqr 5 6) []]
  /\ polygon_in_polygon w_in w_out = Ok WITHIN /\ polygon_in_polygon w_out filled = Ok ENCLOSED /\ polygon_in_polygon w_in filled = Ok ENCLOSED
  /\ polygon_in_polygon w_out bite = Ok TOUCH /\ polygon_in_polygon w_in bite = Ok TOUCH
  /\ polygon_in_polygon (frame 1 11 3 9) (frame 0 12 4 8) = Ok WITHIN /\ polygon_in_polygon (frame 0 12 4 8) (Poly (sqr 5 6) []) = Ok DISJOINT
  /\ polygon_in_polygon (frame 1 11 3 9) (Poly (sqr 5 6) []) = Ok DISJOINT.
Proof.
  split; [exact w_in_valid|]. split; [exact w_out_valid|]. split; [valid_pg|]. split; [valid_pg|]. split; [repeat (apply Forall_cons; [valid_pg|]); apply Forall_nil|].
  repeat (split; [vm_compute; reflexivity|]). vm_compute. reflexivity.
Qed.
(* Where holes touch, WITHIN does not go on. *)
Lemma polygon_chain_within_refuted_l : exists a b c, valid_polygon a /\ valid_polygon b /\ valid_polygon c
  /\ polygon_in_polygon a b = Ok WITHIN /\ (exists bc, part_relation bc /\ polygon_in_polygon b c = Ok bc) /\ polygon_in_polygon a c = Ok ENCLOSED.
Proof.
  destruct wit_chain_polygons as (V1 & V2 & V3 & _ & _ & E1 & E2 & E3 & _). exists w_in, w_out, filled. split; [exact V1|]. split; [exact V2|]. split; [exact V3|]. split; [exact E1|].
  split; [exists ENCLOSED; split; [unfold part_relation; cbn; auto|exact E2]|exact E3].
Qed.
Lemma polygon_chain_touch_refuted_l : exists a b c, valid_polygon a /\ valid_polygon b /\ valid_polygon c
  /\ polygon_in_polygon a b = Ok WITHIN /\ polygon_in_polygon b c = Ok TOUCH /\ polygon_in_polygon a c = Ok TOUCH.
Proof.
  destruct wit_chain_polygons as (V1 & V2 & _ & V4 & _ & E1 & _ & _ & E4 & E5 & _). exists w_in, w_out, bite. auto 7.
Qed.
Definition two_frames : multipolygon := MPoly [frame 0 12 4 8; Poly (sqr 20 30) []].
Definition two_slim : multipolygon := MPoly [frame 1 11 3 9; Poly (sqr 21 22) []].
Definition two_full : multipolygon := MPoly [Poly (sqr 0 12) []; Poly (sqr 20 30) []].
Lemma wit_chain_multi : Forall valid_multipolygon [two_slim; two_frames; two_full]
  /\ multipolygon_in_multipolygon two_slim two_frames = Ok WITHIN /\ multipolygon_in_multipolygon two_frames two_full = Ok ENCLOSED
  /\ multipolygon_in_multipolygon two_slim two_full = Ok WITHIN /\ ~ seen_cut (multipolygon_edges two_slim) (multipolygon_edges two_full).
Proof.
  assert (V1 : valid_multipolygon two_slim) by valid_mp. assert (V2 : valid_multipolygon two_frames) by valid_mp. assert (V3 : valid_multipolygon two_full) by valid_mp.
  assert (E : multipolygon_in_multipolygon two_slim two_full = Ok WITHIN) by (vm_compute; reflexivity).
  split; [repeat (apply Forall_cons; [assumption|]); apply Forall_nil|]. split; [vm_compute; reflexivity|]. split; [vm_compute; reflexivity|]. split; [exact E|].
  intros C. pose proof (proj1 (multipolygon_in_multipolygon_seen_l two_slim two_full V1 ltac:(discriminate) V3 ltac:(discriminate)) C) as Z. rewrite E in Z. discriminate.
Qed.
Lemma wit_chain_line : Forall simple_contour [left_c; sqr 0 1; sqr 5 6] /\ valid_polygon cut_pg /\ valid_polygon (Poly (sqr 0 8) []) /\ valid_polygon (Poly (sqr 20 21) [])
  /\ map (fun c => contour_in_polygon c cut_pg) [left_c; sqr 0 1; Ctr [P 1 1; P 2 1; P 1 2]] = [Ok ENCLOSED; Ok ENCLOSED; Ok WITHIN] /\ polygon_in_polygon cut_pg (Poly (sqr 0 8) []) = Ok ENCLOSED
  /\ map (fun c => contour_in_polygon c (Poly (sqr 0 8) [])) [left_c; sqr 0 1; Ctr [P 1 1; P 2 1; P 1 2]] = [Ok ENCLOSED; Ok ENCLOSED; Ok WITHIN]
  /\ polygon_in_polygon cut_pg (Poly (sqr 20 21) []) = Ok DISJOINT /\ contour_in_polygon left_c (Poly (sqr 20 21) []) = Ok DISJOINT.
Proof.
  split; [repeat (apply Forall_cons; [simple|]); apply Forall_nil|]. split; [exact cut_valid|]. split; [valid_pg|]. split; [valid_pg|].
  repeat (split; [vm_compute; reflexivity|]). vm_compute. reflexivity.
Qed.
