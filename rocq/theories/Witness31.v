(* Witnesses for segments along the border. *)
From Coq Require Import QArith Qcanon List Bool ZArith.
From Verif Require Import Scalar Base Ground MLinear MSweep MCompound Planar Spec SpecAreas SpecAround SpecContact SpecMore SpecRings SpecNested SpecLines SpecChord Geom PointProofs Corner Check Witness RefuteProofs Witness6 Witness10 Witness11 Witness12 AreaAnswer Drawn Areas ContactProofs Consequences AreaQueries SegRegion NestedProofs LinesProofs ChordProofs.
Import ListNotations.
Open Scope Qc_scope.

Lemma one_truth s c y : nondegenerate s -> simple_contour c -> segment_in_multiregion s [c] = Ok y -> y <> CROSS -> linear_areal_spec (in_segment s) (region_area c) y.
Proof.
  intros N C E NC. destruct (segment_in_multiregion_or_l s [c] N (one_multiregion c C) ltac:(discriminate)) as [(r & E' & T & _)|(E' & _)]; rewrite E in E'; injection E' as E'; [|contradiction]. subst r.
  exact (proj1 (linear_areal_ext _ _ _ _ (fun p => iff_refl _) (one_region_area c) y) T).
Qed.
Definition ledge : contour := Ctr [P 0 0; P 2 0; P 4 0; P 4 4; P 0 4].
Definition ledge_cw : contour := Ctr [P 0 4; P 4 4; P 4 0; P 2 0; P 0 0].
Definition elbow : contour := Ctr [P 0 0; P 4 0; P 4 2; P 2 2; P 2 4; P 0 4].
Definition cup : contour := Ctr [P 0 0; P 6 0; P 6 3; P 4 3; P 4 1; P 2 1; P 2 3; P 0 3].
Definition amiss_cases : list (segment * contour * relation * relation) :=
  [(Seg (P 1 0) (P 3 0), ledge, ENCLOSED, COMPONENT); (Seg (P 5 2) (P 1 2), elbow, TOUCH, CROSS); (Seg (P 1 2) (P 5 2), elbow, ENCLOSED, CROSS); (Seg (P 1 3) (P 5 3), cup, ENCLOSED, TOUCH);
   (Seg (P 2 0) (P 3 3), dent, ENCLOSED, TOUCH); (Seg (P 2 4) (P 2 2), notch, TOUCH, ENCLOSED); (Seg (P 0 0) (P 4 0), ledge_cw, TOUCH, COMPONENT)].
Definition amiss_case (t : segment * contour * relation * relation) : Prop :=
  match t with (s, c, rel, y) => nondegenerate s /\ simple_contour c /\ segment_in_region s c = Ok rel /\ linear_areal_spec (in_segment s) (region_area c) y end.
Lemma wit_amiss : Forall amiss_case amiss_cases /\ map contour_orientation [ledge; elbow; cup; dent; notch; ledge_cw] = [Ok CCW; Ok CCW; Ok CCW; Ok CW; Ok CW; Ok CW].
Proof.
  split; [|vm_compute; reflexivity].
  assert (T : forall s c y, nondegenerate s /\ simple_contour c -> segment_in_multiregion s [c] = Ok y -> y <> CROSS -> linear_areal_spec (in_segment s) (region_area c) y) by (intros s c y [N C]; exact (one_truth s c y N C)).
  repeat (apply Forall_cons; [split; [nd|]; split; [simple|]; split; [vm_compute; reflexivity|]|]); [..|constructor].
  all: try (apply T; [split; [nd|simple]|vm_compute; reflexivity|discriminate]).
  - split; [exists (P 1 2)|exists (P 5 2)]; (split; [on_seg|located]).
  - split; [exists (P 1 2)|exists (P 5 2)]; (split; [on_seg|located]).
Qed.
Lemma wit_covered : line_valid (LSegment (Seg (P 1 0) (P 3 0))) /\ geo_valid (GRegion ledge) /\ geo_valid (GPolygon (Poly ledge [sqr 1 2])) /\ line_ends_settled (LSegment (Seg (P 1 0) (P 3 0))) (GRegion ledge)
  /\ line_ends_settled (LSegment (Seg (P 1 0) (P 3 0))) (GPolygon (Poly ledge [sqr 1 2])) /\ ~ line_settled (LSegment (Seg (P 1 0) (P 3 0))) (GRegion ledge)
  /\ subset (line_set (LSegment (Seg (P 1 0) (P 3 0)))) (a_cl (geo_area (GRegion ledge))) /\ segment_in_region (Seg (P 1 0) (P 3 0)) ledge = Ok ENCLOSED /\ segment_in_polygon (Seg (P 1 0) (P 3 0)) (Poly ledge [sqr 1 2]) = Ok ENCLOSED.
Proof.
  assert (N : nondegenerate (Seg (P 1 0) (P 3 0))) by nd. assert (C : simple_contour ledge) by simple.
  assert (T : linear_areal_spec (in_segment (Seg (P 1 0) (P 3 0))) (region_area ledge) COMPONENT) by (apply one_truth; [exact N|exact C|vm_compute; reflexivity|discriminate]).
  split; [exact N|]. split; [exact C|]. split; [valid_pg|].
  assert (ES : ends_settled (Seg (P 1 0) (P 3 0)) ledge) by (right; right; left; split; intros K; repeat destruct K as [K|K]; try discriminate K; destruct K).
  split; [exact ES|]. split; [exact ES|].
  split; [intros [K _]; apply K; exists (P 1 0), (P 3 0); split; [discriminate|]; intros p Hp; split; [exact Hp|exact (T p Hp)]|].
  split; [intros p Hp; right; exact (T p Hp)|]. split; vm_compute; reflexivity.
Qed.
Lemma wit_polygon_sides : valid_polygon (Poly ledge [sqr 1 2]) /\ Forall (fun s => nondegenerate s /\ ends_settled s ledge) [Seg (P (-1) 3) (P 5 3); Seg (P 0 0) (P 2 0); Seg (P 1 1) (P 2 1); Seg (P 3 0) (P 6 0)]
  /\ map (fun s => segment_in_polygon s (Poly ledge [sqr 1 2])) [Seg (P (-1) 3) (P 5 3); Seg (P 0 0) (P 2 0); Seg (P 1 1) (P 2 1); Seg (P 3 0) (P 6 0)] = [Ok CROSS; Ok COMPONENT; Ok COMPONENT; Ok TOUCH].
Proof.
  split; [valid_pg|]. split; [|vm_compute; reflexivity]. assert (C : simple_contour ledge) by simple.
  assert (L : interior_on_left ledge) by (apply (interior_left_ccw ledge C); vm_compute; reflexivity).
  repeat (apply Forall_cons; [split; [nd|right; right; right; exact L]|]). constructor.
Qed.
