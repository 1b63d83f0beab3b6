(* Inputs for the examples and counterexamples of PropsAgree.v. *)
From Coq Require Import QArith Qcanon List Bool ZArith Permutation.
From Verif Require Import Scalar Base Ground MLinear MSweep MCompound Planar Spec SpecAreas SpecMore Geom PointProofs SegProofs EqualProofs Check NoFail RefuteProofs Drawn AreaQueries
  Polygons PolyQueries BoxProofs Areas PolyArea PolyLine PolyMulti PolyPoly Rings Located Mapped Consequences Witness6 Witness10 Witness11 Witness12.
Import ListNotations.
Open Scope Qc_scope.

(* A map that exchanges the sides of lines, and one that does not. *)
Definition mirror : affine := Aff (-(1)) 0 0 1 0 0.
Definition shear : affine := Aff (zq 2) 1 (-(1)) 1 (zq 3) (zq 5).
Lemma mirror_det : det mirror <> 0. Proof. vm_compute. discriminate. Qed.
Lemma shear_det : det shear <> 0. Proof. vm_compute. discriminate. Qed.

Lemma segment_in_region_mirror_refuted_l : exists m s r, det m <> 0 /\ nondegenerate s /\ simple_contour r
  /\ segment_in_region s r = Ok TOUCH /\ segment_in_region (aff_seg m s) (aff_ctr m r) = Ok ENCLOSED.
Proof. exists mirror, (Seg (P 2 4) (P 2 2)), notch. split; [exact mirror_det|]. split; [nd|]. split; [simple|]. split; vm_compute; reflexivity. Qed.
Lemma segment_in_one_refuted_l : exists s r, nondegenerate s /\ simple_contour r
  /\ segment_in_region s r = Ok TOUCH /\ segment_in_multiregion s [r] = Ok ENCLOSED.
Proof. exists (Seg (P 2 4) (P 2 2)), notch. split; [nd|]. split; [simple|]. split; vm_compute; reflexivity. Qed.
Lemma polygon_in_one_refuted_l : exists l r, valid_polygon l /\ valid_polygon r
  /\ polygon_in_polygon l r = Ok WITHIN /\ polygon_in_multipolygon l (MPoly [r]) = Ok ENCLOSED /\ multipolygon_in_multipolygon (MPoly [l]) (MPoly [r]) = Ok ENCLOSED.
Proof. exists w_in, w_out. split; [exact w_in_valid|]. split; [exact w_out_valid|]. repeat split; vm_compute; reflexivity. Qed.

(* Areas in the multipolygon and their images. *)
Lemma wit_affine_areas : det mirror <> 0 /\ det shear <> 0
  /\ valid_multipolygon big_and /\ polygons big_and <> [] /\ Forall simple_contour r_areas
  /\ map (fun r => region_in_multipolygon (aff_ctr mirror r) (aff_mp mirror big_and)) r_areas = [Ok COMPONENT; Ok WITHIN; Ok ENCLOSED; Ok OVERLAP; Ok TOUCH; Ok DISJOINT; Ok ENCLOSES; Ok COVER]
  /\ map (fun r => region_in_multipolygon (aff_ctr shear r) (aff_mp shear big_and)) r_areas = [Ok COMPONENT; Ok WITHIN; Ok ENCLOSED; Ok OVERLAP; Ok TOUCH; Ok DISJOINT; Ok ENCLOSES; Ok COVER].
Proof.
  split; [exact mirror_det|]. split; [exact shear_det|]. destruct wit_areas_multipolygon as (A & B & _ & C & _). split; [exact A|]. split; [exact B|]. split; [exact C|]. split; vm_compute; reflexivity.
Qed.
(* A square whose top edge is split, and which starts elsewhere and runs the other way. *)
Definition sq_split : contour := Ctr [P 12 12; P 12 0; P 0 0; P 0 12; P 5 12].
Lemma region_same r r' : simple_contour r -> simple_contour r' -> region_in_region r r' = Ok EQUAL -> forall p, point_in_region p r = point_in_region p r'.
Proof.
  intros R R' E p. destruct (region_in_region_exact_l r r' R R') as (x & X & S & _). rewrite E in X. injection X as <-.
  pose proof (same_area _ _ (shaped_region r R) (shaped_region r' R') S p) as (A1 & A2 & A3). cbn [region_area a_in a_on a_out] in *.
  destruct (point_in_region_exact_l p r) as (B1 & B2 & B3). destruct (point_in_region_exact_l p r') as (C1 & C2 & C3).
  destruct (point_in_region p r) eqn:Q; symmetry; [apply C2, A3, B2|apply C3, A2, B3|apply C1, A1, B1]; reflexivity.
Qed.
Lemma wit_same_locations : simple_contour (sqr 0 12) /\ simple_contour sq_split /\ (forall p, point_in_region p (sqr 0 12) = point_in_region p sq_split)
  /\ map (fun r => region_in_region r sq_split) (sqr 0 12 :: r_areas) = [Ok EQUAL; Ok TOUCH; Ok WITHIN; Ok ENCLOSED; Ok WITHIN; Ok WITHIN; Ok WITHIN; Ok ENCLOSES; Ok COVER]
  /\ map (fun c => contour_in_region c sq_split) (sqr 0 12 :: r_areas) = [Ok COMPONENT; Ok TOUCH; Ok WITHIN; Ok ENCLOSED; Ok WITHIN; Ok WITHIN; Ok WITHIN; Ok TOUCH; Ok DISJOINT].
Proof.
  assert (S1 : simple_contour (sqr 0 12)) by simple. assert (S2 : simple_contour sq_split) by simple. split; [exact S1|]. split; [exact S2|].
  split; [apply (region_same _ _ S1 S2); vm_compute; reflexivity|]. split; vm_compute; reflexivity.
Qed.
(* One part, exchanged arguments, exchanged parts. *)
Lemma wit_one_part : Forall simple_contour r_areas /\ Forall valid_polygon p_areas /\ valid_polygon big_ring
  /\ map (fun r => region_in_multiregion r [sqr 0 12]) r_areas = [Ok TOUCH; Ok WITHIN; Ok ENCLOSED; Ok WITHIN; Ok WITHIN; Ok WITHIN; Ok ENCLOSES; Ok COVER]
  /\ map (fun r => region_in_multipolygon r (MPoly [big_ring])) r_areas = [Ok TOUCH; Ok WITHIN; Ok ENCLOSED; Ok OVERLAP; Ok TOUCH; Ok DISJOINT; Ok ENCLOSES; Ok COVER]
  /\ map (fun pg => polygon_in_polygon big_ring pg) p_areas = [Ok EQUAL; Ok COVER; Ok ENCLOSES; Ok OVERLAP; Ok TOUCH; Ok DISJOINT; Ok ENCLOSED; Ok WITHIN].
Proof.
  destruct wit_areas_multipolygon as (_ & _ & _ & C & _ & D & _). split; [exact C|]. split; [exact D|]. split; [exact big_ring_valid|]. split; [|split]; vm_compute; reflexivity.
Qed.
Lemma wit_order : valid_multiregion sq_and /\ sq_and <> [] /\ Permutation sq_and (rev sq_and) /\ rev sq_and <> sq_and
  /\ valid_polygon (Poly (sqr 0 12) [sqr 1 2; sqr 4 8]) /\ Permutation [sqr 1 2; sqr 4 8] [sqr 4 8; sqr 1 2]
  /\ map (fun r => region_in_polygon r (Poly (sqr 0 12) [sqr 4 8; sqr 1 2])) r_areas = [Ok TOUCH; Ok OVERLAP; Ok OVERLAP; Ok OVERLAP; Ok TOUCH; Ok DISJOINT; Ok ENCLOSES; Ok COVER].
Proof.
  split; [valid_mr|]. split; [discriminate|]. split; [apply Permutation_rev|]. split; [vm_compute; discriminate|]. split; [valid_pg|]. split; [apply perm_swap|]. vm_compute. reflexivity.
Qed.
Lemma wit_chain : Forall simple_contour [sqr 1 3; sqr 0 4; sqr 0 12; sqr 5 7; big_tri]
  /\ region_in_region (sqr 1 3) (sqr 0 4) = Ok WITHIN /\ region_in_region (sqr 0 4) (sqr 0 12) = Ok ENCLOSED /\ region_in_region (sqr 1 3) (sqr 0 12) = Ok WITHIN
  /\ region_in_region (sqr 0 4) (sqr 5 7) = Ok DISJOINT /\ region_in_region (sqr 1 3) (sqr 5 7) = Ok DISJOINT
  /\ region_in_region (sqr 5 7) (sqr 0 12) = Ok WITHIN /\ region_in_region (sqr 0 12) big_tri = Ok TOUCH /\ region_in_region (sqr 5 7) big_tri = Ok DISJOINT.
Proof. split; [all_simple|]. repeat split; vm_compute; reflexivity. Qed.
