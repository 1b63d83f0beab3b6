(* Inputs for the examples of PropsEachLine.v. *)
From Coq Require Import QArith Qcanon List Bool ZArith.
From Verif Require Import Scalar Base Ground MLinear MSweep MCompound Planar Spec SpecAreas SpecMore SpecAround SpecSeen SpecEachLine Geom PointProofs SegProofs Check RefuteProofs Areas Pieces SeenProofs SeenEach LineEach
  Witness6 Witness10 Witness11 Witness12 Witness16 Witness18 Witness34.
Import ListNotations.
Open Scope Qc_scope.

Definition six_ways : list segment := [Seg (P 9 9) (P 9 10); Seg (P 4 2) (P 5 5); Seg (P (-5) 0) (P 0 0); Seg (P 4 1) (P 4 3); Seg (P 4 3) (P 0 3); Seg (P (-1) 0) (P 1 0)].
Definition along : segment := Seg (P 3 0) (P 6 0).
Ltac on_it := match goal with |- on_segment ?a ?b ?q => refine (proj1 (proj1 (point_in_segment_exact_l q (Seg a b))) _); vm_compute; reflexivity end.
Lemma along_boundary : subset (in_segment along) (a_on (multipolygon_area shut)).
Proof.
  intros p Hp. destruct (segment_parts (P 3 0) (P 6 0) (P 4 0) p ltac:(on_it) Hp) as [K|K].
  - exists (Poly (sqr (-4) 4) [Ctr [P 4 0; P 2 0; P 3 1]]). split; [left; reflexivity|]. right. exists (Ctr [P 4 0; P 2 0; P 3 1]). split; [left; reflexivity|].
    exists (P 4 0), (P 2 0). split; [vm_compute; tauto|]. apply (on_segment_convex _ _ (P 3 0) (P 4 0)); [cbn [fst snd]; on_it|cbn [fst snd]; on_it|exact K].
  - exists (Poly (Ctr [P 4 0; P 8 0; P 8 2]) []). split; [right; left; reflexivity|]. left.
    exists (P 4 0), (P 8 0). split; [vm_compute; tauto|]. apply (on_segment_convex _ _ (P 4 0) (P 6 0)); [cbn [fst snd]; on_it|cbn [fst snd]; on_it|exact K].
Qed.
Lemma wit_each_line : valid_multipolygon shut /\ polygons shut <> [] /\ Forall nondegenerate (along :: six_ways)
  /\ map (fun s => segment_in_multipolygon s shut) six_ways = [Ok DISJOINT; Ok TOUCH; Ok CROSS; Ok COMPONENT; Ok ENCLOSED; Ok WITHIN]
  /\ cut_by [(s_start along, s_end along)] (multipolygon_edges shut) /\ linear_areal_spec (in_segment along) (multipolygon_area shut) COMPONENT /\ segment_in_multipolygon along shut = Ok CROSS.
Proof.
  split; [valid_mp|]. split; [discriminate|]. split; [repeat (apply Forall_cons; [differ|]); apply Forall_nil|]. split; [vm_compute; reflexivity|]. split; [cut_at (P 3 0, P 6 0) (P 4 (-4), P 4 4) (P 4 0)|].
  split; [exact along_boundary|vm_compute; reflexivity].
Qed.
