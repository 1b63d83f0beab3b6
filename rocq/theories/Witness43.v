(* Inputs for the examples of PropsEach.v. *)
From Coq Require Import QArith Qcanon List Bool ZArith.
From Verif Require Import Scalar Base Ground MLinear MSweep MCompound Planar Spec SpecAreas SpecMore SpecSeen SpecEach Geom PointProofs SegProofs Check RefuteProofs Areas SeenProofs OnePoly OneRegion SeenEach
  Witness Witness6 Witness11 Witness12 Witness22 Witness33 Witness34 Witness42.
Import ListNotations.
Open Scope Qc_scope.

Definition two_sides : multipolygon := MPoly [Poly left_c []; Poly right_c []].
Definition past_sides : multipolygon := MPoly [Poly past []; Poly right_c []].
Lemma wit_each : valid_polygon cut_pg /\ valid_multipolygon two_sides /\ valid_multiregion [left_c; right_c]
  /\ polygon_in_multipolygon cut_pg two_sides = Ok EQUAL /\ multiregion_in_multipolygon [left_c; right_c] (MPoly [cut_pg]) = Ok EQUAL /\ multipolygon_in_multipolygon two_sides (MPoly [cut_pg]) = Ok EQUAL
  /\ valid_multipolygon past_sides /\ seen_cut (polygon_edges cut_pg) (multipolygon_edges past_sides) /\ polygon_in_multipolygon cut_pg past_sides = Ok OVERLAP
  /\ subset (a_cl (polygon_area cut_pg)) (a_cl (multipolygon_area past_sides)).
Proof.
  destruct wit_one_regions as (V & V2 & C & E & _ & _ & _ & V1 & _). split; [exact V|]. split; [valid_mp|]. split; [exact V1|]. split; [vm_compute; reflexivity|]. split; [vm_compute; reflexivity|]. split; [vm_compute; reflexivity|].
  split; [valid_mp|]. split; [|split; [vm_compute; reflexivity|]].
  - seen_at (P 0 0, P 8 0) (P 4 (-2), P 4 10) (P 4 0) (P 0 0).
  - intros p Hp. destruct E as [[S _] _]. apply S in Hp. destruct Hp as [(r & I & Hp)|(r & I & Hp)]; [left|right]; exists (Poly r []); (split; [destruct I as [<-|[<-|[]]]; cbn; auto|]).
    + split; [exact Hp|intros h []].
    + left. exact Hp.
Qed.
