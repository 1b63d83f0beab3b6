(* Witnesses for the hypotheses of the theorems of PropsMisc.v. *)
From Coq Require Import QArith Qcanon List Bool ZArith.
From Verif Require Import Scalar Base Ground Planar Spec Geom PointProofs Check BoxProofs.
Import ListNotations.
Open Scope Qc_scope.

Definition quad : contour := Ctr [P 0 0; P 4 0; P 5 3; P 1 4].
Definition quad_turned : contour := Ctr [P 5 3; P 1 4; P 0 0; P 4 0].
Definition quad_back : contour := Ctr [P 4 0; P 0 0; P 1 4; P 5 3].

Lemma wit_c20 :
  simple_contour quad /\ same_cycle (vertices quad) (vertices quad_turned)
  /\ same_cycle (vertices quad) (vertices quad_back) /\ ~ same_cycle (vertices quad) [P 0 0; P 5 3; P 4 0; P 1 4].
Proof.
  split; [apply simple_contourb_ok; vm_compute; reflexivity|]. split; [|split].
  - left. exists [P 0 0; P 4 0], [P 5 3; P 1 4]. auto.
  - right. exists [P 1 4; P 5 3], [P 4 0; P 0 0]. auto.
  - intros [(l1 & l2 & E & E')|(l1 & l2 & E & E')];
      do 5 (destruct l1 as [|x1 l1]; [cbn [app] in E; subst l2;
              match type of E' with ?a = ?b =>
                let H := fresh in
                assert (H : map (fun p => (this (px p), this (py p))) a = map (fun p => (this (px p), this (py p))) b)
                  by (rewrite E'; reflexivity); vm_compute in H; discriminate H end
             |cbn [app rev vertices quad] in E; try discriminate E; injection E as <- E]).
Qed.

Lemma wit_c22 :
  axis_separated (on_contour quad) (on_contour (Ctr [P 6 1; P 9 1; P 9 3])).
Proof.
  assert (B : forall c b, contour_box c = Ok b -> vertices c <> [] -> tight b (on_contour c)).
  { intros c b E N. destruct (contour_box_tight c N) as (b' & E' & T). congruence. }
  eapply disjoint_with_iff.
  - eapply B; [vm_compute; reflexivity|discriminate].
  - eapply B; [vm_compute; reflexivity|discriminate].
  - vm_compute; reflexivity.
Qed.
