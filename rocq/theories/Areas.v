(* Two areas: what their interiors and boundaries have in common. *)
From Coq Require Import QArith Qcanon List Bool ZArith Lia Permutation.
From Verif Require Import Scalar Base Ground MLinear MSweep MCompound Planar Spec SpecAreas Geom RayParity SegProofs BoxProofs PointProofs EqualProofs
  SweepStore SweepDetect SweepSteps Termination SweepSafe NoFail SweepTime SweepOrder SweepMoves SweepAdvance SweepLoop SweepEmit SweepRun SweepFound
  SweepLow SweepFlags SweepInside SweepMarks SweepTold OpenProofs Orient Walk Area Vertical AreaFlags AreaSem AreaAnswer Drawn Gather Cover Sector AreaQueries ClosedProofs Polygons Inner PolyQueries.
Import ListNotations.
Open Scope Qc_scope.

Definition shaped (A : area) : Prop := exists E, drawn E A.
Lemma shaped_region r : simple_contour r -> shaped (region_area r).
Proof. intros R. destruct (oriented_gives r false R) as (g & Hg & _). exists g. exact (drawn_region r g R Hg). Qed.
Lemma shaped_multiregion rs : valid_multiregion rs -> rs <> [] -> shaped (multiregion_area rs).
Proof. intros V N. destruct (multiregion_gives rs false (multiregion_contours rs V)) as (g & Hg & _). exists g. exact (drawn_multiregion rs g V N Hg). Qed.
Lemma shaped_polygon pg : valid_polygon pg -> shaped (polygon_area pg).
Proof. intros V. destruct (pg_edges pg V) as (g & Hg & _). exists g. exact (drawn_polygon pg V g Hg). Qed.
Lemma shaped_multipolygon mp : valid_multipolygon mp -> polygons mp <> [] -> shaped (multipolygon_area mp).
Proof. intros V N. destruct (polygons_edges_given mp V) as (g & Hg). exists g. exact (drawn_polygons _ g (proj1 V) (proj2 V) N Hg). Qed.
Lemma list_or {A} (P : A -> Prop) (f : A -> bool) (l : list A) : (forall x, P x <-> f x = true) -> (exists x, In x l /\ P x) \/ ~ (exists x, In x l /\ P x).
Proof.
  intros H. destruct (existsb f l) eqn:E.
  - left. apply existsb_exists in E. destruct E as (x & I & K). exists x. split; [exact I|apply H, K].
  - right. intros (x & I & K). assert (Z : existsb f l = true) by (apply existsb_exists; exists x; split; [exact I|apply H, K]). congruence.
Qed.
Lemma flag_or (outs : list levent) s (f : levent -> bool) :
  (exists o, In o outs /\ l_from_test o = s /\ f o = true) \/ ~ (exists o, In o outs /\ l_from_test o = s /\ f o = true).
Proof. apply (list_or _ (fun o => Bool.eqb (l_from_test o) s && f o)). intros o. rewrite andb_true_iff, eqb_true_iff. tauto. Qed.
Lemma sh_apart A : shaped A -> apart_area A.
Proof. intros (E & D). exact (areas_apart E A D). Qed.
Lemma sh_cases A p : shaped A -> a_in A p \/ a_on A p \/ a_out A p.
Proof. intros (E & D). exact (drawn_cases E A p D). Qed.
Lemma sh_in_on A p : shaped A -> a_in A p -> a_on A p -> False.
Proof. intros S H K. exact (proj1 (sh_apart A S p) (conj H K)). Qed.
Lemma sh_in_out A p : shaped A -> a_in A p -> a_out A p -> False.
Proof. intros S H K. exact (proj1 (proj2 (sh_apart A S p)) (conj H K)). Qed.
Lemma sh_on_out A p : shaped A -> a_on A p -> a_out A p -> False.
Proof. intros S H K. exact (proj2 (proj2 (sh_apart A S p)) (conj H K)). Qed.
Lemma sh_cl_out A p : shaped A -> a_cl A p -> a_out A p -> False.
Proof. intros S [H|H] K; [exact (sh_in_out A p S H K)|exact (sh_on_out A p S H K)]. Qed.
Lemma sh_some A : shaped A -> exists p, a_on A p.
Proof. intros (E & D). pose proof (dr_some _ _ D) as N. destruct E as [|e E]; [congruence|]. exists (fst e). apply (dr_on _ _ D). exists e. split; [left; reflexivity|apply on_segment_start]. Qed.
Section Pair.
  Variable (A B : area).
  Hypothesis (SA : shaped A) (SB : shaped B).
  (* Beside a boundary point there are points of both sides. *)
  Lemma sh_beside p (v a : bool) : a_on A p -> (if v then a_in B else a_out B) p -> exists q, (if a then a_in A else a_out A) q /\ (if v then a_in B else a_out B) q.
  Proof using SA SB. destruct SA as (t & Dt), SB as (g & Dg). exact (beside_on g t A B Dg Dt true p v a). Qed.
  Lemma sh_decide : (subset (a_cl A) (a_cl B) \/ exists p, a_in A p /\ a_out B p) /\ (meets (a_in A) (a_in B) \/ ~ meets (a_in A) (a_in B)) /\ (meets (a_on A) (a_on B) \/ ~ meets (a_on A) (a_on B))
    /\ (meets (a_on A) (a_in B) \/ ~ meets (a_on A) (a_in B)) /\ (meets (a_on A) (a_out B) \/ ~ meets (a_on A) (a_out B)).
  Proof using SA SB.
    destruct SA as (t & Dt), SB as (g & Dg). destruct (fa_ready g t A B Dg Dt) as (stop & b & IO & AP & EB). set (inp := two_items g t) in *. set (ar := fun s : bool => if s then A else B).
    pose proof (tw_areal inp g t A B (side_two g t false) (side_two g t true) Dg Dt) as AR.
    pose proof (tw_has inp g t A B (side_two g t false) (side_two g t true) Dg Dt) as HS.
    destruct (sweep_returns inp false stop IO AP) as [q R]. destruct (sweep false (sweep_fuel (init_state inp)) stop (init_state inp)) as [outs r] eqn:Sw. cbn [snd] in R. subst r.
    destruct (flag_points inp stop b IO AP EB _ outs q Sw true _ _ (AR false)) as [FI FO]. destruct (flag_points inp stop b IO AP EB _ outs q Sw false _ _ (AR true)) as [FI' FO'].
    assert (DI : forall s, f_in outs s \/ ~ f_in outs s) by (intros s; apply flag_or).
    assert (DO : forall s, f_out outs q s \/ ~ f_out outs q s).
    { intros s. unfold f_out. destruct (flag_or outs s l_outside) as [K|K]; [left; left; exact K|]. destruct (queue_rest q) as [s'|]; [destruct (Bool.bool_dec s' s) as [->|Ne]|].
      - left. right. reflexivity.
      - right. intros [Z|Z]; [exact (K Z)|]. injection Z as Z. exact (Ne Z).
      - right. intros [Z|Z]; [exact (K Z)|discriminate]. }
    split; [|split; [|split; [|split]]].
    - pose proof (not_sub inp stop b IO AP EB _ _ AR _ outs q Sw true) as NS. pose proof (sub_iff inp _ _ AR true) as SI. cbn [negb] in *.
      assert (D : (f_out outs q true \/ f_in outs false \/ f_diff outs true) \/ ~ (f_out outs q true \/ f_in outs false \/ f_diff outs true)).
      { destruct (DO true) as [K1|K1]; [auto|]. destruct (DI false) as [K2|K2]; [auto|]. destruct (flag_or outs true l_common_polyline) as [K3|K3]; [left; right; right; exact K3|]. right. intros [Z|[Z|Z]]; auto. }
      assert (CL : forall z p, a_cl (the_area inp (fun s => a_in (ar s)) (fun s => a_out (ar s)) z) p <-> a_cl (ar z) p).
      { intros z p. unfold a_cl, the_area. cbn [a_in a_on]. rewrite HS. destruct z; reflexivity. }
      destruct D as [D|D].
      + apply NS in D. destruct D as (p & P1 & P2). apply (CL true p) in P1. right. destruct P1 as [P1|P1]; [exists p; auto|].
        exact (beside_on g t A B Dg Dt true p false true P1 P2).
      + left. intros p Hp. apply (CL false p). apply SI; [|apply (CL true p), Hp]. intros Z. apply D, NS, Z.
    - pose proof (in_meets inp stop b IO AP EB _ _ AR _ outs q Sw) as IM. rewrite IM.
      assert (D : f_same outs \/ ~ f_same outs) by (apply (list_or _ l_common_boundary); intros o; reflexivity).
      destruct D as [D|D]; [auto|]. destruct (DI true) as [K1|K1]; [auto|]. destruct (DI false) as [K2|K2]; [auto|]. right. intros [Z|[Z|Z]]; auto.
    - pose proof (run_meets inp stop b IO AP EB _ outs q Sw) as RM.
      assert (E : meets (side_has inp true) (side_has inp false) <-> meets (a_on A) (a_on B)) by (apply meets_ext; [apply (HS true)|apply (HS false)]). rewrite <- E, <- RM.
      destruct (forallb _ outs); [right; discriminate|left; reflexivity].
    - assert (E : meets (side_has inp true) (a_in B) <-> meets (a_on A) (a_in B)) by (apply meets_ext; [apply (HS true)|reflexivity]). rewrite <- E. cbn [negb] in FI. rewrite <- FI. apply DI.
    - assert (E : meets (side_has inp true) (a_out B) <-> meets (a_on A) (a_out B)) by (apply meets_ext; [apply (HS true)|reflexivity]). rewrite <- E. cbn [negb] in FO. rewrite <- FO. apply DO.
  Qed.
  Lemma sh_sub_dec : subset (a_cl A) (a_cl B) \/ exists p, a_in A p /\ a_out B p.
  Proof using SA SB. apply sh_decide. Qed.
  Lemma sh_not_sub : ~ subset (a_cl A) (a_cl B) -> exists p, a_in A p /\ a_out B p.
  Proof using SA SB. intros N. destruct sh_sub_dec as [H|H]; [destruct (N H)|exact H]. Qed.
  Lemma sh_in p : subset (a_cl A) (a_cl B) -> a_in A p -> a_in B p.
  Proof using SA SB.
    intros S H. destruct (S p (or_introl H)) as [K|K]; [exact K|exfalso].
    destruct SA as (t & Dt), SB as (g & Dg). destruct (beside_on g t A B Dg Dt false p true false K H) as (q & Q1 & Q2). cbn [negb] in *.
    exact (sh_cl_out B q SB (S q (or_introl Q2)) Q1).
  Qed.
  Lemma sh_sub_in : subset (a_cl A) (a_cl B) -> meets (a_in A) (a_in B).
  Proof using SA SB. destruct SA as (t & Dt), SB as (g & Dg). exact (sub_in g t A B Dg Dt). Qed.
  Lemma sh_sub_in' : subset (a_cl B) (a_cl A) -> meets (a_in A) (a_in B).
  Proof using SA SB. destruct SA as (t & Dt), SB as (g & Dg). exact (sub_in' g t A B Dg Dt). Qed.
  Lemma sh_equal_on : same_set (a_cl A) (a_cl B) -> subset (a_on A) (a_on B).
  Proof using SA SB. destruct SA as (t & Dt), SB as (g & Dg). exact (equal_on g t A B Dg Dt). Qed.
  Lemma sh_of rel : areal_spec A B rel -> answer_is (areal_spec A B) (Ok rel).
  Proof using SA SB. destruct SA as (t & Dt), SB as (g & Dg). exact (fa_of g t A B Dg Dt rel). Qed.
  Lemma sh_on_sub : subset (a_on A) (a_on B) \/ ~ subset (a_on A) (a_on B).
  Proof using SA SB.
    destruct sh_decide as (_ & _ & _ & [K|K] & L).
    - right. intros S. destruct K as (p & P1 & P2). exact (sh_in_on B p SB P2 (S p P1)).
    - destruct L as [L|L]; [right; intros S; destruct L as (p & P1 & P2); exact (sh_on_out B p SB (S p P1) P2)|]. left. intros p Hp.
      destruct (sh_cases B p SB) as [H|[H|H]]; [exfalso; apply K; exists p; auto|exact H|exfalso; apply L; exists p; auto].
  Qed.
  (* Closed areas that meet have common interior or boundary points. *)
  Lemma sh_cl_meets : meets (a_cl A) (a_cl B) -> meets (a_in A) (a_in B) \/ meets (a_on A) (a_on B).
  Proof using SA SB.
    intros (p & [P1|P1] & [P2|P2]).
    - left. exists p. auto.
    - left. destruct SA as (t & Dt), SB as (g & Dg). exact (in_on_meets g t A B Dg Dt p P1 P2).
    - left. destruct SA as (t & Dt), SB as (g & Dg). exact (on_in_meets g t A B Dg Dt p P1 P2).
    - right. exists p. auto.
  Qed.
End Pair.
Lemma sh_inner A : shaped A -> exists p, a_in A p.
Proof. intros S. destruct (sh_sub_in A A S S (fun p H => H)) as (p & P & _). exists p. exact P. Qed.
(* Every pair of areas has one relation. *)
Lemma sh_total A B : shaped A -> shaped B -> exists rel, areal_spec A B rel.
Proof.
  intros SA SB. destruct (sh_decide A B SA SB) as (S & I & O & _). destruct (sh_sub_dec B A SB SA) as [T|T].
  - destruct S as [S|(p & P1 & P2)]; [exists EQUAL; intros p; split; [apply S|apply T]|].
    assert (NS : ~ subset (a_cl A) (a_cl B)) by (intros K; exact (sh_cl_out B p SB (K p (or_introl P1)) P2)).
    destruct (sh_decide B A SB SA) as (_ & _ & [O'|O'] & _); [|exists COVER; cbn [areal_spec]; unfold proper_part; auto].
    destruct (sh_on_sub B A SB SA) as [K|K]; [exists COMPOSITE|exists ENCLOSES]; cbn [areal_spec]; unfold proper_part; auto.
  - destruct T as (z & Z1 & Z2). assert (NT : ~ subset (a_cl B) (a_cl A)) by (intros K; exact (sh_cl_out A z SA (K z (or_introl Z1)) Z2)). destruct S as [S|(p & P1 & P2)].
    + destruct O as [O|O]; [|exists WITHIN; cbn [areal_spec]; unfold proper_part; auto].
      destruct (sh_on_sub A B SA SB) as [K|K]; [exists COMPONENT|exists ENCLOSED]; cbn [areal_spec]; unfold proper_part; auto.
    + assert (NS : ~ subset (a_cl A) (a_cl B)) by (intros K; exact (sh_cl_out B p SB (K p (or_introl P1)) P2)).
      destruct I as [I|I]; [exists OVERLAP; cbn [areal_spec]; auto|]. destruct O as [O|O]; [exists TOUCH; cbn [areal_spec]; auto|].
      exists DISJOINT. cbn [areal_spec]. intros M. destruct (sh_cl_meets A B SA SB M) as [K|K]; auto.
Qed.
