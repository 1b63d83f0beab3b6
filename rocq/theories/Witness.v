(* Concrete geometries showing that the hypotheses of the property theorems
   are met.  Facts about the specification on concrete data are obtained from
   the exactness lemmas by computation. *)
From Coq Require Import QArith Qcanon Lqa List Bool ZArith Permutation.
From Verif Require Import Scalar Base Ground Spec Planar Geom RayParity PointProofs SegProofs.
Import ListNotations.
Open Scope Qc_scope.

Definition tri : contour := Ctr [P 0 0; P 4 0; P 0 4].
(* Self-intersecting. *)
Definition bow : contour := Ctr [P 0 0; P 4 4; P 4 0; P 0 4].
Definition far : contour := Ctr [P 20 0; P 24 0; P 24 4; P 20 4].
Definition ring : polygon :=
  Poly (Ctr [P 0 0; P 10 0; P 10 10; P 0 10])
       [Ctr [P 4 4; P 4 6; P 6 6; P 6 4]; Ctr [P 7 7; P 7 8; P 8 8]].

Ltac on_seg := apply point_in_segment_exact_l; vm_compute; reflexivity.
Ltac on_mseg := apply point_in_multisegment_exact_l; vm_compute; reflexivity.
Ltac on_ctr := apply point_in_contour_exact_l; vm_compute; reflexivity.

Lemma wit_c01 :
  in_segment (Seg (P 0 0) (P 4 2)) (P 2 1) /\ ~ in_segment (Seg (P 0 0) (P 4 2)) (P 6 3)
  /\ ~ in_segment (Seg (P 0 0) (P 4 2)) (P 2 2).
Proof. repeat split; on_seg. Qed.

Lemma wit_c02 :
  let m := MSeg [Seg (P 0 0) (P 4 2); Seg (P 0 3) (P 3 3)] in
  in_multisegment m (P 2 1) /\ in_multisegment m (P 1 3) /\ ~ in_multisegment m (P 2 2).
Proof. cbn zeta. repeat split; on_mseg. Qed.

Lemma wit_c03 : on_contour tri (P 0 1) /\ on_contour tri (P 2 2) /\ ~ on_contour tri (P 1 1).
Proof. repeat split; on_ctr. Qed.

(* A vertex is off a ray when it is off the line, or behind the start. *)
Lemma off_ray p d v : hgt d p v <> 0 \/ vx d * (px v - px p) + vy d * (py v - py p) < 0 -> ~ on_ray p d v.
Proof.
  intros H (t & T & ->). destruct H as [H|H].
  - apply H. unfold hgt; cbn. ring.
  - cbn in H. assert (S1 := q_sq (vx d)). assert (S2 := q_sq (vy d)).
    assert (0 <= t * (vx d * vx d + vy d * vy d)) by qnra. qlra.
Qed.

Ltac q_neq := let H := fresh in intros H; vm_compute in H; discriminate H.

Lemma wit_c05 :
  ~ on_contour bow (P 1 2) /\ generic_ray (vertices bow) (P 1 2) (Vec (zq 3) (zq 1))
  /\ odd_crossings bow (P 1 2) (Vec (zq 3) (zq 1)) true
  /\ ~ on_contour bow (P 2 1) /\ generic_ray (vertices bow) (P 2 1) (Vec (zq 1) (zq 7))
  /\ odd_crossings bow (P 2 1) (Vec (zq 1) (zq 7)) false.
Proof.
  assert (A : ~ on_contour bow (P 1 2)) by on_ctr.
  assert (B : ~ on_contour bow (P 2 1)) by on_ctr.
  assert (G : generic_ray (vertices bow) (P 1 2) (Vec (zq 3) (zq 1))).
  { split; [q_neq|]. intros v Hv.
    repeat (destruct Hv as [<-|Hv]; [apply off_ray; left; q_neq|]). destruct Hv. }
  assert (G' : generic_ray (vertices bow) (P 2 1) (Vec (zq 1) (zq 7))).
  { split; [q_neq|]. intros v Hv.
    repeat (destruct Hv as [<-|Hv]; [apply off_ray; left; q_neq|]). destruct Hv. }
  split; [exact A|]. split; [exact G|]. split; [|split; [exact B|split; [exact G'|]]].
  - exact (odd_crossings_parity bow _ _ A G).
  - exact (odd_crossings_parity bow _ _ B G').
Qed.

(* Non-meeting segments, by computation. *)
Lemma segments_apart l r x :
  nondegenerate l -> nondegenerate r -> segments_relation l r = DISJOINT ->
  in_segment l x -> in_segment r x -> False.
Proof.
  intros Nl Nr E A B. assert (S := segments_relation_sound l r Nl Nr). rewrite E in S.
  apply S. exists x; auto.
Qed.

Lemma wit_c06 :
  (forall x, on_segment (P 1 1) (P 1 2) x -> ~ on_contour tri x)
  /\ point_in_region (P 1 2) tri = INTERIOR.
Proof.
  split; [|vm_compute; reflexivity].
  intros x X (a & b & I & Y).
  cbn in I. repeat (destruct I as [I|I]; [inversion I; subst a b;
    refine (segments_apart (Seg _ _) (Seg _ _) x _ _ _ X Y); [q_neq|q_neq|vm_compute; reflexivity]|]).
  destruct I.
Qed.

Lemma wit_c07 :
  nth_error (cyc_pairs (vertices tri)) 2 = Some (P 0 4, P 0 0)
  /\ meet_at (on_segment (P 1 1) (P (-1) 1)) (on_segment (P 0 4) (P 0 0)) (P 0 1)
  /\ (forall j u v y, nth_error (cyc_pairs (vertices tri)) j = Some (u, v) -> j <> 2%nat ->
                   on_segment u v y -> on_segment (P 1 1) (P (-1) 1) y -> False).
Proof.
  split; [reflexivity|]. split.
  - assert (S := segments_relation_sound (Seg (P 1 1) (P (-1) 1)) (Seg (P 0 4) (P 0 0))).
    destruct S as (p & M & _); [q_neq|q_neq|].
    unfold in_segment in M; cbn [s_start s_end] in M.
    assert (E : P 0 1 = p).
    { apply M.
      - change (in_segment (Seg (P 1 1) (P (-1) 1)) (P 0 1)). on_seg.
      - change (in_segment (Seg (P 0 4) (P 0 0)) (P 0 1)). on_seg. }
    rewrite E. exact M.
  - intros j u v y Hj N Y X.
    destruct j as [|[|[|j]]]; cbn in Hj; [| |contradiction|destruct j; discriminate];
      inversion Hj; subst u v;
      (refine (segments_apart (Seg _ _) (Seg _ _) y _ _ _ Y X); [q_neq|q_neq|vm_compute; reflexivity]).
Qed.

Lemma wit_c08 : forall v, In v (vertices tri) -> px v < px (P 5 1).
Proof. intros v Hv. repeat (destruct Hv as [<-|Hv]; [reflexivity|]). destruct Hv. Qed.

Lemma wit_c09 : exists l1 l2, [P 0 0; P 4 0; P 0 4] = l1 ++ l2 /\ [P 4 0; P 0 4; P 0 0] = l2 ++ l1.
Proof. exists [P 0 0], [P 4 0; P 0 4]. split; reflexivity. Qed.

Lemma wit_c10 : det (Aff (zq 2) (zq 1) (zq (-1)) (zq 3) (zq 5) (zq 7)) <> 0.
Proof. q_neq. Qed.

Ltac not_on := let H := fresh in intros _ H; apply point_in_region_boundary_l in H; vm_compute in H; discriminate H.

Lemma wit_c11 :
  Permutation [tri; far] [far; tri] /\
  (forall r r', In r [tri; far] -> In r' [tri; far] -> inside r (P 1 1) -> on_contour r' (P 1 1) -> False)
  /\ point_in_multiregion (P 1 1) [tri; far] = INTERIOR.
Proof.
  split; [apply perm_swap|]. split; [|vm_compute; reflexivity].
  intros r r' _ [<-|[<-|[]]]; not_on.
Qed.

Lemma wit_c12 :
  (forall h h', In h (holes ring) -> In h' (holes ring) -> inside h (P 5 5) -> on_contour h' (P 5 5) -> False)
  /\ point_in_polygon (P 5 5) ring = EXTERIOR /\ point_in_polygon (P 1 1) ring = INTERIOR
  /\ point_in_polygon (P 4 5) ring = BOUNDARY.
Proof.
  split; [|vm_compute; auto]. intros h h' _ [<-|[<-|[]]]; not_on.
Qed.

Lemma wit_c13 :
  Permutation [ring; Poly far []] [Poly far []; ring] /\
  (forall g g', In g [ring; Poly far []] -> In g' [ring; Poly far []] ->
     point_in_polygon (P 1 1) g = INTERIOR -> point_in_polygon (P 1 1) g' = BOUNDARY -> False)
  /\ point_in_multipolygon (P 1 1) (MPoly [ring; Poly far []]) = INTERIOR.
Proof.
  split; [apply perm_swap|]. split; [|vm_compute; reflexivity].
  intros g g' _ [<-|[<-|[]]] _ H; vm_compute in H; discriminate H.
Qed.

Lemma wit_c14 :
  nondegenerate (Seg (P 0 0) (P 4 4)) /\
  map (segment_in_segment (Seg (P 0 0) (P 4 4)))
      [Seg (P 1 0) (P 5 4); Seg (P 0 4) (P 2 2); Seg (P 0 4) (P 4 0); Seg (P 1 1) (P 6 6);
       Seg (P 3 3) (P 1 1); Seg (P 4 4) (P 0 0); Seg (P (-1) (-1)) (P 4 4)]
  = [DISJOINT; TOUCH; CROSS; OVERLAP; COMPOSITE; EQUAL; COMPONENT].
Proof. split; [q_neq|vm_compute; reflexivity]. Qed.
