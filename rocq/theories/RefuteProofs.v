(* Proofs of the refutations: the witnesses are valid geometries, and what the
   model computes on them contradicts the property. *)
From Coq Require Import QArith Qcanon Lqa List Bool ZArith Lia.
From Verif Require Import Scalar Base Ground Planar Spec Geom RayParity PointProofs SegProofs Check.
Import ListNotations.
Open Scope Qc_scope.

Ltac simple := apply simple_contourb_ok; vm_compute; reflexivity.
Ltac all_simple := repeat (apply Forall_cons; [simple|]); apply Forall_nil.
Ltac ord2 := apply FOP_cons; [apply Forall_cons; [|apply Forall_nil]|apply FOP_cons; [apply Forall_nil|apply FOP_nil]].
Ltac ord1 := apply FOP_cons; [apply Forall_nil|apply FOP_nil].
Ltac located := apply point_in_region_exact_l; vm_compute; reflexivity.
Ltac differ := let H := fresh in intros H; vm_compute in H; discriminate H.

Lemma outside_location c p : outside c p <-> point_in_region p c = EXTERIOR.
Proof. symmetry. apply point_in_region_exact_l. Qed.
Lemma inside_location c p : inside c p <-> point_in_region p c = INTERIOR.
Proof. symmetry. apply point_in_region_exact_l. Qed.

Definition l_shape : contour := Ctr [P 0 0; P 4 0; P 4 2; P 2 2; P 2 4; P 0 4].

Lemma segment_in_region_cross_refuted_l : exists s r,
  simple_contour r /\ nondegenerate s /\ inside r (s_start s) /\ outside r (s_end s)
  /\ segment_in_region s r = Ok ENCLOSED.
Proof.
  exists (Seg (P 1 2) (P 5 2)), l_shape.
  split; [simple|]. split; [differ|]. split; [located|]. split; [located|]. vm_compute; reflexivity.
Qed.

Lemma segment_in_region_reversal_refuted_l : exists s r,
  simple_contour r /\ nondegenerate s
  /\ segment_in_region (Seg (s_end s) (s_start s)) r <> segment_in_region s r.
Proof.
  exists (Seg (P 1 2) (P 5 2)), l_shape.
  split; [simple|]. split; [differ|]. differ.
Qed.

(* A chord running inside the region, and one running outside of it. *)
Lemma chord_location s c loc :
  nondegenerate s -> contour_edges_okb c = true -> edge_clearb c (s_start s, s_end s) = true ->
  point_in_region (lerp (s_start s) (s_end s) half) c = loc ->
  forall p, in_segment s p -> p = s_start s \/ p = s_end s \/ point_in_region p c = loc.
Proof.
  intros N O E L p Hp.
  destruct (pt_dec p (s_start s)) as [->|Na]; [auto|].
  destruct (pt_dec p (s_end s)) as [->|Nb]; [auto|].
  right; right. rewrite <- L. apply edge_clear_location; auto.
Qed.

Definition notch : contour := Ctr [P 2 2; P 1 4; P 4 4; P 5 0; P 0 1; P 0 3].
Definition dent : contour := Ctr [P 1 2; P 3 3; P 2 2; P 2 0].

Lemma segment_in_region_enclosed_refuted_l : exists s r,
  simple_contour r /\ nondegenerate s
  /\ (forall p, in_segment s p -> ~ outside r p)
  /\ (exists p, in_segment s p /\ inside r p)
  /\ segment_in_region s r = Ok TOUCH.
Proof.
  exists (Seg (P 2 4) (P 2 2)), notch. split; [simple|]. split; [differ|]. split; [|split].
  - intros p Hp. rewrite outside_location.
    destruct (chord_location (Seg (P 2 4) (P 2 2)) notch INTERIOR) with (p := p) as [->|[->| ->]];
      try discriminate; try (vm_compute; reflexivity); try differ; auto.
  - exists (P 2 3). split; [|located]. apply point_in_segment_exact_l. vm_compute; reflexivity.
  - vm_compute; reflexivity.
Qed.

Lemma segment_in_region_touch_refuted_l : exists s r,
  simple_contour r /\ nondegenerate s
  /\ (forall p, in_segment s p -> ~ inside r p)
  /\ segment_in_region s r = Ok ENCLOSED.
Proof.
  exists (Seg (P 2 0) (P 3 3)), dent. split; [simple|]. split; [differ|]. split.
  - intros p Hp. rewrite inside_location.
    destruct (chord_location (Seg (P 2 0) (P 3 3)) dent EXTERIOR) with (p := p) as [->|[->| ->]];
      try discriminate; try (vm_compute; reflexivity); try differ; auto.
  - vm_compute; reflexivity.
Qed.

(** Multisegments. *)
Definition bend : multisegment := MSeg [Seg (P 4 2) (P 3 1); Seg (P 4 2) (P 0 4)].
Definition fork : multisegment := MSeg [Seg (P 4 3) (P 4 1); Seg (P 4 2) (P 1 1)].

Lemma multisegment_in_multisegment_cross_refuted_l : exists p a b c d m,
  let path := MSeg [Seg p a; Seg p b] in
  valid_multisegment path /\ valid_multisegment m
  /\ subset (on_segment p c) (in_multisegment m) /\ subset (on_segment p d) (in_multisegment m)
  /\ meet_at (in_multisegment path) (in_multisegment m) p
  /\ in_open_cone p a b c /\ ~ in_closed_cone p a b d
  /\ multisegment_in_multisegment path m = Ok TOUCH
  /\ multisegment_in_multisegment m path = Ok CROSS.
Proof.
  exists (P 4 2), (P 3 1), (P 0 4), (P 1 1), (P 4 3), fork. cbn zeta. fold bend.
  split; [apply valid_multisegmentb_ok; vm_compute; reflexivity|].
  split; [apply valid_multisegmentb_ok; vm_compute; reflexivity|].
  split; [|split; [|split; [|split; [|split; [|split]]]]].
  - intros x Hx. exists (Seg (P 4 2) (P 1 1)). split; [right; left; reflexivity|exact Hx].
  - intros x Hx. exists (Seg (P 4 3) (P 4 1)). split; [left; reflexivity|].
    unfold in_segment; cbn [s_start s_end]. apply on_segment_convex with (p := P 4 2) (q := P 4 3).
    + change (in_segment (Seg (P 4 3) (P 4 1)) (P 4 2)). apply point_in_segment_exact_l. vm_compute; reflexivity.
    + apply on_segment_start.
    + exact Hx.
  - split; [|split].
    + apply point_in_multisegment_exact_l. vm_compute; reflexivity.
    + apply point_in_multisegment_exact_l. vm_compute; reflexivity.
    + intros q (s & [<-|[<-|[]]] & S) (t & [<-|[<-|[]]] & T);
      (match type of S with in_segment ?l _ => match type of T with in_segment ?r _ =>
         apply (discrete_at_most_one l r); [differ|differ|vm_compute; reflexivity| | | |] end end);
      try assumption; apply point_in_segment_exact_l; vm_compute; reflexivity.
  - exists (Q2Qc (5 # 3)), (Q2Qc (1 # 3)). repeat split; try (vm_compute; reflexivity); apply Qc_is_canon; vm_compute; reflexivity.
  - intros (u & v & U & V & E1 & E2). cbn [px py P] in E1, E2. unfold zq, inject_Z in *. qlra.
  - vm_compute; reflexivity.
  - vm_compute; reflexivity.
Qed.

(** Contours. *)
Lemma contour_in_contour_cross_refuted_l : exists l r p q,
  simple_contour l /\ simple_contour r
  /\ on_contour l p /\ inside r p /\ on_contour l q /\ outside r q
  /\ ~ share_segment (on_contour l) (on_contour r)
  /\ contour_in_contour l r = Ok TOUCH
  /\ multisegment_in_contour (MSeg (map (fun e => Seg (fst e) (snd e)) (cyc_pairs (vertices l)))) r = Ok CROSS.
Proof.
  exists (Ctr [P 1 2; P 0 1; P 3 2]), (Ctr [P 0 1; P 2 2; P 0 4]), (P 1 2), (P 3 2).
  split; [simple|]. split; [simple|].
  split; [apply point_in_contour_exact_l; vm_compute; reflexivity|]. split; [located|].
  split; [apply point_in_contour_exact_l; vm_compute; reflexivity|]. split; [located|].
  split; [apply no_shared_segment; vm_compute; reflexivity|]. split; vm_compute; reflexivity.
Qed.

(** Multiregions and multipolygons. *)
Definition sq_a : contour := Ctr [P 0 0; P 4 0; P 4 4; P 0 4].
Definition tri_b : contour := Ctr [P 4 2; P 6 1; P 6 3].

Lemma ab_apart p : inside sq_a p -> inside tri_b p -> False.
Proof.
  intros A B.
  assert (X := inside_side sq_a 1 0 (- zq 4) p). assert (Y := inside_side tri_b (- (1)) 0 (zq 4) p).
  assert (X' : lin 1 0 (- zq 4) p < 0).
  { apply X; auto.
    - intros [E _]. discriminate.
    - intros x Hx. repeat (destruct Hx as [<-|Hx]; [vm_compute; discriminate|]). destruct Hx. }
  assert (Y' : lin (- (1)) 0 (zq 4) p < 0).
  { apply Y; auto.
    - intros [E _]. discriminate.
    - intros x Hx. repeat (destruct Hx as [<-|Hx]; [vm_compute; discriminate|]). destruct Hx. }
  unfold lin in *. clear - X' Y'. generalize dependent (zq 4). intros z X Y. qlra.
Qed.

Lemma ab_valid : valid_multiregion [sq_a; tri_b].
Proof.
  split.
  - all_simple.
  - ord2. split.
    + exact ab_apart.
    + apply no_shared_segment; vm_compute; reflexivity.
Qed.

Definition through : segment := Seg (P 2 2) (P 5 2).

(* The part of the segment in the square, and the part in the triangle. *)
Lemma through_covered p : in_segment through p -> outside sq_a p -> outside tri_b p -> False.
Proof.
  intros H A B. rewrite outside_location in A, B.
  assert (S : in_segment (Seg (P 2 2) (P 4 2)) p \/ in_segment (Seg (P 4 2) (P 5 2)) p).
  { destruct H as (t & T0 & T1 & ->). cbn [s_start s_end through].
    destruct (qleb_spec t (Q2Qc (2 # 3))) as [L|L]; [left|right].
    - exists (t * Q2Qc (3 # 2)). split; [|split].
      + qlra.
      + qlra.
      + apply pt_eq; cbn [lerp px py P s_start s_end]; unfold zq, inject_Z; q_goal; ring.
    - exists (t * zq 3 - zq 2). unfold zq, inject_Z. split; [|split].
      + qlra.
      + qlra.
      + apply pt_eq; cbn [lerp px py P s_start s_end]; unfold zq, inject_Z; q_goal; ring. }
  destruct S as [S|S].
  - destruct (chord_location (Seg (P 2 2) (P 4 2)) sq_a INTERIOR) with (p := p) as [E|[E|E]];
      try (vm_compute; reflexivity); try differ; auto; try congruence;
      rewrite E in A; vm_compute in A; discriminate A.
  - destruct (chord_location (Seg (P 4 2) (P 5 2)) tri_b INTERIOR) with (p := p) as [E|[E|E]];
      try (vm_compute; reflexivity); try differ; auto; try congruence;
      rewrite E in B; vm_compute in B; discriminate B.
Qed.

Lemma segment_in_multiregion_refuted_l : exists s rs,
  valid_multiregion rs /\ nondegenerate s
  /\ (forall p, in_segment s p -> exists r, In r rs /\ ~ outside r p)
  /\ segment_in_multiregion s rs = Ok CROSS.
Proof.
  exists through, [sq_a; tri_b]. split; [exact ab_valid|]. split; [differ|]. split.
  - intros p Hp. destruct (point_in_region p sq_a) eqn:E.
    + exists tri_b. split; [right; left; reflexivity|]. intros O.
      apply (through_covered p Hp); [apply outside_location; exact E|exact O].
    + exists sq_a. split; [left; reflexivity|]. rewrite outside_location. congruence.
    + exists sq_a. split; [left; reflexivity|]. rewrite outside_location. congruence.
  - vm_compute; reflexivity.
Qed.

Lemma ab_polygons_valid : valid_multipolygon (MPoly [Poly sq_a []; Poly tri_b []]).
Proof.
  assert (V : forall c, simple_contour c -> valid_polygon (Poly c [])).
  { intros c H. split; [exact H|]. split; [split; constructor|]. split; cbn; intros; contradiction. }
  split; cbn [polygons].
  - apply Forall_cons; [apply V; simple|apply Forall_cons; [apply V; simple|apply Forall_nil]].
  - ord2. split.
    + intros p [A _] [B _]. exact (ab_apart p A B).
    + intros (a & b & N & H).
      assert (K : ~ share_segment (on_contour sq_a) (on_contour tri_b))
        by (apply no_shared_segment; vm_compute; reflexivity).
      apply K. exists a, b. split; [exact N|]. intros p Hp. destruct (H p Hp) as [A B].
      unfold polygon_boundary in A, B; cbn [border holes] in A, B.
      destruct A as [A|(h & [] & _)]. destruct B as [B|(h & [] & _)]. auto.
Qed.

Lemma segment_in_multipolygon_refuted_l : exists s mp,
  valid_multipolygon mp /\ nondegenerate s
  /\ (forall p, in_segment s p -> exists g, In g (polygons mp) /\ (polygon_interior g p \/ polygon_boundary g p))
  /\ segment_in_multipolygon s mp = Ok CROSS.
Proof.
  exists through, (MPoly [Poly sq_a []; Poly tri_b []]). split; [exact ab_polygons_valid|]. split; [differ|].
  split; [|vm_compute; reflexivity].
  assert (K : forall c p, point_in_region p c <> EXTERIOR ->
              polygon_interior (Poly c []) p \/ polygon_boundary (Poly c []) p).
  { intros c p N. unfold polygon_interior, polygon_boundary; cbn [border holes].
    destruct (point_in_region p c) eqn:E; [contradiction| |].
    - right; left. apply point_in_region_boundary_l; exact E.
    - left. split; [apply inside_location; exact E|intros h []]. }
  intros p Hp. cbn [polygons].
  destruct (point_in_region p sq_a) eqn:E.
  - exists (Poly tri_b []). split; [right; left; reflexivity|]. apply K. intros F.
    apply (through_covered p Hp); apply outside_location; assumption.
  - exists (Poly sq_a []). split; [left; reflexivity|]. apply K. congruence.
  - exists (Poly sq_a []). split; [left; reflexivity|]. apply K. congruence.
Qed.

(** Polygons. *)
Definition l_hole : contour := Ctr [P 2 2; P 1 3; P 1 1].
Definition l_poly : polygon := Poly l_shape [l_hole].

(* A hole that meets the border at most in its own vertices. *)
Definition hole_okb (b h : contour) : bool :=
  forallb (fun e => edge_clearb b e
                    && negb (location_eqb (point_in_region (fst e) b) EXTERIOR)
                    && negb (location_eqb (point_in_region (snd e) b) EXTERIOR)
                    && location_eqb (point_in_region (lerp (fst e) (snd e) half) b) INTERIOR)
          (cyc_pairs (vertices h)).
Lemma hole_okb_ok b h :
  contour_edges_okb b = true -> contour_edges_okb h = true -> hole_okb b h = true ->
  forall p, on_contour h p -> ~ outside b p.
Proof.
  intros B H O p (x & y & I & S). unfold hole_okb, contour_edges_okb in *. rewrite forallb_forall in O, H.
  assert (N := nodegb_ok _ (H _ I)).
  specialize (O _ I). cbn [fst snd] in O. rewrite !andb_true_iff, !negb_true_iff in O.
  destruct O as [[[C E1] E2] E3]. rewrite outside_location.
  destruct (chord_location (Seg x y) b INTERIOR) with (p := p) as [->|[->| ->]]; auto; try discriminate.
  - cbn [s_start s_end] in *. destruct (location_eqb_spec (point_in_region (lerp x y half) b) INTERIOR); [assumption|discriminate].
  - cbn [s_start s_end] in *. destruct (location_eqb_spec (point_in_region x b) EXTERIOR); [discriminate|assumption].
  - cbn [s_start s_end] in *. destruct (location_eqb_spec (point_in_region y b) EXTERIOR); [discriminate|assumption].
Qed.

Lemma l_poly_valid : valid_polygon l_poly.
Proof.
  split; [simple|]. split; [split; [all_simple|ord1]|]. cbn [holes border l_poly]. split.
  - intros h p [<-|[]]. apply hole_okb_ok; vm_compute; reflexivity.
  - intros h [<-|[]]. apply no_shared_segment; vm_compute; reflexivity.
Qed.

Definition along : segment := Seg (P 1 2) (P 4 2).
Lemma along_no_interior p : in_segment along p -> ~ polygon_interior l_poly p.
Proof.
  intros H [A B]. specialize (B l_hole (or_introl eq_refl)). cbn [border l_poly] in A.
  rewrite inside_location in A. rewrite outside_location in B.
  assert (S : in_segment (Seg (P 1 2) (P 2 2)) p \/ in_segment (Seg (P 4 2) (P 2 2)) p).
  { destruct H as (t & T0 & T1 & ->). cbn [s_start s_end along].
    destruct (qleb_spec t (Q2Qc (1 # 3))) as [L|L]; [left|right].
    - exists (t * zq 3). unfold zq, inject_Z. split; [|split].
      + qlra.
      + qlra.
      + apply pt_eq; cbn [lerp px py P s_start s_end]; unfold zq, inject_Z; q_goal; ring.
    - exists ((1 - t) * Q2Qc (3 # 2)). split; [|split].
      + qlra.
      + qlra.
      + apply pt_eq; cbn [lerp px py P s_start s_end]; unfold zq, inject_Z; q_goal; ring. }
  destruct S as [S|S].
  - destruct (chord_location (Seg (P 1 2) (P 2 2)) l_hole INTERIOR) with (p := p) as [E|[E|E]];
      try (vm_compute; reflexivity); try differ; auto; try congruence;
      rewrite E in B; vm_compute in B; discriminate B.
  - assert (O : on_contour l_shape p).
    { exists (P 4 2), (P 2 2). split; [right; right; left; reflexivity|exact S]. }
    apply point_in_region_boundary_l in O. congruence.
Qed.

Lemma segment_in_polygon_refuted_l : exists s pg,
  valid_polygon pg /\ nondegenerate s
  /\ (forall p, in_segment s p -> ~ polygon_interior pg p)
  /\ segment_in_polygon s pg = Ok CROSS.
Proof.
  exists along, l_poly. split; [exact l_poly_valid|]. split; [differ|]. split; [exact along_no_interior|].
  vm_compute; reflexivity.
Qed.

Definition sqr (a b : Z) : contour := Ctr [P a a; P b a; P b b; P a b].
Definition w_in : polygon := Poly (sqr 4 12) [sqr 6 10].
Definition w_out : polygon := Poly (sqr 0 20) [Ctr [P 12 6; P 14 5; P 14 7]; sqr 7 9].

Lemma w_in_valid : valid_polygon w_in.
Proof.
  split; [simple|]. split; [split; [all_simple|ord1]|]. cbn [holes border w_in]. split.
  - intros h p [<-|[]]. apply hole_okb_ok; vm_compute; reflexivity.
  - intros h [<-|[]]. apply no_shared_segment; vm_compute; reflexivity.
Qed.

Lemma w_out_valid : valid_polygon w_out.
Proof.
  split; [simple|]. split; [split|split]; cbn [holes border w_out].
  - all_simple.
  - ord2. split.
    + intros p A B.
      assert (X : lin (- (1)) 0 (zq 10) p < 0).
      { apply (inside_side _ _ _ _ _) with (3 := A).
        - intros [E _]. discriminate.
        - intros x Hx. repeat (destruct Hx as [<-|Hx]; [vm_compute; discriminate|]). destruct Hx. }
      assert (Y : lin 1 0 (- zq 10) p < 0).
      { apply (inside_side _ _ _ _ _) with (3 := B).
        - intros [E _]. discriminate.
        - intros x Hx. repeat (destruct Hx as [<-|Hx]; [vm_compute; discriminate|]). destruct Hx. }
      unfold lin in *. clear - X Y. generalize dependent (zq 10). intros z X Y. qlra.
    + apply no_shared_segment; vm_compute; reflexivity.
  - intros h p [<-|[<-|[]]]; apply hole_okb_ok; vm_compute; reflexivity.
  - intros h [<-|[<-|[]]]; apply no_shared_segment; vm_compute; reflexivity.
Qed.

Lemma polygon_in_polygon_within_refuted_l : exists l r p,
  valid_polygon l /\ valid_polygon r
  /\ polygon_in_polygon l r = Ok WITHIN
  /\ polygon_boundary l p /\ polygon_boundary r p.
Proof.
  exists w_in, w_out, (P 12 6). split; [exact w_in_valid|]. split; [exact w_out_valid|].
  split; [vm_compute; reflexivity|]. split.
  - left. apply point_in_contour_exact_l. vm_compute; reflexivity.
  - right. eexists. split; [left; reflexivity|]. apply point_in_contour_exact_l. vm_compute; reflexivity.
Qed.
