(* Lines with the same points. *)
From Coq Require Import QArith Qcanon List Bool ZArith Lia.
From Verif Require Import Scalar Base Ground MLinear MSweep MCompound Planar Spec SpecAreas SpecMore SpecSides SpecAround Geom PointProofs Agree RefuteProofs Pieces Witness Witness6 Witness10 Witness11 Witness12 Witness15 Witness16 LinesTold.
Import ListNotations.
Open Scope Qc_scope.

Lemma points_of_lines m m' : (forall p, in_multisegment m p <-> in_multisegment m' p) -> forall p, point_in_multisegment p m = point_in_multisegment p m'.
Proof.
  intros E p. destruct (point_in_multisegment_exact_l p m) as [U W], (point_in_multisegment_exact_l p m') as [U' W']. specialize (E p).
  destruct (point_in_multisegment p m) eqn:Q; symmetry; [apply W'; rewrite <- E; apply W; reflexivity|apply U', E, U; reflexivity|].
  exfalso. unfold point_in_multisegment, multisegment_locate_point in Q. destruct (forallb _ _); discriminate.
Qed.
Lemma points_of_line s s' : (forall p, in_segment s p <-> in_segment s' p) -> forall p, point_in_segment p s = point_in_segment p s'.
Proof.
  intros E p. destruct (point_in_segment_exact_l p s) as [U W], (point_in_segment_exact_l p s') as [U' W']. specialize (E p).
  destruct (point_in_segment p s) eqn:Q; symmetry; [apply W'; rewrite <- E; apply W; reflexivity|apply U', E, U; reflexivity|].
  exfalso. unfold point_in_segment in Q. destruct (segment_locate_point_spec s p) as [[K _]|[K _]]; rewrite K in Q; discriminate.
Qed.
Lemma points_of_ring c c' : (forall p, on_contour c p <-> on_contour c' p) -> forall p, point_in_contour p c = point_in_contour p c'.
Proof.
  intros E p. destruct (point_in_contour_exact_l p c) as [U W], (point_in_contour_exact_l p c') as [U' W']. specialize (E p).
  destruct (point_in_contour p c) eqn:Q; symmetry; [apply W'; rewrite <- E; apply W; reflexivity|apply U', E, U; reflexivity|].
  exfalso. unfold point_in_contour, contour_locate_point in Q. destruct (forallb _ _); discriminate.
Qed.
(* Every segment is covered by the others, found by cutting it at given points. *)
Lemma halves a m b p : on_segment a b m -> on_segment a b p -> on_segment a m p \/ on_segment m b p.
Proof. intros O. apply segment_parts, O. Qed.
Fixpoint covered (n : nat) (l : list (point * point)) (cuts : list point) (a b : point) : bool :=
  existsb (fun e => match point_in_segment a (Seg (fst e) (snd e)), point_in_segment b (Seg (fst e) (snd e)) with BOUNDARY, BOUNDARY => true | _, _ => false end) l
  || match n with
     | O => false
     | S n => existsb (fun m => match point_in_segment m (Seg a b) with BOUNDARY => covered n l cuts a m && covered n l cuts m b | _ => false end) cuts
     end.
Lemma covered_on n l cuts : forall a b, covered n l cuts a b = true -> forall p, on_segment a b p -> exists e, In e l /\ on_segment (fst e) (snd e) p.
Proof.
  assert (B : forall p a b, point_in_segment p (Seg a b) = BOUNDARY -> on_segment a b p) by (intros p a b K; exact (proj1 (proj1 (point_in_segment_exact_l p (Seg a b))) K)).
  assert (One : forall a b p, existsb (fun e => match point_in_segment a (Seg (fst e) (snd e)), point_in_segment b (Seg (fst e) (snd e)) with BOUNDARY, BOUNDARY => true | _, _ => false end) l = true -> on_segment a b p -> exists e, In e l /\ on_segment (fst e) (snd e) p).
  { intros a b p H O. apply existsb_exists in H. destruct H as (e & I & H). exists e. split; [exact I|]. destruct (point_in_segment a _) eqn:Qa; try discriminate. destruct (point_in_segment b _) eqn:Qb; try discriminate.
    exact (on_segment_convex _ _ a b p (B _ _ _ Qa) (B _ _ _ Qb) O). }
  induction n as [|n IH]; intros a b H p O; cbn [covered] in H; apply orb_prop in H; destruct H as [H|H]; try (exact (One a b p H O)); [discriminate|].
  apply existsb_exists in H. destruct H as (m & _ & H). destruct (point_in_segment m (Seg a b)) eqn:Q; try discriminate. apply andb_prop in H. destruct H as [H1 H2].
  destruct (halves a m b p (B _ _ _ Q) O) as [K|K]; [exact (IH a m H1 p K)|exact (IH m b H2 p K)].
Qed.
Definition all_covered (l l' : list (point * point)) (cuts : list point) : bool := forallb (fun e => covered 2 l' cuts (fst e) (snd e)) l.
Lemma all_covered_on l l' cuts : all_covered l l' cuts = true -> forall p, (exists e, In e l /\ on_segment (fst e) (snd e) p) -> exists e, In e l' /\ on_segment (fst e) (snd e) p.
Proof. intros H p (e & I & O). unfold all_covered in H. rewrite forallb_forall in H. exact (covered_on 2 l' cuts _ _ (H e I) p O). Qed.
Lemma same_lines_by m m' cuts : all_covered (segment_list m) (segment_list m') cuts = true -> all_covered (segment_list m') (segment_list m) cuts = true -> forall p, point_in_multisegment p m = point_in_multisegment p m'.
Proof. intros H H'. apply points_of_lines. intros p. rewrite <- !OpenProofs.ms_ends. split; [apply (all_covered_on _ _ _ H)|apply (all_covered_on _ _ _ H')]. Qed.
Lemma same_ring_by c c' cuts : all_covered (cyc_pairs (vertices c)) (cyc_pairs (vertices c')) cuts = true -> all_covered (cyc_pairs (vertices c')) (cyc_pairs (vertices c)) cuts = true -> forall p, point_in_contour p c = point_in_contour p c'.
Proof. intros H H'. apply points_of_ring. intros p. rewrite <- !ring_ends. split; [apply (all_covered_on _ _ _ H)|apply (all_covered_on _ _ _ H')]. Qed.
Ltac by_cuts l := (apply (same_lines_by _ _ l) || apply (same_ring_by _ _ l)); vm_compute; reflexivity.

(* A zigzag in three and in five segments. *)
Definition zig : multisegment := MSeg [Seg (P 2 (-2)) (P 2 2); Seg (P 2 2) (P 5 5); Seg (P 6 0) (P 8 0)].
Definition zig_cut : multisegment := MSeg [Seg (P 7 0) (P 6 0); Seg (P 2 (-2)) (P 2 0); Seg (P 4 4) (P 5 5); Seg (P 2 2) (P 2 0); Seg (P 2 2) (P 4 4); Seg (P 7 0) (P 8 0)].
Definition flat : segment := Seg (P 0 0) (P 4 0).
Definition flat_back : segment := Seg (P 4 0) (P 0 0).
(* A square with and without vertices within its sides. *)
Definition sq_more : contour := Ctr [P 4 4; P 4 0; P 2 0; P 0 0; P 0 4; P 2 4].
Definition sq_meet : contour := Ctr [P 0 0; P 4 0; P 4 2; P 4 4; P 2 4; P 0 4].
Definition hook : multisegment := MSeg [Seg (P 0 0) (P 4 0); Seg (P 4 0) (P 4 (-3))].
Definition hook_cut : multisegment := MSeg [Seg (P 4 (-3)) (P 4 0); Seg (P 2 0) (P 0 0); Seg (P 2 0) (P 4 0)].
Lemma zig_same : forall p, point_in_multisegment p zig = point_in_multisegment p zig_cut.
Proof. by_cuts [P 2 0; P 4 4; P 7 0]. Qed.
Lemma hook_same : forall p, point_in_multisegment p hook = point_in_multisegment p hook_cut.
Proof. by_cuts [P 2 0]. Qed.
Lemma more_same : forall p, point_in_contour p (sqr 0 4) = point_in_contour p sq_more.
Proof. by_cuts [P 2 0; P 2 4]. Qed.
Lemma meet_same : forall p, point_in_contour p (sqr 0 4) = point_in_contour p sq_meet.
Proof. by_cuts [P 4 2; P 2 4]. Qed.
Lemma through_same : forall p, point_in_multisegment p a_through = point_in_multisegment p a_parts.
Proof. by_cuts [P 4 1]. Qed.
Lemma flat_same : forall p, point_in_segment p flat = point_in_segment p flat_back.
Proof. apply points_of_line. intros p. split; apply on_segment_sym. Qed.

Lemma wit_lines : nondegenerate flat /\ nondegenerate flat_back /\ valid_multisegment zig /\ valid_multisegment zig_cut /\ simple_contour (sqr 0 4) /\ simple_contour sq_more /\ valid_multisegment hook /\ valid_multisegment hook_cut
  /\ (forall p, point_in_segment p flat = point_in_segment p flat_back) /\ (forall p, point_in_multisegment p zig = point_in_multisegment p zig_cut)
  /\ (forall p, point_in_contour p (sqr 0 4) = point_in_contour p sq_more) /\ (forall p, point_in_multisegment p hook = point_in_multisegment p hook_cut)
  /\ segment_in_multisegment flat zig = CROSS /\ multisegment_in_contour zig_cut sq_more = Ok CROSS /\ multisegment_in_multisegment zig_cut hook_cut = Ok CROSS /\ multisegment_in_region zig_cut sq_more = Ok CROSS
  /\ at_most_two (segment_list zig) (segment_list hook) /\ ~ runs_around (in_multisegment zig) (region_area (sqr 0 4)).
Proof.
  split; [nd|]. split; [nd|]. split; [valid_ms|]. split; [valid_ms|]. split; [simple|]. split; [simple|]. split; [valid_ms|]. split; [valid_ms|].
  split; [exact flat_same|]. split; [exact zig_same|]. split; [exact more_same|]. split; [exact hook_same|]. do 4 (split; [vm_compute; reflexivity|]). split.
  - apply Witness15.chain_two. intros p (x & X0 & X1 & E) (y & Y0 & Y1 & F). rewrite E in F. assert (X := f_equal px F). rewrite E. clear E F.
    unfold lerp, P in *. cbn [px py s_start s_end] in *. assert (Z0 : zq 0 = 0) by (vm_compute; reflexivity). assert (Z4 : zq 4 = Q2Qc 4) by (vm_compute; reflexivity). rewrite ?Z0, ?Z4 in *.
    assert (Q : x = 1) by qlra. rewrite Q. apply pt_eq; cbn [px py s_start s_end]; rewrite ?Z0, ?Z4; ring.
  - intros (H & _). assert (K : on_contour (sqr 0 4) (P 0 1)) by on_ctr. apply H in K. apply (proj2 (point_in_multisegment_exact_l (P 0 1) zig)) in K; [exact K|vm_compute; reflexivity].
Qed.

(* Where the way of writing matters. *)
Lemma segment_in_contour_depends_refuted_l : exists s c c', nondegenerate s /\ simple_contour c /\ simple_contour c' /\ (forall p, point_in_contour p c = point_in_contour p c')
  /\ segment_in_contour s c = Ok COMPONENT /\ segment_in_contour s c' = Ok OVERLAP /\ segment_in_region s c = Ok COMPONENT /\ segment_in_region s c' = Ok ENCLOSED.
Proof. exists flat, (sqr 0 4), sq_more. split; [nd|]. split; [simple|]. split; [simple|]. split; [exact more_same|]. repeat split; vm_compute; reflexivity. Qed.
Lemma contour_in_contour_depends_refuted_l : exists c c' r, simple_contour c /\ simple_contour c' /\ simple_contour r /\ (forall p, point_in_contour p c = point_in_contour p c')
  /\ contour_in_contour c r = Ok CROSS /\ contour_in_contour c' r = Ok TOUCH.
Proof. exists (sqr 0 4), sq_meet, (sqr 2 6). split; [simple|]. split; [simple|]. split; [simple|]. split; [exact meet_same|]. split; vm_compute; reflexivity. Qed.
Lemma multisegment_in_region_depends_refuted_l : exists m m' r, valid_multisegment m /\ valid_multisegment m' /\ simple_contour r /\ (forall p, point_in_multisegment p m = point_in_multisegment p m')
  /\ multisegment_in_region m r = Ok CROSS /\ multisegment_in_region m' r = Ok TOUCH.
Proof. exists a_through, a_parts, (sqr 0 4). split; [valid_ms|]. split; [valid_ms|]. split; [simple|]. split; [exact through_same|]. split; vm_compute; reflexivity. Qed.

(* The same squares and holes, with and without vertices within the sides. *)
Definition two_more : multiregion := [sq_more; sqr 6 8].
Definition frame : contour := Ctr [P (-2) (-2); P 10 (-2); P 10 10; P (-2) 10].
Definition hollow : polygon := Poly frame [sqr 0 4].
Definition hollow_more : polygon := Poly frame [sq_more].
Lemma more_region : forall p, point_in_region p (sqr 0 4) = point_in_region p sq_more.
Proof. apply region_of_ring; [simple|simple|exact more_same]. Qed.
Lemma two_same : forall p, point_in_multiregion p two_squares = point_in_multiregion p two_more.
Proof. intros p. unfold point_in_multiregion. cbn [multiregion_locate_point two_squares two_more]. pose proof (more_region p) as E. unfold point_in_region in E. rewrite E. reflexivity. Qed.
Lemma hollow_same : forall p, point_in_polygon p hollow = point_in_polygon p hollow_more.
Proof. intros p. unfold point_in_polygon, polygon_locate_point. cbn [border holes hollow hollow_more polygon_locate_in_holes]. pose proof (more_region p) as E. unfold point_in_region in E. rewrite E. reflexivity. Qed.
Lemma hollows_same : forall p, point_in_multipolygon p (MPoly [hollow]) = point_in_multipolygon p (MPoly [hollow_more]).
Proof. intros p. unfold point_in_multipolygon, multipolygon_locate_point. cbn [polygons polygons_locate_point]. pose proof (hollow_same p) as E. unfold point_in_polygon in E. rewrite E. reflexivity. Qed.
Lemma not_separated (X Y : point -> Prop) p : X p -> Y p -> ~ axis_separated X Y.
Proof.
  intros HX HY H. unfold axis_separated in H. decompose [or ex and] H; repeat match goal with K : forall _ : point, _ |- _ => first [pose proof (K p HX); clear K|pose proof (K p HY); clear K] end; qlra.
Qed.
Lemma wit_lines_areas : valid_multiregion two_squares /\ two_squares <> [] /\ valid_multiregion two_more /\ two_more <> [] /\ (forall p, point_in_multiregion p two_squares = point_in_multiregion p two_more)
  /\ valid_polygon hollow /\ valid_polygon hollow_more /\ (forall p, point_in_polygon p hollow = point_in_polygon p hollow_more)
  /\ valid_multipolygon (MPoly [hollow]) /\ valid_multipolygon (MPoly [hollow_more]) /\ (forall p, point_in_multipolygon p (MPoly [hollow]) = point_in_multipolygon p (MPoly [hollow_more]))
  /\ (forall X, meet_at_ends X (contours_edges two_squares) /\ meet_at_ends X (contours_edges two_more) /\ meet_at_ends X (polygon_edges hollow) /\ meet_at_ends X (polygon_edges hollow_more)
        /\ meet_at_ends X (multipolygon_edges (MPoly [hollow])) /\ meet_at_ends X (multipolygon_edges (MPoly [hollow_more]))
        /\ meet_at_ends X (contours_edges (holes hollow)) /\ meet_at_ends X (contours_edges (holes hollow_more)) /\ clear_border X hollow /\ clear_border X hollow_more)
  /\ ~ runs_round (in_multisegment zig) region_area (multiregion_area two_squares) two_squares /\ ~ runs_round (in_multisegment zig_cut) region_area (multiregion_area two_more) two_more
  /\ ~ runs_around (in_multisegment zig) (polygon_area hollow)
  /\ ~ runs_round (in_multisegment zig) polygon_area (multipolygon_area (MPoly [hollow])) [hollow] /\ ~ runs_round (in_multisegment zig_cut) polygon_area (multipolygon_area (MPoly [hollow_more])) [hollow_more]
  /\ segment_in_multiregion flat_back two_more = Ok COMPONENT /\ contour_in_multiregion sq_meet two_more = Ok COMPONENT /\ multisegment_in_multiregion zig_cut two_more = Ok CROSS
  /\ contour_in_polygon sq_meet hollow_more = Ok COMPONENT /\ multisegment_in_polygon zig_cut hollow_more = Ok CROSS
  /\ segment_in_multipolygon flat_back (MPoly [hollow_more]) = Ok COMPONENT /\ contour_in_multipolygon sq_meet (MPoly [hollow_more]) = Ok COMPONENT /\ multisegment_in_multipolygon zig_cut (MPoly [hollow_more]) = Ok CROSS.
Proof.
  split; [valid_mr|]. split; [discriminate|]. split; [valid_mr|]. split; [discriminate|]. split; [exact two_same|]. split; [valid_pg|]. split; [valid_pg|]. split; [exact hollow_same|]. split; [valid_mp|]. split; [valid_mp|]. split; [exact hollows_same|].
  assert (A : forall p, on_contour frame p -> ~ on_contour (sqr 0 4) p) by (intros p Q1 Q2; apply (Witness12.apartb_ok frame (sqr 0 4) p); [simple|simple|vm_compute; reflexivity|exact Q1|exact Q2]).
  assert (A' : forall p, on_contour frame p -> ~ on_contour sq_more p) by (intros p Q1 Q2; apply (Witness12.apartb_ok frame sq_more p); [simple|simple|vm_compute; reflexivity|exact Q1|exact Q2]).
  split; [intros X; do 8 (split; [ends|]); split; intros h p [<-|[]] _ K; [exact (A p K)|exact (A' p K)]|].
  assert (N : forall p m, point_in_multisegment p m = EXTERIOR -> ~ in_multisegment m p) by (intros p m H; apply point_in_multisegment_exact_l, H).
  assert (Y : forall p m, point_in_multisegment p m = BOUNDARY -> in_multisegment m p) by (intros p m H; apply point_in_multisegment_exact_l, H).
  assert (R : forall (Z : point -> Prop) m p q, point_in_multisegment p m = EXTERIOR -> point_in_multisegment q m = BOUNDARY -> Z p -> Z q -> ~ (subset Z (in_multisegment m) \/ axis_separated (in_multisegment m) Z)).
  { intros Z m p q Hp Hq Zp Zq [H|H]; [exact (N p m Hp (H p Zp))|exact (not_separated _ _ q (Y q m Hq) Zq H)]. }
  split; [intros (_ & _ & H); apply (R (on_contour (sqr 0 4)) zig (P 0 1) (P 2 0)); [vm_compute; reflexivity|vm_compute; reflexivity|on_ctr|on_ctr|exact (H (sqr 0 4) (or_introl eq_refl))]|].
  split; [intros (_ & _ & H); apply (R (on_contour sq_more) zig_cut (P 0 1) (P 2 0)); [vm_compute; reflexivity|vm_compute; reflexivity|on_ctr|on_ctr|exact (H sq_more (or_introl eq_refl))]|].
  assert (B : forall p, point_in_contour p (sqr 0 4) = BOUNDARY -> a_on (polygon_area hollow) p) by (intros p H; right; exists (sqr 0 4); split; [left; reflexivity|apply point_in_contour_exact_l, H]).
  assert (B' : forall p, point_in_contour p sq_more = BOUNDARY -> a_on (polygon_area hollow_more) p) by (intros p H; right; exists sq_more; split; [left; reflexivity|apply point_in_contour_exact_l, H]).
  split; [intros (H & _); apply (N (P 0 1) zig); [vm_compute; reflexivity|apply H, B; vm_compute; reflexivity]|].
  split; [intros (_ & _ & H); apply (R (a_on (polygon_area hollow)) zig (P 0 1) (P 2 0)); [vm_compute; reflexivity|vm_compute; reflexivity|apply B; vm_compute; reflexivity|apply B; vm_compute; reflexivity|exact (H hollow (or_introl eq_refl))]|].
  split; [intros (_ & _ & H); apply (R (a_on (polygon_area hollow_more)) zig_cut (P 0 1) (P 2 0)); [vm_compute; reflexivity|vm_compute; reflexivity|apply B'; vm_compute; reflexivity|apply B'; vm_compute; reflexivity|exact (H hollow_more (or_introl eq_refl))]|].
  repeat split; vm_compute; reflexivity.
Qed.
