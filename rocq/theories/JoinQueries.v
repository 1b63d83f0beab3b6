(* The queries for collections put together (property C70). *)
From Coq Require Import QArith Qcanon List Bool ZArith Lia.
From Verif Require Import Scalar Base Ground MLinear MSweep MCompound Planar Spec SpecAreas SpecJoin Geom RayParity PointProofs SegProofs Area AreaQueries Areas Drawn Polygons PolyQueries NoFail OpenProofs Cover ClosedProofs Orient PolyMulti JoinProofs JoinLines SelfProofs.
Import ListNotations.
Open Scope Qc_scope.

Lemma fop_app {T} (R : T -> T -> Prop) a b : ForallOrdPairs R (a ++ b) -> ForallOrdPairs R a /\ ForallOrdPairs R b /\ forall x y, In x a -> In y b -> R x y.
Proof.
  induction a as [|x a IH]; cbn [app]; intros H; [split; [constructor|split; [exact H|intros x y []]]|].
  inversion H as [|? ? F G]; subst. destruct (IH G) as (H1 & H2 & H3). rewrite Forall_app in F. destruct F as [F1 F2]. split; [constructor; assumption|]. split; [exact H2|].
  intros u v [<-|I] J; [rewrite Forall_forall in F2; exact (F2 v J)|exact (H3 u v I J)].
Qed.
Lemma multiregion_app qs rs : valid_multiregion (qs ++ rs) -> valid_multiregion qs /\ valid_multiregion rs /\ forall q r, In q qs -> In r rs -> regions_apart q r.
Proof. intros [F G]. rewrite Forall_app in F. destruct (fop_app _ _ _ G) as (H1 & H2 & H3). destruct F. split; [split|split; [split|]]; assumption. Qed.
Lemma multipolygon_app ps qs : valid_multipolygon (MPoly (ps ++ qs)) -> valid_multipolygon (MPoly ps) /\ valid_multipolygon (MPoly qs) /\ forall p q, In p ps -> In q qs -> polygons_apart p q.
Proof. intros [F G]. cbn [polygons] in F, G. rewrite Forall_app in F. destruct (fop_app _ _ _ G) as (H1 & H2 & H3). destruct F. split; [split|split; [split|]]; assumption. Qed.
Lemma app_ne {T} (a b : list T) : a <> [] -> a ++ b <> [].
Proof. destruct a; [congruence|discriminate]. Qed.
Lemma ex_app {T} (P : T -> Prop) a b : (exists x, In x (a ++ b) /\ P x) <-> (exists x, In x a /\ P x) \/ (exists x, In x b /\ P x).
Proof.
  split; [intros (x & I & H); apply in_app_or in I; destruct I; [left|right]; exists x; auto|]. intros [(x & I & H)|(x & I & H)]; exists x; (split; [apply in_or_app; auto|exact H]).
Qed.
Lemma union_multiregion qs rs : valid_multiregion (qs ++ rs) -> union (multiregion_area qs) (multiregion_area rs) (multiregion_area (qs ++ rs)).
Proof.
  intros V. destruct (multiregion_app qs rs V) as (_ & _ & Ap). split; cbn [multiregion_area a_in a_on].
  - intros p. apply ex_app.
  - intros p. unfold on_contours. apply ex_app.
  - intros p (q & I & H) (r & J & K). exact (proj1 (Ap q r I J) p H K).
Qed.
Lemma union_multipolygon ps qs : valid_multipolygon (MPoly (ps ++ qs)) -> union (multipolygon_area (MPoly ps)) (multipolygon_area (MPoly qs)) (multipolygon_area (MPoly (ps ++ qs))).
Proof.
  intros V. destruct (multipolygon_app ps qs V) as (_ & _ & Ap). split; cbn [multipolygon_area a_in a_on polygons].
  - intros p. apply ex_app.
  - intros p. apply ex_app.
  - intros p (q & I & H) (r & J & K). exact (proj1 (Ap q r I J) p H K).
Qed.

(** * Areas *)
Lemma areas_fit A B U C a b u : shaped A -> shaped B -> shaped U -> shaped C -> union A B U ->
  answer_is (areal_spec A C) a -> answer_is (areal_spec B C) b -> answer_is (areal_spec U C) u ->
  exists x y z, a = Ok x /\ b = Ok y /\ u = Ok z /\ In z (joined_areas x y).
Proof. intros SA SB SU SC Un (x & Ex & X & _) (y & Ey & Y & _) (z & Ez & Z & _). exists x, y, z. repeat split; try assumption. exact (joined_spec A B U C x y z SA SB SU SC Un X Y Z). Qed.
Lemma areas_fit_to A B U C a b u : shaped A -> shaped B -> shaped U -> shaped C -> union A B U ->
  answer_is (areal_spec C A) a -> answer_is (areal_spec C B) b -> answer_is (areal_spec C U) u ->
  exists x y z, a = Ok (complement x) /\ b = Ok (complement y) /\ u = Ok (complement z) /\ In z (joined_areas x y).
Proof.
  intros SA SB SU SC Un (x & Ex & X & _) (y & Ey & Y & _) (z & Ez & Z & _). exists (complement x), (complement y), (complement z). rewrite !complement_involutive. repeat split; try assumption.
  exact (joined_spec_to A B U C x y z SA SB SU SC Un X Y Z).
Qed.
Lemma multiregions_joined_l qs rs cs : valid_multiregion (qs ++ rs) -> qs <> [] -> rs <> [] -> valid_multiregion cs -> cs <> [] ->
  exists x y z, multiregion_in_multiregion qs cs = Ok x /\ multiregion_in_multiregion rs cs = Ok y /\ multiregion_in_multiregion (qs ++ rs) cs = Ok z /\ In z (joined_areas x y).
Proof.
  intros V Nq Nr C Nc. destruct (multiregion_app qs rs V) as (Vq & Vr & _). pose proof (app_ne qs rs Nq) as N.
  apply (areas_fit _ _ _ _ _ _ _ (shaped_multiregion qs Vq Nq) (shaped_multiregion rs Vr Nr) (shaped_multiregion _ V N) (shaped_multiregion cs C Nc) (union_multiregion qs rs V)); apply multiregion_in_multiregion_exact_l; assumption.
Qed.
Lemma multiregions_joined_to_l qs rs cs c : valid_multiregion (qs ++ rs) -> qs <> [] -> rs <> [] -> valid_multiregion cs -> cs <> [] -> simple_contour c ->
  (exists x y z, multiregion_in_multiregion cs qs = Ok (complement x) /\ multiregion_in_multiregion cs rs = Ok (complement y) /\ multiregion_in_multiregion cs (qs ++ rs) = Ok (complement z) /\ In z (joined_areas x y))
  /\ (exists x y z, region_in_multiregion c qs = Ok (complement x) /\ region_in_multiregion c rs = Ok (complement y) /\ region_in_multiregion c (qs ++ rs) = Ok (complement z) /\ In z (joined_areas x y)).
Proof.
  intros V Nq Nr C Nc R. destruct (multiregion_app qs rs V) as (Vq & Vr & _). pose proof (app_ne qs rs Nq) as N. split.
  - apply (areas_fit_to _ _ _ _ _ _ _ (shaped_multiregion qs Vq Nq) (shaped_multiregion rs Vr Nr) (shaped_multiregion _ V N) (shaped_multiregion cs C Nc) (union_multiregion qs rs V)); apply multiregion_in_multiregion_exact_l; assumption.
  - apply (areas_fit_to _ _ _ _ _ _ _ (shaped_multiregion qs Vq Nq) (shaped_multiregion rs Vr Nr) (shaped_multiregion _ V N) (shaped_region c R) (union_multiregion qs rs V)); apply region_in_multiregion_exact_l; assumption.
Qed.
Lemma region_multipolygons_joined_l c ps qs : simple_contour c -> valid_multipolygon (MPoly (ps ++ qs)) -> ps <> [] -> qs <> [] ->
  exists x y z, region_in_multipolygon c (MPoly ps) = Ok (complement x) /\ region_in_multipolygon c (MPoly qs) = Ok (complement y) /\ region_in_multipolygon c (MPoly (ps ++ qs)) = Ok (complement z) /\ In z (joined_areas x y).
Proof.
  intros R V Np Nq. destruct (multipolygon_app ps qs V) as (Vp & Vq & _). pose proof (app_ne ps qs Np) as N.
  apply (areas_fit_to _ _ _ _ _ _ _ (shaped_multipolygon (MPoly ps) Vp Np) (shaped_multipolygon (MPoly qs) Vq Nq) (shaped_multipolygon (MPoly (ps ++ qs)) V N) (shaped_region c R) (union_multipolygon ps qs V)); apply region_in_multipolygon_exact_l; assumption.
Qed.
(* Contacts of the parts are contacts of the whole. *)
Lemma part_on ps qs p : a_on (multipolygon_area (MPoly ps)) p \/ a_on (multipolygon_area (MPoly qs)) p -> a_on (multipolygon_area (MPoly (ps ++ qs))) p.
Proof. intros H. cbn [multipolygon_area a_on polygons] in *. apply ex_app. exact H. Qed.
Lemma part_edges ps qs : incl (multipolygon_edges (MPoly ps)) (multipolygon_edges (MPoly (ps ++ qs))) /\ incl (multipolygon_edges (MPoly qs)) (multipolygon_edges (MPoly (ps ++ qs))).
Proof. unfold multipolygon_edges. cbn [polygons]. rewrite flat_map_app. split; intros e I; apply in_or_app; auto. Qed.
Lemma split_contact l X ps qs : meet_at_ends (a_on (multipolygon_area (MPoly (ps ++ qs)))) l \/ meet_at_ends X (multipolygon_edges (MPoly (ps ++ qs))) ->
  (meet_at_ends (a_on (multipolygon_area (MPoly ps))) l \/ meet_at_ends X (multipolygon_edges (MPoly ps))) /\ (meet_at_ends (a_on (multipolygon_area (MPoly qs))) l \/ meet_at_ends X (multipolygon_edges (MPoly qs))).
Proof.
  intros [M|M]; split; [left|left|right|right].
  - refine (meet_sub _ _ _ _ M). intros p P. apply part_on. auto.
  - refine (meet_sub _ _ _ _ M). intros p P. apply part_on. auto.
  - exact (meet_incl _ _ _ (proj1 (part_edges ps qs)) M).
  - exact (meet_incl _ _ _ (proj2 (part_edges ps qs)) M).
Qed.
Lemma or_swap (P Q : Prop) : P \/ Q -> Q \/ P.
Proof. tauto. Qed.
Lemma polygon_multipolygons_joined_l pg ps qs : valid_polygon pg -> valid_multipolygon (MPoly (ps ++ qs)) -> ps <> [] -> qs <> [] ->
  meet_at_ends (a_on (multipolygon_area (MPoly (ps ++ qs)))) (polygon_edges pg) \/ meet_at_ends (polygon_boundary pg) (multipolygon_edges (MPoly (ps ++ qs))) ->
  exists x y z, polygon_in_multipolygon pg (MPoly ps) = Ok (complement x) /\ polygon_in_multipolygon pg (MPoly qs) = Ok (complement y) /\ polygon_in_multipolygon pg (MPoly (ps ++ qs)) = Ok (complement z) /\ In z (joined_areas x y).
Proof.
  intros P V Np Nq M. destruct (multipolygon_app ps qs V) as (Vp & Vq & _). pose proof (app_ne ps qs Np) as N. destruct (split_contact _ _ ps qs M) as [M1 M2].
  apply (areas_fit_to _ _ _ _ _ _ _ (shaped_multipolygon (MPoly ps) Vp Np) (shaped_multipolygon (MPoly qs) Vq Nq) (shaped_multipolygon (MPoly (ps ++ qs)) V N) (shaped_polygon pg P) (union_multipolygon ps qs V)); apply polygon_in_multipolygon_exact_l; assumption.
Qed.
Lemma multiregion_multipolygons_joined_l rs ps qs : valid_multiregion rs -> rs <> [] -> valid_multipolygon (MPoly (ps ++ qs)) -> ps <> [] -> qs <> [] ->
  meet_at_ends (a_on (multipolygon_area (MPoly (ps ++ qs)))) (contours_edges rs) \/ meet_at_ends (on_contours rs) (multipolygon_edges (MPoly (ps ++ qs))) ->
  exists x y z, multiregion_in_multipolygon rs (MPoly ps) = Ok (complement x) /\ multiregion_in_multipolygon rs (MPoly qs) = Ok (complement y) /\ multiregion_in_multipolygon rs (MPoly (ps ++ qs)) = Ok (complement z) /\ In z (joined_areas x y).
Proof.
  intros R Nr V Np Nq M. destruct (multipolygon_app ps qs V) as (Vp & Vq & _). pose proof (app_ne ps qs Np) as N. destruct (split_contact _ _ ps qs M) as [M1 M2].
  apply (areas_fit_to _ _ _ _ _ _ _ (shaped_multipolygon (MPoly ps) Vp Np) (shaped_multipolygon (MPoly qs) Vq Nq) (shaped_multipolygon (MPoly (ps ++ qs)) V N) (shaped_multiregion rs R Nr) (union_multipolygon ps qs V)); apply multiregion_in_multipolygon_exact_l; assumption.
Qed.
Lemma multipolygons_joined_l ps qs mp : valid_multipolygon (MPoly (ps ++ qs)) -> ps <> [] -> qs <> [] -> valid_multipolygon mp -> polygons mp <> [] ->
  meet_at_ends (a_on (multipolygon_area mp)) (multipolygon_edges (MPoly (ps ++ qs))) \/ meet_at_ends (a_on (multipolygon_area (MPoly (ps ++ qs)))) (multipolygon_edges mp) ->
  (exists x y z, multipolygon_in_multipolygon (MPoly ps) mp = Ok x /\ multipolygon_in_multipolygon (MPoly qs) mp = Ok y /\ multipolygon_in_multipolygon (MPoly (ps ++ qs)) mp = Ok z /\ In z (joined_areas x y))
  /\ exists x y z, multipolygon_in_multipolygon mp (MPoly ps) = Ok (complement x) /\ multipolygon_in_multipolygon mp (MPoly qs) = Ok (complement y) /\ multipolygon_in_multipolygon mp (MPoly (ps ++ qs)) = Ok (complement z) /\ In z (joined_areas x y).
Proof.
  intros V Np Nq W Nm M. destruct (multipolygon_app ps qs V) as (Vp & Vq & _). pose proof (app_ne ps qs Np) as N. destruct (split_contact _ _ ps qs (or_swap _ _ M)) as [M1 M2]. split.
  - apply (areas_fit _ _ _ _ _ _ _ (shaped_multipolygon (MPoly ps) Vp Np) (shaped_multipolygon (MPoly qs) Vq Nq) (shaped_multipolygon (MPoly (ps ++ qs)) V N) (shaped_multipolygon mp W Nm) (union_multipolygon ps qs V)); apply multipolygon_in_multipolygon_exact_l; try assumption; apply or_swap; assumption.
  - apply (areas_fit_to _ _ _ _ _ _ _ (shaped_multipolygon (MPoly ps) Vp Np) (shaped_multipolygon (MPoly qs) Vq Nq) (shaped_multipolygon (MPoly (ps ++ qs)) V N) (shaped_multipolygon mp W Nm) (union_multipolygon ps qs V)); apply multipolygon_in_multipolygon_exact_l; try assumption; apply or_swap; assumption.
Qed.

(** * Segments and contours against collections of areas *)
Lemma on_contours_ends cs p : on_contours cs p -> ends_set (contours_edges cs) p.
Proof. intros (c & I & a & b & J & H). exists (a, b). split; [|exact H]. apply in_contours_edges. exists c. auto. Qed.
Lemma polygons_ends mp p : a_on (multipolygon_area mp) p -> ends_set (multipolygon_edges mp) p.
Proof.
  intros (pg & I & H). assert (K : on_contours (border pg :: holes pg) p). { destruct H as [H|(h & J & H)]; [exists (border pg)|exists h]; (split; [|exact H]); [left; reflexivity|right; exact J]. }
  apply on_contours_ends in K. destruct K as (e & J & K). exists e. split; [|exact K]. unfold multipolygon_edges. apply in_flat_map. exists pg. auto.
Qed.
Lemma edge_share c c' a b a' b' : In (a, b) (cyc_pairs (vertices c)) -> In (a', b') (cyc_pairs (vertices c')) -> share_segment (on_segment a b) (on_segment a' b') -> share_segment (on_contour c) (on_contour c').
Proof. intros I J (x & y & N & H). exists x, y. split; [exact N|]. intros p P. destruct (H p P). split; [exists a, b|exists a', b']; auto. Qed.
Lemma regions_part X qs rs : valid_multiregion (qs ++ rs) -> share_segment X X -> ~ (subset X (a_on (multiregion_area qs)) /\ subset X (a_on (multiregion_area rs))).
Proof.
  intros V S. destruct (multiregion_app qs rs V) as (Vq & Vr & Ap).
  assert (D : forall l, valid_multiregion l -> forall e, In e (contours_edges l) -> fst e <> snd e).
  { intros l W [a b] I. apply in_contours_edges in I. destruct I as (c & Ic & I). exact (simple_step c a b (mr_simple l c W Ic) I). }
  apply (not_both X _ _ (contours_edges qs) (contours_edges rs) S (D qs Vq) (D rs Vr)); [|apply on_contours_ends|apply on_contours_ends].
  intros [a b] [a' b'] I J K. apply in_contours_edges in I. apply in_contours_edges in J. destruct I as (c & Ic & I), J as (c' & Ic' & J). apply (proj2 (Ap c c' Ic Ic')). exact (edge_share c c' a b a' b' I J K).
Qed.
Lemma mp_edge_of mp a b : In (a, b) (multipolygon_edges mp) -> exists pg c, In pg (polygons mp) /\ In c (border pg :: holes pg) /\ In (a, b) (cyc_pairs (vertices c)).
Proof. intros I. unfold multipolygon_edges in I. apply in_flat_map in I. destruct I as (pg & I & J). apply in_contours_edges in J. destruct J as (c & Ic & J). exists pg, c. auto. Qed.
Lemma ring_boundary pg c p : In c (border pg :: holes pg) -> on_contour c p -> polygon_boundary pg p.
Proof. intros [<-|I] H; [left; exact H|right; exists c; auto]. Qed.
Lemma ring_simple pg c : valid_polygon pg -> In c (border pg :: holes pg) -> simple_contour c.
Proof. intros (V1 & V2 & _) [<-|I]; [exact V1|exact (mr_simple (holes pg) c V2 I)]. Qed.
Lemma polygons_part X ps qs : valid_multipolygon (MPoly (ps ++ qs)) -> share_segment X X -> ~ (subset X (a_on (multipolygon_area (MPoly ps))) /\ subset X (a_on (multipolygon_area (MPoly qs)))).
Proof.
  intros V S. destruct (multipolygon_app ps qs V) as (Vq & Vr & Ap).
  assert (D : forall l, valid_multipolygon l -> forall e, In e (multipolygon_edges l) -> fst e <> snd e).
  { intros l W [a b] I. apply mp_edge_of in I. destruct I as (pg & c & Ip & Ic & I). destruct W as [F _]. rewrite Forall_forall in F. exact (simple_step c a b (ring_simple pg c (F pg Ip) Ic) I). }
  apply (not_both X _ _ (multipolygon_edges (MPoly ps)) (multipolygon_edges (MPoly qs)) S (D _ Vq) (D _ Vr)); [|apply polygons_ends|apply polygons_ends].
  intros [a b] [a' b'] I J K. apply mp_edge_of in I. apply mp_edge_of in J. destruct I as (pg & c & Ip & Ic & I), J as (pg' & c' & Ip' & Ic' & J). apply (proj2 (Ap pg pg' Ip Ip')).
  destruct (edge_share c c' a b a' b' I J K) as (x & y & N & H). exists x, y. split; [exact N|]. intros p P. destruct (H p P) as [H1 H2]. split; [exact (ring_boundary pg c p Ic H1)|exact (ring_boundary pg' c' p Ic' H2)].
Qed.
(* A connected line in the interior of both together is in the interior of one of them. *)
Definition connected (X : point -> Prop) : Prop := forall P On : point -> Prop, (forall p q, (forall x, on_segment p q x -> ~ On x) -> P p -> P q) -> (forall x, X x -> ~ On x) -> forall p q, X p -> X q -> P p -> P q.
Lemma connected_segment s : connected (in_segment s).
Proof. intros P On St Off p q Hp Hq K. apply (St p q); [|exact K]. intros x X. apply Off. exact (on_segment_convex _ _ _ _ _ Hp Hq X). Qed.
Lemma connected_contour c : connected (on_contour c).
Proof. intros P On St Off p q Hp Hq K. exact (contour_iff P On c St Off p q Hp Hq K). Qed.
Lemma whole_part X A B U : connected X -> shaped U -> union A B U -> (forall p q, (forall x, on_segment p q x -> ~ a_on A x) -> a_in A p -> a_in A q) ->
  subset X (a_in U) -> meets X (a_in A) -> meets X (a_in B) -> False.
Proof.
  intros C SU Un St S (p & P & Hp) (q & Q & Hq). apply (un_apart _ _ _ Un q); [|exact Hq]. refine (C (a_in A) (a_on A) St _ p q P Q Hp).
  intros x X1 O. apply (sh_in_on U x SU (S x X1)). apply (un_on _ _ _ Un). left. exact O.
Qed.
Lemma lines_fit A B U X a b u : shaped A -> shaped B -> shaped U -> union A B U -> connected X -> share_segment X X ->
  (forall p q, (forall x, on_segment p q x -> ~ a_on A x) -> a_in A p -> a_in A q) -> ~ (subset X (a_on A) /\ subset X (a_on B)) ->
  answer_is (linear_areal_spec X A) a -> answer_is (linear_areal_spec X B) b -> answer_is (linear_areal_spec X U) u ->
  exists x y z, a = Ok x /\ b = Ok y /\ u = Ok z /\ In z (joined_lines x y).
Proof.
  intros SA SB SU Un C S St Pt (x & Ex & H & _) (y & Ey & K & _) (z & Ez & L & _). exists x, y, z. repeat split; try assumption.
  apply (joined_line A B U X SA SB SU Un (whole_part X A B U C SU Un St) Pt); try assumption. destruct S as (p & q & _ & Sp). exists p. apply Sp, on_segment_start.
Qed.
Lemma share_one s : nondegenerate s -> share_segment (in_segment s) (in_segment s).
Proof. intros N. exists (s_start s), (s_end s). split; [exact N|]. intros p P. split; exact P. Qed.
Lemma share_ring c : simple_contour c -> share_segment (on_contour c) (on_contour c).
Proof.
  intros S. pose proof (cyc_length c S) as L. destruct (cyc_pairs (vertices c)) as [|[a b] l] eqn:E; [cbn in L; lia|].
  assert (I : In (a, b) (cyc_pairs (vertices c))) by (rewrite E; left; reflexivity). exists a, b. split; [exact (simple_step c a b S I)|]. intros p P. split; exists a, b; auto.
Qed.
Lemma segments_in_multiregions_l s qs rs : nondegenerate s -> valid_multiregion (qs ++ rs) -> qs <> [] -> rs <> [] -> meet_at_ends (in_segment s) (contours_edges (qs ++ rs)) ->
  exists x y z, segment_in_multiregion s qs = Ok x /\ segment_in_multiregion s rs = Ok y /\ segment_in_multiregion s (qs ++ rs) = Ok z /\ In z (joined_lines x y).
Proof.
  intros D V Nq Nr M. destruct (multiregion_app qs rs V) as (Vq & Vr & _). pose proof (app_ne qs rs Nq) as N.
  assert (M' : meet_at_ends (in_segment s) (contours_edges qs) /\ meet_at_ends (in_segment s) (contours_edges rs)).
  { unfold contours_edges in *. rewrite flat_map_app in M. split; refine (meet_incl _ _ _ _ M); intros e I; apply in_or_app; auto. }
  apply (lines_fit _ _ _ _ _ _ _ (shaped_multiregion qs Vq Nq) (shaped_multiregion rs Vr Nr) (shaped_multiregion _ V N) (union_multiregion qs rs V) (connected_segment s) (share_one s D) (multiregion_steady qs) (regions_part _ qs rs V (share_one s D)));
    apply segment_in_multiregion_exact_l; tauto.
Qed.
Lemma contours_in_multiregions_l c qs rs : simple_contour c -> valid_multiregion (qs ++ rs) -> qs <> [] -> rs <> [] -> meet_at_ends (on_contour c) (contours_edges (qs ++ rs)) ->
  exists x y z, contour_in_multiregion c qs = Ok x /\ contour_in_multiregion c rs = Ok y /\ contour_in_multiregion c (qs ++ rs) = Ok z /\ In z (joined_lines x y).
Proof.
  intros D V Nq Nr M. destruct (multiregion_app qs rs V) as (Vq & Vr & _). pose proof (app_ne qs rs Nq) as N.
  assert (M' : meet_at_ends (on_contour c) (contours_edges qs) /\ meet_at_ends (on_contour c) (contours_edges rs)).
  { unfold contours_edges in *. rewrite flat_map_app in M. split; refine (meet_incl _ _ _ _ M); intros e I; apply in_or_app; auto. }
  apply (lines_fit _ _ _ _ _ _ _ (shaped_multiregion qs Vq Nq) (shaped_multiregion rs Vr Nr) (shaped_multiregion _ V N) (union_multiregion qs rs V) (connected_contour c) (share_ring c D) (multiregion_steady qs) (regions_part _ qs rs V (share_ring c D)));
    apply contour_in_multiregion_exact_l; tauto.
Qed.
Lemma segments_in_multipolygons_l s ps qs : nondegenerate s -> valid_multipolygon (MPoly (ps ++ qs)) -> ps <> [] -> qs <> [] -> meet_at_ends (in_segment s) (multipolygon_edges (MPoly (ps ++ qs))) ->
  exists x y z, segment_in_multipolygon s (MPoly ps) = Ok x /\ segment_in_multipolygon s (MPoly qs) = Ok y /\ segment_in_multipolygon s (MPoly (ps ++ qs)) = Ok z /\ In z (joined_lines x y).
Proof.
  intros D V Np Nq M. destruct (multipolygon_app ps qs V) as (Vp & Vq & _). pose proof (app_ne ps qs Np) as N.
  pose proof (meet_incl _ _ _ (proj1 (part_edges ps qs)) M) as M1. pose proof (meet_incl _ _ _ (proj2 (part_edges ps qs)) M) as M2.
  apply (lines_fit _ _ _ _ _ _ _ (shaped_multipolygon (MPoly ps) Vp Np) (shaped_multipolygon (MPoly qs) Vq Nq) (shaped_multipolygon (MPoly (ps ++ qs)) V N) (union_multipolygon ps qs V) (connected_segment s) (share_one s D) (multipolygon_steady _) (polygons_part _ ps qs V (share_one s D)));
    apply segment_in_multipolygon_exact_l; assumption.
Qed.
Lemma contours_in_multipolygons_l c ps qs : simple_contour c -> valid_multipolygon (MPoly (ps ++ qs)) -> ps <> [] -> qs <> [] -> meet_at_ends (on_contour c) (multipolygon_edges (MPoly (ps ++ qs))) ->
  exists x y z, contour_in_multipolygon c (MPoly ps) = Ok x /\ contour_in_multipolygon c (MPoly qs) = Ok y /\ contour_in_multipolygon c (MPoly (ps ++ qs)) = Ok z /\ In z (joined_lines x y).
Proof.
  intros D V Np Nq M. destruct (multipolygon_app ps qs V) as (Vp & Vq & _). pose proof (app_ne ps qs Np) as N.
  pose proof (meet_incl _ _ _ (proj1 (part_edges ps qs)) M) as M1. pose proof (meet_incl _ _ _ (proj2 (part_edges ps qs)) M) as M2.
  apply (lines_fit _ _ _ _ _ _ _ (shaped_multipolygon (MPoly ps) Vp Np) (shaped_multipolygon (MPoly qs) Vq Nq) (shaped_multipolygon (MPoly (ps ++ qs)) V N) (union_multipolygon ps qs V) (connected_contour c) (share_ring c D) (multipolygon_steady _) (polygons_part _ ps qs V (share_ring c D)));
    apply contour_in_multipolygon_exact_l; assumption.
Qed.

(** * Segments put together *)
Lemma multisegment_app ss ts : valid_multisegment (MSeg (ss ++ ts)) -> Forall nondegenerate ss /\ Forall nondegenerate ts /\ ForallOrdPairs at_most_one_common ss /\ ForallOrdPairs at_most_one_common ts
  /\ forall s t, In s ss -> In t ts -> at_most_one_common s t.
Proof. intros (_ & F & G). cbn [segments] in F, G. rewrite Forall_app in F. destruct (fop_app _ _ _ G) as (H1 & H2 & H3). destruct F. auto. Qed.
Lemma multisegment_parts ss ts : valid_multisegment (MSeg (ss ++ ts)) -> (2 <= length ss)%nat -> (2 <= length ts)%nat -> valid_multisegment (MSeg ss) /\ valid_multisegment (MSeg ts).
Proof. intros V Ns Nt. destruct (multisegment_app ss ts V) as (H1 & H2 & H3 & H4 & _). split; (split; [|split]; assumption). Qed.
Lemma in_pieces ss ts p : in_multisegment (MSeg (ss ++ ts)) p <-> in_multisegment (MSeg ss) p \/ in_multisegment (MSeg ts) p.
Proof. unfold in_multisegment. cbn [segments]. apply ex_app. Qed.
Lemma some_piece ss : ss <> [] -> exists p, in_multisegment (MSeg ss) p.
Proof. destruct ss as [|s ss]; [congruence|]. intros _. exists (s_start s), s. split; [left; reflexivity|apply on_segment_start]. Qed.
Lemma long_ne {T} (l : list T) : (2 <= length l)%nat -> l <> [].
Proof. intros H ->. cbn in H. lia. Qed.
Lemma around_part (X Y : point -> Prop) A : (forall p, X p -> Y p) -> runs_around X A -> runs_around Y A.
Proof. intros S (H1 & (p & P1 & P2) & (q & Q1 & Q2)). split; [intros z Z; apply S, H1, Z|]. split; [exists p|exists q]; auto. Qed.
Lemma pieces_fit A ss ts a b u : shaped A -> ss <> [] -> ts <> [] -> answer_is (linear_areal_spec (in_multisegment (MSeg ss)) A) a -> answer_is (linear_areal_spec (in_multisegment (MSeg ts)) A) b ->
  answer_is (linear_areal_spec (in_multisegment (MSeg (ss ++ ts))) A) u -> exists x y, a = Ok x /\ b = Ok y /\ u = Ok (joined_pieces x y).
Proof.
  intros SA Ns Nt (x & Ex & X & _) (y & Ey & Y & _) Z. exists x, y. split; [exact Ex|]. split; [exact Ey|]. apply (la_answer _ _ _ _ Z).
  exact (pieces_spec _ _ _ A x y SA (in_pieces ss ts) (some_piece ss Ns) (some_piece ts Nt) X Y).
Qed.
Lemma pieces_in_region_l ss ts r : valid_multisegment (MSeg (ss ++ ts)) -> (2 <= length ss)%nat -> (2 <= length ts)%nat -> simple_contour r -> ~ runs_around (in_multisegment (MSeg (ss ++ ts))) (region_area r) ->
  exists x y, multisegment_in_region (MSeg ss) r = Ok x /\ multisegment_in_region (MSeg ts) r = Ok y /\ multisegment_in_region (MSeg (ss ++ ts)) r = Ok (joined_pieces x y).
Proof.
  intros V Ns Nt R NA. destruct (multisegment_parts ss ts V Ns Nt) as [V1 V2].
  apply (pieces_fit (region_area r) ss ts _ _ _ (shaped_region r R) (long_ne ss Ns) (long_ne ts Nt)); apply multisegment_in_region_exact_l; try assumption; intros K; apply NA; (eapply around_part; [|exact K]); intros p P; apply in_pieces; auto.
Qed.
Lemma pieces_in_multiregion_l ss ts rs : valid_multisegment (MSeg (ss ++ ts)) -> (2 <= length ss)%nat -> (2 <= length ts)%nat -> valid_multiregion rs -> rs <> [] ->
  meet_at_ends (in_multisegment (MSeg (ss ++ ts))) (contours_edges rs) -> (forall r, In r rs -> ~ runs_around (in_multisegment (MSeg (ss ++ ts))) (region_area r)) ->
  exists x y, multisegment_in_multiregion (MSeg ss) rs = Ok x /\ multisegment_in_multiregion (MSeg ts) rs = Ok y /\ multisegment_in_multiregion (MSeg (ss ++ ts)) rs = Ok (joined_pieces x y).
Proof.
  intros V Ns Nt R Nr M NA. destruct (multisegment_parts ss ts V Ns Nt) as [V1 V2].
  apply (pieces_fit (multiregion_area rs) ss ts _ _ _ (shaped_multiregion rs R Nr) (long_ne ss Ns) (long_ne ts Nt)); apply multisegment_in_multiregion_exact_l; try assumption;
    try (refine (meet_sub _ _ _ _ M); intros p P; apply in_pieces; auto); intros r I K; apply (NA r I); (eapply around_part; [|exact K]); intros p P; apply in_pieces; auto.
Qed.
Lemma pieces_in_polygon_l ss ts pg : valid_multisegment (MSeg (ss ++ ts)) -> (2 <= length ss)%nat -> (2 <= length ts)%nat -> valid_polygon pg ->
  meet_at_ends (in_multisegment (MSeg (ss ++ ts))) (polygon_edges pg) -> ~ runs_around (in_multisegment (MSeg (ss ++ ts))) (polygon_area pg) ->
  exists x y, multisegment_in_polygon (MSeg ss) pg = Ok x /\ multisegment_in_polygon (MSeg ts) pg = Ok y /\ multisegment_in_polygon (MSeg (ss ++ ts)) pg = Ok (joined_pieces x y).
Proof.
  intros V Ns Nt R M NA. destruct (multisegment_parts ss ts V Ns Nt) as [V1 V2].
  apply (pieces_fit (polygon_area pg) ss ts _ _ _ (shaped_polygon pg R) (long_ne ss Ns) (long_ne ts Nt)); apply multisegment_in_polygon_exact_l; try assumption;
    try (refine (meet_sub _ _ _ _ M); intros p P; apply in_pieces; auto); intros K; apply NA; (eapply around_part; [|exact K]); intros p P; apply in_pieces; auto.
Qed.
Lemma pieces_in_multipolygon_l ss ts mp : valid_multisegment (MSeg (ss ++ ts)) -> (2 <= length ss)%nat -> (2 <= length ts)%nat -> valid_multipolygon mp -> polygons mp <> [] ->
  meet_at_ends (in_multisegment (MSeg (ss ++ ts))) (multipolygon_edges mp) -> (forall pg, In pg (polygons mp) -> ~ runs_around (in_multisegment (MSeg (ss ++ ts))) (polygon_area pg)) ->
  exists x y, multisegment_in_multipolygon (MSeg ss) mp = Ok x /\ multisegment_in_multipolygon (MSeg ts) mp = Ok y /\ multisegment_in_multipolygon (MSeg (ss ++ ts)) mp = Ok (joined_pieces x y).
Proof.
  intros V Ns Nt R Nr M NA. destruct (multisegment_parts ss ts V Ns Nt) as [V1 V2].
  apply (pieces_fit (multipolygon_area mp) ss ts _ _ _ (shaped_multipolygon mp R Nr) (long_ne ss Ns) (long_ne ts Nt)); apply multisegment_in_multipolygon_exact_l; try assumption;
    try (refine (meet_sub _ _ _ _ M); intros p P; apply in_pieces; auto); intros r I K; apply (NA r I); (eapply around_part; [|exact K]); intros p P; apply in_pieces; auto.
Qed.
(* Segments against segments. *)
Lemma linear_spec_ext (X X' Y Y' : point -> Prop) rel : (forall p, X p <-> X' p) -> (forall p, Y p <-> Y' p) -> linear_spec X Y rel -> linear_spec X' Y' rel.
Proof.
  intros E F. assert (M : meets X Y <-> meets X' Y') by (split; intros (p & P & Q); exists p; (split; [apply E|apply F]); assumption).
  assert (G : share_segment X Y <-> share_segment X' Y') by (split; intros (a & b & N & H); exists a, b; (split; [exact N|]); intros p P; destruct (H p P); (split; [apply E|apply F]); assumption).
  assert (K : finitely_many X Y <-> finitely_many X' Y') by (split; intros (l & H); exists l; intros p P Q; apply H; (apply E || apply F); assumption).
  assert (S1 : subset X Y <-> subset X' Y') by (split; intros H p P; apply F, H, E, P). assert (S2 : subset Y X <-> subset Y' X') by (split; intros H p P; apply E, H, F, P).
  assert (S3 : same_set X Y <-> same_set X' Y') by (split; intros H p; [rewrite <- E, <- F|rewrite E, F]; apply H).
  destruct rel; cbn; tauto.
Qed.
Lemma proper_segments ss : ss <> [] -> Forall nondegenerate ss -> proper_edges (to_segments_endpoints (MSeg ss)).
Proof.
  intros N F. split; [unfold to_segments_endpoints; cbn [segments]; intros E; apply map_eq_nil in E; exact (N E)|]. intros e I. unfold to_segments_endpoints in I. cbn [segments] in I. apply in_map_iff in I. destruct I as (s & <- & I).
  rewrite Forall_forall in F. exact (F s I).
Qed.
Lemma segments_fit ss ts c Y a b u : valid_multisegment (MSeg (ss ++ ts)) -> ss <> [] -> ts <> [] -> proper_edges c -> (forall p, ends_set c p <-> Y p) ->
  linear_spec (in_multisegment (MSeg ss)) Y a -> linear_spec (in_multisegment (MSeg ts)) Y b -> linear_spec (in_multisegment (MSeg (ss ++ ts))) Y u -> In u (joined_segments a b).
Proof.
  intros V Ns Nt Pc E A B U. destruct (multisegment_app ss ts V) as (F1 & F2 & _ & _ & Ap).
  apply (joined_edges (to_segments_endpoints (MSeg ss)) (to_segments_endpoints (MSeg ts)) c _ _ _ (proper_segments ss Ns F1) (proper_segments ts Nt F2) Pc).
  - intros e e' I J (x & y & N & H). unfold to_segments_endpoints in I, J. cbn [segments] in I, J. apply in_map_iff in I. apply in_map_iff in J. destruct I as (s & <- & I), J as (t & <- & J).
    apply N. destruct (H x (on_segment_start x y)), (H y (on_segment_end x y)). apply (Ap s t I J); assumption.
  - refine (linear_spec_ext _ _ _ _ _ _ _ A); intros p; symmetry; [apply ms_ends|apply E].
  - refine (linear_spec_ext _ _ _ _ _ _ _ B); intros p; symmetry; [apply ms_ends|apply E].
  - refine (linear_spec_ext _ _ _ _ _ _ _ U); intros p; symmetry; [|apply E]. rewrite ends_app, !ms_ends, in_pieces. reflexivity.
Qed.
Lemma contour_proper c : simple_contour c -> proper_edges (cyc_pairs (vertices c)).
Proof. intros S. split; [intros E; pose proof (cyc_length c S) as L; rewrite E in L; cbn in L; lia|]. intros [x y] I. exact (simple_step c x y S I). Qed.
Lemma linear_spec_turn X Y rel : linear_spec X Y rel -> linear_spec Y X (complement rel).
Proof.
  assert (M : meets Y X <-> meets X Y) by (split; intros (p & A & B); exists p; auto).
  assert (G : share_segment Y X <-> share_segment X Y) by (split; intros (a & b & N & H); exists a, b; (split; [exact N|]); intros p Hp; destruct (H p Hp); auto).
  assert (F : finitely_many Y X <-> finitely_many X Y) by (split; intros (l & H); exists l; auto).
  assert (W : same_set Y X <-> same_set X Y) by (split; intros H p; symmetry; apply H).
  destruct rel; cbn [linear_spec complement]; tauto.
Qed.
Lemma pieces_in_lines_l ss ts m c : valid_multisegment (MSeg (ss ++ ts)) -> (2 <= length ss)%nat -> (2 <= length ts)%nat -> valid_multisegment m -> simple_contour c ->
  (exists x y z, multisegment_in_multisegment (MSeg ss) m = Ok x /\ multisegment_in_multisegment (MSeg ts) m = Ok y /\ multisegment_in_multisegment (MSeg (ss ++ ts)) m = Ok z /\ In z (joined_segments x y))
  /\ (exists x y z, multisegment_in_contour (MSeg ss) c = Ok x /\ multisegment_in_contour (MSeg ts) c = Ok y /\ multisegment_in_contour (MSeg (ss ++ ts)) c = Ok z /\ In z (joined_segments x y))
  /\ (exists x y z, multisegment_in_multisegment m (MSeg ss) = Ok (complement x) /\ multisegment_in_multisegment m (MSeg ts) = Ok (complement y) /\ multisegment_in_multisegment m (MSeg (ss ++ ts)) = Ok (complement z) /\ In z (joined_segments x y)).
Proof.
  intros V Ns Nt Vm C. destruct (multisegment_parts ss ts V Ns Nt) as [V1 V2]. pose proof (long_ne ss Ns) as Es. pose proof (long_ne ts Nt) as Et.
  assert (Pm : proper_edges (to_segments_endpoints m)). { destruct m as [l]. destruct Vm as (L & F & _). exact (proper_segments l (long_ne l L) F). }
  split; [|split].
  - destruct (multisegment_in_multisegment_exact_l _ m V1 Vm) as (x & Ex & X & _), (multisegment_in_multisegment_exact_l _ m V2 Vm) as (y & Ey & Y & _), (multisegment_in_multisegment_exact_l _ m V Vm) as (z & Ez & Z & _).
    exists x, y, z. repeat split; try assumption. exact (segments_fit ss ts _ _ x y z V Es Et Pm (ms_ends m) X Y Z).
  - destruct (multisegment_in_contour_exact_l _ c V1 C) as (x & Ex & X & _), (multisegment_in_contour_exact_l _ c V2 C) as (y & Ey & Y & _), (multisegment_in_contour_exact_l _ c V C) as (z & Ez & Z & _).
    exists x, y, z. repeat split; try assumption. exact (segments_fit ss ts _ _ x y z V Es Et (contour_proper c C) (cyc_ends c) X Y Z).
  - destruct (multisegment_in_multisegment_exact_l m _ Vm V1) as (x & Ex & X & _), (multisegment_in_multisegment_exact_l m _ Vm V2) as (y & Ey & Y & _), (multisegment_in_multisegment_exact_l m _ Vm V) as (z & Ez & Z & _).
    exists (complement x), (complement y), (complement z). rewrite !complement_involutive. repeat split; try assumption.
    exact (segments_fit ss ts _ _ _ _ _ V Es Et Pm (ms_ends m) (linear_spec_turn _ _ _ X) (linear_spec_turn _ _ _ Y) (linear_spec_turn _ _ _ Z)).
Qed.
