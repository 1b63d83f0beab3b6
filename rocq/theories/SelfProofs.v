(* Geometries and their own parts (property C69). *)
From Coq Require Import QArith Qcanon List Bool ZArith Permutation Lia.
From Verif Require Import Scalar Base Ground MLinear MSweep MCompound Planar Spec SpecAreas SpecAround SpecContact SpecSelf Geom RayParity PointProofs BoxProofs SegAnswer SegStraight SegProofs SegContour Check Termination NoFail EqualProofs
  OpenProofs ClosedProofs Area AreaQueries Areas Located Drawn Polygons PolyQueries PolyArea PolyMulti PolyPoly SegTold SegRegion ContactProofs.
Import ListNotations.
Open Scope Qc_scope.

(** * Edges as multisegments *)
Lemma contours_clean cs : valid_contours cs -> clean (contours_edges cs).
Proof.
  intros [H A]. induction A as [|c cs F A IH]; [constructor|]. inversion H as [|? ? Hc Hs]; subst. cbn [contours_edges flat_map].
  apply fop_app. split; [exact (simple_cyc_clean c Hc)|]. split; [exact (IH Hs)|]. intros [x y] [u v] I J. apply in_flat_map in J. destruct J as (d & Id & J).
  apply (no_share_apart (on_contour c) (on_contour d)); cbn [fst snd].
  - intros p S. exists x, y. auto.
  - intros p S. exists u, v. auto.
  - exact (proj1 (Forall_forall _ _) F d Id).
Qed.
Lemma contours_no_loops cs : Forall simple_contour cs -> no_loops (contours_edges cs).
Proof. intros F a b I. apply in_flat_map in I. destruct I as (c & Ic & I). exact (simple_nondegenerate c (proj1 (Forall_forall _ _) F c Ic) a b I). Qed.
Lemma polygons_clean ps : valid_polygons ps -> clean (flat_map polygon_edges ps).
Proof.
  intros [H A]. induction A as [|c cs F A IH]; [constructor|]. inversion H as [|? ? Hc Hs]; subst. cbn [flat_map].
  apply fop_app. split; [exact (contours_clean _ Hc)|]. split; [exact (IH Hs)|]. intros [x y] [u v] I J. apply in_flat_map in J. destruct J as (d & Id & J).
  assert (K : forall pg a b p, In (a, b) (polygon_edges pg) -> on_segment a b p -> polygon_boundary pg p).
  { intros pg a b p Ia S. apply in_flat_map in Ia. destruct Ia as (h & [<-|Ih] & Ia); [left; exists a, b; auto|right]. exists h. split; [exact Ih|exists a, b; auto]. }
  apply (no_share_apart (polygon_boundary c) (polygon_boundary d)); cbn [fst snd].
  - intros p. exact (K c x y p I).
  - intros p. exact (K d u v p J).
  - exact (proj1 (Forall_forall _ _) F d Id).
Qed.
Lemma as_valid l : (2 <= length l)%nat -> no_loops l -> clean l -> valid_multisegment (as_multisegment l).
Proof.
  intros N L C. split; [|split].
  - cbn [segments as_multisegment]. rewrite map_length. exact N.
  - apply Forall_forall. intros s I. apply in_map_iff in I. destruct I as ([a b] & <- & I). exact (L a b I).
  - cbn [segments as_multisegment]. apply fop_map. eapply fop_impl; [|exact C]. intros x y H. exact H.
Qed.
Lemma in_as l p : in_multisegment (as_multisegment l) p <-> exists e, In e l /\ on_segment (fst e) (snd e) p.
Proof.
  split.
  - intros (s & I & H). apply in_map_iff in I. destruct I as (e & <- & I). exists e. auto.
  - intros (e & I & H). exists (Seg (fst e) (snd e)). split; [apply in_map_iff; exists e; auto|exact H].
Qed.
Lemma cyc_length (c : contour) : simple_contour c -> (3 <= length (cyc_pairs (vertices c)))%nat.
Proof. intros S. rewrite <- (Permutation_length (edges_endpoints_perm c)). unfold edges_endpoints. rewrite combine_length. destruct S as (N & _).
  unfold rot_right. destruct (rev (vertices c)) as [|z t] eqn:E.
  - apply (f_equal (@rev point)) in E. rewrite rev_involutive in E. rewrite E in *. cbn in N. lia.
  - apply (f_equal (@length point)) in E. rewrite rev_length in E. cbn [length] in *. rewrite ?rev_length. lia.
Qed.
Lemma contours_length cs : Forall simple_contour cs -> cs <> [] -> (2 <= length (contours_edges cs))%nat.
Proof. intros F N. destruct cs as [|c cs]; [contradiction|]. inversion F; subst. cbn [contours_edges flat_map]. rewrite app_length. pose proof (cyc_length c ltac:(assumption)). lia. Qed.
Lemma contours_valid cs : valid_contours cs -> cs <> [] -> valid_multisegment (as_multisegment (contours_edges cs)).
Proof. intros V N. apply as_valid; [exact (contours_length cs (proj1 V) N)|exact (contours_no_loops cs (proj1 V))|exact (contours_clean cs V)]. Qed.
Lemma contours_points cs p : in_multisegment (as_multisegment (contours_edges cs)) p <-> exists c, In c cs /\ on_contour c p.
Proof.
  rewrite in_as. split.
  - intros ([a b] & I & H). apply in_flat_map in I. destruct I as (c & Ic & I). exists c. split; [exact Ic|exists a, b; auto].
  - intros (c & Ic & a & b & I & H). exists (a, b). split; [apply in_flat_map; exists c; auto|exact H].
Qed.
Lemma polygon_points pg p : in_multisegment (as_multisegment (polygon_edges pg)) p <-> polygon_boundary pg p.
Proof.
  unfold polygon_edges. rewrite contours_points. split.
  - intros (c & [<-|I] & H); [left; exact H|right; exists c; auto].
  - intros [H|(h & I & H)]; [exists (border pg)|exists h]; (split; [|exact H]); [left; reflexivity|right; exact I].
Qed.
Lemma multipolygon_points mp p : in_multisegment (as_multisegment (multipolygon_edges mp)) p <-> exists pg, In pg (polygons mp) /\ polygon_boundary pg p.
Proof.
  rewrite in_as. split.
  - intros (e & I & H). apply in_flat_map in I. destruct I as (pg & Ip & I). exists pg. split; [exact Ip|]. apply polygon_points, in_as. exists e. auto.
  - intros (pg & Ip & H). apply polygon_points, in_as in H. destruct H as (e & I & H). exists e. split; [apply in_flat_map; exists pg; auto|exact H].
Qed.
Lemma multipolygon_edges_valid mp : valid_multipolygon mp -> polygons mp <> [] -> valid_multisegment (as_multisegment (multipolygon_edges mp)).
Proof.
  intros V N. pose proof (multipolygon_polygons mp V) as W. apply as_valid.
  - unfold multipolygon_edges. destruct (polygons mp) as [|pg ps]; [contradiction|]. cbn [flat_map]. rewrite app_length. destruct W as [W _]. inversion W as [|? ? W1 _]; subst.
    pose proof (contours_length (border pg :: holes pg) (proj1 W1) ltac:(discriminate)). unfold polygon_edges. lia.
  - intros a b I. apply in_flat_map in I. destruct I as (pg & Ip & I). destruct W as [W _]. exact (contours_no_loops _ (proj1 (proj1 (Forall_forall _ _) W pg Ip)) a b I).
  - exact (polygons_clean _ W).
Qed.

(** * Lines that are parts of boundaries *)
Lemma la_answer X A r rel : answer_is (linear_areal_spec X A) r -> linear_areal_spec X A rel -> r = Ok rel.
Proof. intros (x & E & _ & U) S. rewrite (U rel S). exact E. Qed.
Lemma ar_answer A B r rel : answer_is (areal_spec A B) r -> areal_spec A B rel -> r = Ok rel.
Proof. intros (x & E & _ & U) S. rewrite (U rel S). exact E. Qed.
Lemma li_answer X Y r rel : linear_answer X Y r -> linear_spec X Y rel -> ~ In rel [TOUCH; CROSS] -> r = Ok rel.
Proof. intros (x & E & _ & U) S N. destruct (U rel S) as [->|[_ K]]; [exact E|contradiction]. Qed.
Lemma same_refl (X : point -> Prop) : same_set X X.
Proof. intros p. reflexivity. Qed.
Lemma equal_self A : areal_spec A A EQUAL.
Proof. intros p. reflexivity. Qed.
Lemma component_self X A : subset X (a_on A) -> linear_areal_spec X A COMPONENT.
Proof. intros H. exact H. Qed.
(* A set without boundary points inside and outside does not run around. *)
Lemma boundary_not_around X A : shaped A -> subset X (a_on A) -> ~ runs_around X A.
Proof. intros S H (_ & (p & Hp & I) & _). exact (sh_in_on A p S I (H p Hp)). Qed.
Lemma boundary_off X A : shaped A -> subset X (a_on A) -> ~ meets X (a_in A).
Proof. intros S H (p & Hp & I). exact (sh_in_on A p S I (H p Hp)). Qed.

(** * Points *)
Lemma ends_in_segment_l s : point_in_segment (s_start s) s = BOUNDARY /\ point_in_segment (s_end s) s = BOUNDARY.
Proof. split; apply point_in_segment_exact_l; [apply on_segment_start|apply on_segment_end]. Qed.
Lemma ends_in_multisegment_l s m : In s (segments m) -> point_in_multisegment (s_start s) m = BOUNDARY /\ point_in_multisegment (s_end s) m = BOUNDARY.
Proof. intros I. split; apply point_in_multisegment_exact_l; exists s; (split; [exact I|]); [apply on_segment_start|apply on_segment_end]. Qed.
Lemma vertex_in_contour_l v c : In v (vertices c) -> point_in_contour v c = BOUNDARY /\ point_in_region v c = BOUNDARY.
Proof. intros I. apply on_contour_vertex in I. split; [apply point_in_contour_exact_l|apply point_in_region_exact_l]; exact I. Qed.

(** * Multisegments *)
Lemma other_point (s t : segment) : nondegenerate t -> at_most_one_common s t -> exists p, in_segment t p /\ ~ in_segment s p.
Proof.
  intros N H. destruct (segment_locate_point_spec s (s_start t)) as [[_ A]|[_ A]].
  - exists (s_end t). split; [apply on_segment_end|]. intros B. apply N. apply H; auto; [apply on_segment_start|apply on_segment_end].
  - exists (s_start t). split; [apply on_segment_start|exact A].
Qed.
Lemma segment_of_multisegment_l s m : valid_multisegment m -> In s (segments m) -> segment_in_multisegment s m = COMPONENT.
Proof.
  intros V I. pose proof V as (L & F & C). pose proof (proj1 (Forall_forall _ _) F s I) as N.
  destruct (segment_in_multisegment_l s m N V) as (A & _).
  assert (O : exists t, In t (segments m) /\ at_most_one_common s t).
  { destruct (in_split s _ I) as (l1 & l2 & E). rewrite E in *. apply fop_app in C. destruct C as (_ & C2 & C3). destruct l1 as [|t l1].
    - destruct l2 as [|t l2]; [cbn in L; lia|]. exists t. split; [right; left; reflexivity|]. inversion C2 as [|? ? K]; subst. inversion K; assumption.
    - exists t. split; [left; reflexivity|]. intros p q P1 P2 P3 P4. exact (C3 t s (or_introl eq_refl) (or_introl eq_refl) p q P2 P1 P4 P3). }
  destruct O as (t & It & H). destruct (other_point s t (proj1 (Forall_forall _ _) F t It) H) as (p & P1 & P2).
  assert (K : Ok (segment_in_multisegment s m) = Ok COMPONENT); [|congruence].
  refine (li_answer _ _ _ COMPONENT A _ _); [|cbn; intuition discriminate]. split.
  - intros q Q. exists s. auto.
  - intros K. apply P2, K. exists t. auto.
Qed.
Lemma multisegment_self_l m : valid_multisegment m -> multisegment_in_multisegment m m = Ok EQUAL.
Proof. intros V. refine (li_answer _ _ _ EQUAL (multisegment_in_multisegment_exact_l m m V V) (same_refl _) _). cbn; intuition discriminate. Qed.

(** * Contours and regions *)
Lemma edge_nondegenerate c a b : simple_contour c -> In (a, b) (cyc_pairs (vertices c)) -> nondegenerate (Seg a b).
Proof. intros S I. exact (simple_nondegenerate c S a b I). Qed.
Lemma edge_on c a b : In (a, b) (cyc_pairs (vertices c)) -> subset (in_segment (Seg a b)) (on_contour c).
Proof. intros I p P. exists a, b. auto. Qed.
Lemma edge_in_contour_l c a b : simple_contour c -> In (a, b) (cyc_pairs (vertices c)) ->
  segment_in_contour (Seg a b) c = Ok COMPONENT /\ segment_in_region (Seg a b) c = Ok COMPONENT.
Proof.
  intros S I. assert (K : in_one_edge (Seg a b) c) by (exists a, b; split; [exact I|intros p P; exact P]). split.
  - destruct (segment_in_contour_edges_l (Seg a b) c (edge_nondegenerate c a b S I) S) as (r & E & _ & U). rewrite (U COMPONENT K). exact E.
  - apply (segment_in_region_cross_iff_l (Seg a b) c (edge_nondegenerate c a b S I) S). exact K.
Qed.
Lemma one_contour c : simple_contour c -> valid_contours [c].
Proof. intros S. split; [constructor; [exact S|constructor]|constructor; constructor]. Qed.
Lemma edges_of_contour c : contours_edges [c] = cyc_pairs (vertices c).
Proof. cbn [contours_edges flat_map]. apply app_nil_r. Qed.
Lemma edges_in_contour_l c : simple_contour c ->
  multisegment_in_contour (as_multisegment (cyc_pairs (vertices c))) c = Ok EQUAL
  /\ multisegment_in_region (as_multisegment (cyc_pairs (vertices c))) c = Ok COMPONENT.
Proof.
  intros S. rewrite <- edges_of_contour. pose proof (contours_valid [c] (one_contour c S) ltac:(discriminate)) as V.
  assert (P : same_set (in_multisegment (as_multisegment (contours_edges [c]))) (on_contour c)).
  { intros p. rewrite contours_points. split; [intros (d & [<-|[]] & H); exact H|intros H; exists c; cbn; auto]. } split.
  - refine (li_answer _ _ _ EQUAL (multisegment_in_contour_exact_l _ c V S) P _). cbn; intuition discriminate.
  - apply (la_answer _ _ _ COMPONENT (multisegment_in_region_exact_l _ c V S (boundary_not_around _ (region_area c) (shaped_region c S) (fun p => proj1 (P p))))).
    intros p. apply P.
Qed.
Lemma contour_self_l c : simple_contour c -> contour_in_contour c c = Ok EQUAL /\ contour_in_region c c = Ok COMPONENT /\ region_in_region c c = Ok EQUAL.
Proof.
  intros S. split; [|split].
  - refine (li_answer _ _ _ EQUAL (proj1 (contour_in_contour_exact_l c c S S)) (same_refl _) _). cbn; intuition discriminate.
  - apply (la_answer _ _ _ COMPONENT (contour_in_region_exact_l c c S S)). intros p P. exact P.
  - apply (ar_answer _ _ _ EQUAL (region_in_region_exact_l c c S S)). apply equal_self.
Qed.

(** * Multiregions *)
Lemma in_contours_edges cs a b : In (a, b) (contours_edges cs) <-> exists c, In c cs /\ In (a, b) (cyc_pairs (vertices c)).
Proof. unfold contours_edges. rewrite in_flat_map. reflexivity. Qed.
Lemma mr_contours rs : valid_multiregion rs -> valid_contours rs.
Proof. intros [F C]. split; [exact F|]. eapply fop_impl; [|exact C]. intros x y H. apply H. Qed.
Lemma edges_in_multiregion_l rs : valid_multiregion rs ->
  (forall a b, In (a, b) (contours_edges rs) -> segment_in_multiregion (Seg a b) rs = Ok COMPONENT)
  /\ (forall c, In c rs -> contour_in_multiregion c rs = Ok COMPONENT)
  /\ (rs <> [] -> multisegment_in_multiregion (as_multisegment (contours_edges rs)) rs = Ok COMPONENT).
Proof.
  intros V. assert (O : rs <> [] -> forall X, subset X (on_contours rs) -> ~ meets X (a_in (multiregion_area rs))).
  { intros N X H. exact (boundary_off X (multiregion_area rs) (shaped_multiregion rs V N) H). }
  split; [|split].
  - intros a b I. apply in_contours_edges in I. destruct I as (c & Ic & I). assert (N : rs <> []) by (intros ->; destruct Ic). pose proof (mr_simple rs c V Ic) as S.
    assert (K : subset (in_segment (Seg a b)) (on_contours rs)) by (intros p P; exists c; split; [exact Ic|exact (edge_on c a b I p P)]).
    exact (la_answer _ _ _ COMPONENT (segment_in_multiregion_out_l _ rs (edge_nondegenerate c a b S I) V N (or_intror (O N _ K))) K).
  - intros c Ic. assert (N : rs <> []) by (intros ->; destruct Ic).
    assert (K : subset (on_contour c) (on_contours rs)) by (intros p P; exists c; auto).
    exact (la_answer _ _ _ COMPONENT (contour_in_multiregion_out_l _ rs (mr_simple rs c V Ic) V N (or_intror (O N _ K))) K).
  - intros N. assert (K : subset (in_multisegment (as_multisegment (contours_edges rs))) (on_contours rs)) by (intros p P; apply contours_points in P; exact P).
    exact (la_answer _ _ _ COMPONENT (multisegment_in_multiregion_off_l _ rs (contours_valid rs (mr_contours rs V) N) V N (O N _ K)) K).
Qed.
Lemma other_region rs c : valid_multiregion rs -> In c rs -> (2 <= length rs)%nat -> exists d, In d rs /\ ~ meets (inside c) (inside d).
Proof.
  intros [F C] I L. destruct (in_split c _ I) as (l1 & l2 & E). rewrite E in *. apply fop_app in C. destruct C as (_ & C2 & C3). destruct l1 as [|t l1].
  - destruct l2 as [|t l2]; [cbn in L; lia|]. exists t. split; [right; left; reflexivity|]. inversion C2 as [|? ? K]; subst. inversion K as [|? ? K1 _]; subst. intros (p & P1 & P2). exact (proj1 K1 p P1 P2).
  - exists t. split; [left; reflexivity|]. intros (p & P1 & P2). exact (proj1 (C3 t c (or_introl eq_refl) (or_introl eq_refl)) p P2 P1).
Qed.
Lemma part_of_more A B C : shaped A -> shaped C -> subset (a_cl A) (a_cl B) -> subset (a_cl C) (a_cl B) -> ~ meets (a_in A) (a_in C) -> proper_part A B.
Proof. intros SA SC H K N. split; [exact H|]. intros Q. apply N. apply sh_sub_in'; [exact SA|exact SC|]. intros p P. exact (Q p (K p P)). Qed.
Lemma region_cl c rs : In c rs -> subset (a_cl (region_area c)) (a_cl (multiregion_area rs)).
Proof. intros I p [P|P]; [left|right]; exists c; auto. Qed.
Lemma multiregion_self_l rs : valid_multiregion rs -> rs <> [] ->
  (forall c, In c rs -> (2 <= length rs)%nat -> region_in_multiregion c rs = Ok COMPONENT)
  /\ (forall c, rs = [c] -> region_in_multiregion c rs = Ok EQUAL)
  /\ multiregion_in_multiregion rs rs = Ok EQUAL.
Proof.
  intros V N. split; [|split].
  - intros c I L. apply (ar_answer _ _ _ COMPONENT (region_in_multiregion_exact_l c rs (mr_simple rs c V I) V N)). destruct (other_region rs c V I L) as (d & Id & K). split.
    + exact (part_of_more _ _ (region_area d) (shaped_region c (mr_simple rs c V I)) (shaped_region d (mr_simple rs d V Id)) (region_cl c rs I) (region_cl d rs Id) K).
    + intros p P. exists c. auto.
  - intros c E. assert (I : In c rs) by (rewrite E; left; reflexivity).
    apply (ar_answer _ _ _ EQUAL (region_in_multiregion_exact_l c rs (mr_simple rs c V I) V N)). intros p. split; [apply region_cl, I|]. rewrite E.
    intros [(d & [<-|[]] & P)|(d & [<-|[]] & P)]; [left|right]; exact P.
  - apply (ar_answer _ _ _ EQUAL (multiregion_in_multiregion_exact_l rs rs V V N N)). apply equal_self.
Qed.
Lemma vertex_in_areas_l v :
  (forall rs c, valid_multiregion rs -> In c rs -> In v (vertices c) -> point_in_multiregion v rs = BOUNDARY)
  /\ (forall pg c, valid_polygon pg -> In c (border pg :: holes pg) -> In v (vertices c) -> point_in_polygon v pg = BOUNDARY)
  /\ (forall mp pg c, valid_multipolygon mp -> In pg (polygons mp) -> In c (border pg :: holes pg) -> In v (vertices c) -> point_in_multipolygon v mp = BOUNDARY).
Proof.
  assert (K : forall pg c, In c (border pg :: holes pg) -> In v (vertices c) -> polygon_boundary pg v).
  { intros pg c I Iv. apply on_contour_vertex in Iv. destruct I as [<-|I]; [left; exact Iv|right; exists c; auto]. }
  split; [|split].
  - intros rs c V I Iv. assert (N : rs <> []) by (intros ->; destruct I). apply (located_multiregion rs V N v). exists c. split; [exact I|apply on_contour_vertex, Iv].
  - intros pg c V I Iv. apply (located_polygon pg V v). exact (K pg c I Iv).
  - intros mp pg c V Ip I Iv. assert (N : polygons mp <> []) by (intros Z; rewrite Z in Ip; destruct Ip). apply (located_multipolygon mp V N v). exists pg. split; [exact Ip|exact (K pg c I Iv)].
Qed.

(** * Polygons *)
Lemma ring_edge pg a b : In (a, b) (polygon_edges pg) <-> In (a, b) (cyc_pairs (vertices (border pg))) \/ exists h, In h (holes pg) /\ In (a, b) (cyc_pairs (vertices h)).
Proof.
  unfold polygon_edges. rewrite in_contours_edges. split.
  - intros (c & [<-|I] & H); [left; exact H|right; exists c; auto].
  - intros [H|(h & I & H)]; [exists (border pg)|exists h]; (split; [|exact H]); [left; reflexivity|right; exact I].
Qed.
(* What lies in the closed region, and not all of it on the boundary. *)
Lemma inner_answer X A r : answer_is (linear_areal_spec X A) r -> shaped A -> ~ meets X (a_out A) -> ~ subset X (a_on A) -> meets X (fun _ => True) -> r = Ok WITHIN \/ r = Ok ENCLOSED.
Proof.
  intros (x & E & S & _) _ H N (p & P & _). destruct x; cbn in S; try contradiction.
  - exfalso. apply H. exists p. auto.
  - exfalso. apply H. apply S.
  - exfalso. apply H. apply S.
  - right. exact E.
  - left. exact E.
Qed.
Lemma border_edge_l pg a b : valid_polygon pg -> In (a, b) (cyc_pairs (vertices (border pg))) -> segment_in_polygon (Seg a b) pg = Ok COMPONENT.
Proof.
  intros V I. destruct (edge_in_contour_l (border pg) a b (pg_border pg V) I) as [_ E]. unfold segment_in_polygon, polygon_relate_segment. unfold segment_in_region in E. rewrite E. cbn [bind relation_eqb orb].
  rewrite andb_false_r. reflexivity.
Qed.
Lemma hole_edge_l pg h a b : valid_polygon pg -> In h (holes pg) -> In (a, b) (cyc_pairs (vertices h)) -> ends_settled (Seg a b) (border pg) -> segment_in_polygon (Seg a b) pg = Ok COMPONENT.
Proof.
  intros V Ih I Se. pose proof (pg_hole pg V h Ih) as S. pose proof (edge_nondegenerate h a b S I) as N.
  assert (NS : ~ subset (in_segment (Seg a b)) (on_contour (border pg))).
  { intros K. destruct V as (_ & _ & _ & NS). apply (NS h Ih). exists a, b. split; [exact N|]. intros p P. split; [exact (edge_on h a b I p P)|exact (K p P)]. }
  assert (NS' : ~ share_segment (in_segment (Seg a b)) (on_contour (border pg))).
  { intros (x & y & D & K). destruct V as (_ & _ & _ & Q). apply (Q h Ih). exists x, y. split; [exact D|]. intros p P. destruct (K p P) as [K1 K2]. split; [exact (edge_on h a b I p K1)|exact K2]. }
  assert (NO : ~ meets (in_segment (Seg a b)) (outside (border pg))) by (intros (p & P1 & P2); apply (pg_within pg V h Ih); exists p; split; [exact (edge_on h a b I p P1)|exact P2]).
  pose proof (segment_in_region_exact_l (Seg a b) (border pg) N (pg_border pg V) NS' Se) as A.
  assert (M : multiregion_relate_segment (holes pg) (Seg a b) = Ok COMPONENT) by (apply (proj1 (edges_in_multiregion_l (holes pg) (pg_holes pg V))); apply in_contours_edges; exists h; auto).
  assert (NE : nonempty (holes pg) = true) by (destruct (holes pg); [destruct Ih|reflexivity]).
  assert (Me : meets (in_segment (Seg a b)) (fun _ => True)) by (exists a; split; [apply on_segment_start|exact Logic.I]).
  unfold segment_in_polygon, polygon_relate_segment. unfold segment_in_region in A.
  destruct (inner_answer _ _ _ A (shaped_region _ (pg_border pg V)) NO NS Me) as [->| ->]; cbn [bind relation_eqb orb]; rewrite NE; cbn [andb]; rewrite M; reflexivity.
Qed.
Lemma rings_in_polygon_l pg c : valid_polygon pg -> In c (border pg :: holes pg) -> contour_in_polygon c pg = Ok COMPONENT.
Proof.
  intros V I. assert (S : simple_contour c) by (destruct I as [<-|I]; [apply pg_border, V|exact (pg_hole pg V c I)]). destruct (box_of c S) as (cb & Eb).
  pose proof (contour_in_region_exact_l c (border pg) S (pg_border pg V)) as A. unfold contour_in_region, region_relate_contour in A. rewrite Eb in A. cbn [bind] in A.
  unfold contour_in_polygon, polygon_relate_contour. rewrite Eb. cbn [bind]. destruct I as [<-|I].
  - rewrite (la_answer _ _ _ COMPONENT A (fun p P => P)). cbn [bind relation_eqb orb]. rewrite andb_false_r. reflexivity.
  - assert (NE : nonempty (holes pg) = true) by (destruct (holes pg); [destruct I|reflexivity]).
    assert (NS : ~ subset (on_contour c) (on_contour (border pg))).
    { intros K. destruct V as (_ & _ & _ & NS). apply (NS c I). pose proof (cyc_length c S) as L. destruct (cyc_pairs (vertices c)) as [|[a b] l] eqn:E; [cbn in L; lia|].
      assert (Ie : In (a, b) (cyc_pairs (vertices c))) by (rewrite E; left; reflexivity). exists a, b. split; [exact (edge_nondegenerate c a b S Ie)|]. intros p P. pose proof (edge_on c a b Ie p P). auto. }
    assert (Me : meets (on_contour c) (fun _ => True)) by (destruct (sh_some (region_area c) (shaped_region c S)) as (p & P); exists p; split; [exact P|exact Logic.I]).
    assert (M : multiregion_relate_contour_ (holes pg) c cb = Ok COMPONENT).
    { pose proof (proj1 (proj2 (edges_in_multiregion_l (holes pg) (pg_holes pg V))) c I) as M. unfold contour_in_multiregion, multiregion_relate_contour in M. rewrite Eb in M. exact M. }
    destruct (inner_answer _ _ _ A (shaped_region _ (pg_border pg V)) (pg_within pg V c I) NS Me) as [->| ->]; cbn [bind relation_eqb orb]; rewrite NE; cbn [andb]; rewrite M; reflexivity.
Qed.
Lemma edges_in_polygon_l pg : valid_polygon pg -> multisegment_in_polygon (as_multisegment (polygon_edges pg)) pg = Ok COMPONENT.
Proof.
  intros V. assert (K : subset (in_multisegment (as_multisegment (polygon_edges pg))) (a_on (polygon_area pg))) by (intros p P; apply polygon_points in P; exact P).
  apply (la_answer _ _ _ COMPONENT (multisegment_in_polygon_enclosed_l _ pg (contours_valid _ (polygon_contours pg V) ltac:(discriminate)) V
    (fun Q => match Q with ex_intro _ p (conj P1 P2) => sh_on_out _ p (shaped_polygon pg V) (K p P1) P2 end)) K).
Qed.
Lemma border_border pg bb : valid_polygon pg -> contour_box (border pg) = Ok bb -> region_relate_region_ (border pg) (border pg) bb bb = Ok EQUAL.
Proof. intros V E. pose proof (proj2 (proj2 (contour_self_l _ (pg_border pg V)))) as H. unfold region_in_region, region_relate_region in H. rewrite E in H. exact H. Qed.
Lemma regions_of_polygon_l pg : valid_polygon pg ->
  region_in_polygon (border pg) pg = Ok (match holes pg with [] => EQUAL | _ => ENCLOSES end)
  /\ multiregion_in_polygon [border pg] pg = Ok (match holes pg with [] => EQUAL | _ => ENCLOSES end)
  /\ (forall h, In h (holes pg) -> region_in_polygon h pg = Ok TOUCH)
  /\ (holes pg <> [] -> multiregion_in_polygon (holes pg) pg = Ok TOUCH)
  /\ polygon_in_polygon pg pg = Ok EQUAL.
Proof.
  intros V. destruct (box_of _ (pg_border pg V)) as (bb & Eb). pose proof (border_border pg bb V Eb) as BB. pose proof (shaped_polygon pg V) as SP.
  split; [|split; [|split; [|split]]].
  - unfold region_in_polygon, polygon_relate_region. rewrite Eb. cbn [bind]. rewrite BB. cbn [bind rel_in existsb relation_eqb orb]. destruct (holes pg); reflexivity.
  - unfold multiregion_in_polygon, polygon_relate_multiregion. rewrite Eb. cbn [bind]. destruct (holes pg) as [|h hs] eqn:H; cbn [nonempty negb].
    + assert (V1 : valid_multiregion [border pg]) by (split; [constructor; [apply pg_border, V|constructor]|constructor; constructor]).
      destruct (multiregion_self_l [border pg] V1 ltac:(discriminate)) as (_ & K & _). specialize (K (border pg) eq_refl). unfold region_in_multiregion, multiregion_relate_region in K. rewrite Eb in K. cbn [bind] in K. rewrite K. reflexivity.
    + cbn [polygon_multiregion_loop]. rewrite Eb. cbn [bind]. rewrite BB. reflexivity.
  - intros h Ih. pose proof (region_in_polygon_merged_l h pg (pg_hole pg V h Ih) V) as (x & E & _ & U). rewrite (U TOUCH); [exact E|]. split.
    + intros (p & P1 & P2 & P3). exact (sh_in_out (region_area h) p (shaped_region h (pg_hole pg V h Ih)) P1 (P3 h Ih)).
    + destruct (sh_some (region_area h) (shaped_region h (pg_hole pg V h Ih))) as (p & P). exists p. split; [exact P|right; exists h; auto].
  - intros NH. pose proof (pg_holes pg V) as VH. pose proof (shaped_multiregion _ VH NH) as SH.
    assert (D : ~ meets (a_in (multiregion_area (holes pg))) (a_in (polygon_area pg))).
    { intros (p & (h & Ih & P1) & P2 & P3). exact (sh_in_out (region_area h) p (shaped_region h (pg_hole pg V h Ih)) P1 (P3 h Ih)). }
    assert (C : subset (a_cl (polygon_area pg)) (a_cl (multiregion_area (holes pg))) -> exists r, In r (holes pg) /\ subset (a_cl (region_area (border pg))) (a_cl (region_area r))).
    { intros Q. exfalso. apply D. exact (sh_sub_in' _ _ SH SP Q). }
    destruct (multiregion_in_polygon_of (holes pg) pg VH NH V NH C) as (x & E & _ & U). rewrite (U TOUCH); [exact E|]. split; [exact D|].
    destruct (sh_some _ SH) as (p & h & Ih & P). exists p. split; [exists h; auto|right; exists h; auto].
  - unfold polygon_in_polygon, polygon_relate_polygon, polygon_box. rewrite Eb. cbn [bind]. rewrite BB. cbn [bind rel_in existsb relation_eqb orb].
    destruct (nonempty (holes pg)) eqn:NE; [|reflexivity]. cbn [andb].
    assert (NH : holes pg <> []) by (intros Z; rewrite Z in NE; discriminate).
    pose proof (proj2 (proj2 (multiregion_self_l _ (pg_holes pg V) NH))) as K. unfold multiregion_in_multiregion in K. rewrite K. reflexivity.
Qed.

(** * Multipolygons *)
Lemma as_edges l : multisegment_edges (as_multisegment l) = l.
Proof. unfold multisegment_edges, as_multisegment. cbn [segments]. rewrite map_map. cbn [s_start s_end]. erewrite map_ext; [apply map_id|]. intros [a b]. reflexivity. Qed.
Lemma uncrossed_contact l l' : uncrossed l' -> incl l l' -> ~ contact_cut l l'.
Proof. intros U I (e & e' & p & H & H' & C & _). exact (U e e' p (I e H) H' C). Qed.
Lemma uncrossed_double l l' : uncrossed l' -> incl l l' -> ~ double_contact l l'.
Proof. intros U I (e & e' & p & H & H' & C & _). exact (U e e' p (I e H) H' C). Qed.
Lemma some_in {X} (l : list X) : l <> [] -> exists x, In x l.
Proof. destruct l as [|x l]; [contradiction|]. exists x. left. reflexivity. Qed.
Section Multi.
  Variable mp : multipolygon.
  Hypothesis (V : valid_multipolygon mp) (N : polygons mp <> []) (M : uncrossed (multipolygon_edges mp)).
  Lemma mp_valid pg : In pg (polygons mp) -> valid_polygon pg.
  Proof using V. apply (proj1 (Forall_forall _ _) (proj1 V)). Qed.
  Lemma mp_edge a b : In (a, b) (multipolygon_edges mp) -> segment_in_multipolygon (Seg a b) mp = Ok COMPONENT.
  Proof using V N M.
    intros I. assert (K : subset (in_segment (Seg a b)) (a_on (multipolygon_area mp))) by (intros p P; apply multipolygon_points, in_as; exists (a, b); auto).
    assert (D : nondegenerate (Seg a b)).
    { apply in_flat_map in I. destruct I as (pg & Ip & I). exact (contours_no_loops _ (proj1 (polygon_contours pg (mp_valid pg Ip))) a b I). }
    refine (la_answer _ _ _ COMPONENT (or_exact _ _ _ _ _ (segment_in_multipolygon_or_l _ mp D V N)) K).
    intros [C _]. revert C. apply (uncrossed_contact _ _ M). intros e [<-|[]]. exact I.
  Qed.
  Lemma ring_incl pg c : In pg (polygons mp) -> In c (border pg :: holes pg) -> incl (contours_edges [c]) (multipolygon_edges mp).
  Proof using Type. intros Ip I e. rewrite edges_of_contour. intros H. apply in_flat_map. exists pg. split; [exact Ip|]. apply in_flat_map. exists c. auto. Qed.
  Lemma mp_ring pg c : In pg (polygons mp) -> In c (border pg :: holes pg) -> contour_in_multipolygon c mp = Ok COMPONENT.
  Proof using V N M.
    intros Ip I. assert (K : subset (on_contour c) (a_on (multipolygon_area mp))).
    { intros p P. exists pg. split; [exact Ip|]. destruct I as [<-|I]; [left; exact P|right; exists c; auto]. }
    assert (S : simple_contour c) by (destruct I as [<-|I]; [apply pg_border, mp_valid, Ip|exact (pg_hole pg (mp_valid pg Ip) c I)]).
    refine (la_answer _ _ _ COMPONENT (or_exact _ _ _ _ _ (contour_in_multipolygon_loose_l c mp S V N)) K).
    intros [C _]. revert C. apply (uncrossed_contact _ _ M). exact (ring_incl pg c Ip I).
  Qed.
  Lemma mp_edges : multisegment_in_multipolygon (as_multisegment (multipolygon_edges mp)) mp = Ok COMPONENT.
  Proof using V N M.
    assert (K : subset (in_multisegment (as_multisegment (multipolygon_edges mp))) (a_on (multipolygon_area mp))) by (intros p P; apply multipolygon_points in P; exact P).
    destruct (multisegment_in_multipolygon_or_l _ mp (multipolygon_edges_valid mp V N) V N) as [A _].
    refine (la_answer _ _ _ COMPONENT (or_exact _ _ _ _ _ (A _)) K).
    - intros [C _]. revert C. rewrite as_edges. apply (uncrossed_contact _ _ M). intros e I. exact I.
    - intros [Q _]. exact (boundary_off _ _ (shaped_multipolygon mp V N) K Q).
  Qed.
  Lemma mp_cl pg : In pg (polygons mp) -> subset (a_cl (polygon_area pg)) (a_cl (multipolygon_area mp)).
  Proof using Type. intros I p [P|P]; [left|right]; exists pg; auto. Qed.
  Lemma mp_exact pg : In pg (polygons mp) -> answer_is (areal_spec (polygon_area pg) (multipolygon_area mp)) (polygon_in_multipolygon pg mp).
  Proof using V N M.
    intros I. refine (or_exact _ _ _ _ _ (polygon_in_multipolygon_or_l pg mp (mp_valid pg I) V N)). apply (uncrossed_double _ _ M).
    intros e H. apply in_flat_map. exists pg. auto.
  Qed.
  Lemma mp_polygon pg : In pg (polygons mp) -> (2 <= length (polygons mp))%nat -> polygon_in_multipolygon pg mp = Ok COMPONENT.
  Proof using V N M.
    intros I L. apply (ar_answer _ _ _ COMPONENT (mp_exact pg I)). split; [|intros p P; exists pg; auto].
    assert (O : exists d, In d (polygons mp) /\ ~ meets (polygon_interior pg) (polygon_interior d)).
    { pose proof (proj2 V) as C. destruct (in_split pg _ I) as (l1 & l2 & E). rewrite E in *. apply fop_app in C. destruct C as (_ & C2 & C3). destruct l1 as [|t l1].
      - destruct l2 as [|t l2]; [cbn in L; lia|]. exists t. split; [right; left; reflexivity|]. inversion C2 as [|? ? Q]; subst. inversion Q as [|? ? Q1 _]; subst. intros (p & P1 & P2). exact (proj1 Q1 p P1 P2).
      - exists t. split; [left; reflexivity|]. intros (p & P1 & P2). exact (proj1 (C3 t pg (or_introl eq_refl) (or_introl eq_refl)) p P2 P1). }
    destruct O as (d & Id & O).
    exact (part_of_more _ _ (polygon_area d) (shaped_polygon pg (mp_valid pg I)) (shaped_polygon d (mp_valid d Id)) (mp_cl pg I) (mp_cl d Id) O).
  Qed.
  Lemma mp_single pg : polygons mp = [pg] -> polygon_in_multipolygon pg mp = Ok EQUAL.
  Proof using V N M.
    intros E. assert (I : In pg (polygons mp)) by (rewrite E; left; reflexivity).
    apply (ar_answer _ _ _ EQUAL (mp_exact pg I)).
    intros p. split; [apply mp_cl, I|]. unfold multipolygon_area. rewrite E. intros [(d & [<-|[]] & P)|(d & [<-|[]] & P)]; [left|right]; exact P.
  Qed.
  Lemma mp_self : multipolygon_in_multipolygon mp mp = Ok EQUAL.
  Proof using V N M.
    refine (ar_answer _ _ _ EQUAL (or_exact _ _ _ _ _ (multipolygon_in_multipolygon_or_l mp mp V N V N)) _); [|apply equal_self].
    apply (uncrossed_double _ _ M). intros e I. exact I.
  Qed.

  (* The borders, if they are a valid multiregion. *)
  Hypothesis B : valid_multiregion (map border (polygons mp)).
  Let bs := map border (polygons mp).
  Lemma bs_some : bs <> [].
  Proof using N. intros Z. apply map_eq_nil in Z. contradiction. Qed.
  Lemma bs_cl : subset (a_cl (multipolygon_area mp)) (a_cl (multiregion_area bs)).
  Proof using V.
    assert (K : forall pg p, In pg (polygons mp) -> inside (border pg) p \/ on_contour (border pg) p -> a_cl (multiregion_area bs) p).
    { intros pg p Ip [P|P]; [left|right]; exists (border pg); (split; [apply in_map; exact Ip|exact P]). }
    intros p [(pg & Ip & P)|(pg & Ip & [P|(h & Ih & P)])]; apply (K pg p Ip); [left; apply P|right; exact P|exact (hole_on pg (mp_valid pg Ip) h p Ih P)].
  Qed.
  Lemma bs_meets : meets (a_on (multipolygon_area mp)) (a_on (multiregion_area bs)).
  Proof using V N.
    destruct (some_in _ N) as (pg & Ip).
    destruct (sh_some (region_area (border pg)) (shaped_region _ (pg_border pg (mp_valid pg Ip)))) as (p & P). exists p. split.
    - exists pg. split; [exact Ip|left; exact P].
    - exists (border pg). split; [apply in_map; exact Ip|exact P].
  Qed.
  (* A point inside one border is in no other closed region. *)
  Lemma bs_same pg pd p : In pg (polygons mp) -> In pd (polygons mp) -> inside (border pg) p -> inside (border pd) p \/ on_contour (border pd) p -> pg = pd.
  Proof using V N B.
    intros Ig Id P Q. pose proof (shaped_multiregion bs B bs_some) as SB. destruct Q as [Q|Q].
    2:{ exfalso. apply (sh_in_on (multiregion_area bs) p SB); [exists (border pg)|exists (border pd)]; (split; [apply in_map; assumption|assumption]). }
    destruct (in_split pg _ Ig) as (l1 & l2 & E).
    assert (H : pd = pg \/ In pd (l1 ++ l2)).
    { rewrite E in Id. apply in_app_iff in Id. destruct Id as [Id|[Id|Id]]; [right; apply in_app_iff; auto|left; auto|right; apply in_app_iff; auto]. }
    destruct H as [->|H]; [reflexivity|exfalso]. pose proof (proj2 B) as F. rewrite E, map_app in F. cbn [map] in F. apply fop_app in F. destruct F as (_ & F2 & F3). apply in_app_iff in H. destruct H as [H|H].
    - exact (proj1 (F3 (border pd) (border pg) (in_map border _ _ H) (or_introl eq_refl)) p Q P).
    - inversion F2 as [|? ? K]; subst. exact (proj1 (proj1 (Forall_forall _ _) K (border pd) (in_map border _ _ H)) p P Q).
  Qed.
  Lemma bs_answer : multiregion_in_multipolygon bs mp = Ok (match flat_map holes (polygons mp) with [] => EQUAL | _ => ENCLOSES end).
  Proof using V N M B.
    assert (A : answer_is (areal_spec (multiregion_area bs) (multipolygon_area mp)) (multiregion_in_multipolygon bs mp)).
    { refine (or_exact _ _ _ _ _ (multiregion_in_multipolygon_or_l bs mp B bs_some V N)). apply (uncrossed_double _ _ M). intros e I. apply in_flat_map in I. destruct I as (c & Ic & I).
      apply in_map_iff in Ic. destruct Ic as (pg & <- & Ip). apply (ring_incl pg (border pg) Ip (or_introl eq_refl)). rewrite edges_of_contour. exact I. }
    destruct (flat_map holes (polygons mp)) as [|h hs] eqn:E.
    - assert (H : forall pg, In pg (polygons mp) -> holes pg = []).
      { intros pg Ip. destruct (holes pg) as [|h l] eqn:H; [reflexivity|]. assert (I : In h (flat_map holes (polygons mp))) by (apply in_flat_map; exists pg; rewrite H; split; [exact Ip|left; reflexivity]). rewrite E in I. destruct I. }
      apply (ar_answer _ _ _ EQUAL A). intros p. split; [|apply bs_cl].
      intros [(c & Ic & P)|(c & Ic & P)]; apply in_map_iff in Ic; destruct Ic as (pg & <- & Ip); [left|right]; exists pg; (split; [exact Ip|]).
      + split; [exact P|]. rewrite (H pg Ip). intros h [].
      + left. exact P.
    - assert (I : In h (flat_map holes (polygons mp))) by (rewrite E; left; reflexivity). apply in_flat_map in I. destruct I as (pg & Ip & Ih).
      pose proof (mp_valid pg Ip) as Vp. pose proof (pg_hole pg Vp h Ih) as Sh.
      apply (ar_answer _ _ _ ENCLOSES A). split; [split; [exact bs_cl|]|split; [exact bs_meets|]].
      + intros Q. destruct (sh_inner _ (shaped_region h Sh)) as (p & P). cbn in P. pose proof (hole_in pg Vp h p Ih P) as PB.
        assert (O : a_out (polygon_area pg) p) by (right; exists h; auto).
        assert (W : forall pd, In pd (polygons mp) -> inside (border pd) p \/ on_contour (border pd) p -> pg = pd) by (intros pd Id; exact (bs_same pg pd p Ip Id PB)).
        destruct (Q p) as [(pd & Id & Z)|(pd & Id & Z)].
        * left. exists (border pg). split; [apply in_map; exact Ip|exact PB].
        * rewrite <- (W pd Id (or_introl (proj1 Z))) in Z. exact (sh_in_out _ p (shaped_polygon pg Vp) Z O).
        * assert (Y : pg = pd) by (apply (W pd Id); destruct Z as [Z|(g & Ig & Z)]; [right; exact Z|exact (hole_on pd (mp_valid pd Id) g p Ig Z)]).
          rewrite <- Y in Z. exact (sh_on_out _ p (shaped_polygon pg Vp) Z O).
      + intros Q. destruct Vp as (Sb & VH & W & NS). apply (NS h Ih).
        pose proof (cyc_length h Sh) as L. destruct (cyc_pairs (vertices h)) as [|[a b] l] eqn:El; [cbn in L; lia|].
        assert (Ie : In (a, b) (cyc_pairs (vertices h))) by (rewrite El; left; reflexivity). exists a, b. split; [exact (edge_nondegenerate h a b Sh Ie)|].
        intros p P. pose proof (edge_on h a b Ie p P) as Ph. split; [exact Ph|].
        destruct (hole_on pg (mp_valid pg Ip) h p Ih Ph) as [Z|Z]; [exfalso|exact Z].
        destruct (Q p) as (c & Ic & Y); [exists pg; split; [exact Ip|right; exists h; auto]|].
        apply (sh_in_on (multiregion_area bs) p (shaped_multiregion bs B bs_some)); [exists (border pg); split; [apply in_map; exact Ip|exact Z]|exists c; auto].
  Qed.
End Multi.
