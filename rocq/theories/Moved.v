(* Moved and stretched geometries: boxes, points, and the queries without sweeps. *)
From Coq Require Import QArith Qcanon List Bool ZArith Lia.
From Verif Require Import Scalar Base Ground MLinear MSweep MCompound Planar Spec SpecMore SpecMoved.
Import ListNotations.
Open Scope Qc_scope.

Definition map_res {A B} (g : A -> B) (r : res A) : res B := match r with Ok x => Ok (g x) | Raise e => Raise e end.
Lemma bind_map {A B C} (g : A -> B) (r : res A) (k : B -> res C) : bind (map_res g r) k = bind r (fun x => k (g x)).
Proof. destruct r; reflexivity. Qed.
Lemma bind_ext {A B} (r : res A) (k k' : A -> res B) : (forall x, k x = k' x) -> bind r k = bind r k'.
Proof. intros H. destruct r; [apply H|reflexivity]. Qed.
Lemma py_nth_map {A B} (g : A -> B) l i : py_nth (map g l) i = map_res g (py_nth l i).
Proof.
  unfold py_nth. rewrite map_length. destruct (((if (i <? 0)%Z then (i + Z.of_nat (length l))%Z else i) <? 0)%Z || _)%bool; [reflexivity|].
  rewrite nth_error_map. destruct (nth_error l _); reflexivity.
Qed.

Section Moved.
  Variables (a b t u : Qc).
  Hypothesis (Ha : 0 < a) (Hb : 0 < b).
  Definition fm : point -> point := aff_pt (stretch a b t u).
  Definition gx (x : Qc) : Qc := a * x + t.
  Definition gy (y : Qc) : Qc := b * y + u.
  Lemma fx p : px (fm p) = gx (px p). Proof using Type. unfold fm, gx, aff_pt, stretch. cbn. ring. Qed.
  Lemma fy p : py (fm p) = gy (py p). Proof using Type. unfold fm, gy, aff_pt, stretch. cbn. ring. Qed.
  Lemma fm_is p : fm p = Pt (gx (px p)) (gy (py p)).
  Proof using Type. rewrite <- fx, <- fy. destruct (fm p); reflexivity. Qed.
  Lemma gx_lt x y : qltb (gx x) (gx y) = qltb x y.
  Proof using Ha Hb. unfold gx. destruct (qltb_spec (a * x + t) (a * y + t)), (qltb_spec x y); auto; exfalso; [apply n|apply n]; qnra. Qed.
  Lemma gy_lt x y : qltb (gy x) (gy y) = qltb x y.
  Proof using Ha Hb. unfold gy. destruct (qltb_spec (b * x + u) (b * y + u)), (qltb_spec x y); auto; exfalso; [apply n|apply n]; qnra. Qed.
  Lemma gx_eq x y : qeqb (gx x) (gx y) = qeqb x y.
  Proof using Ha Hb.
    destruct (qeqb_spec x y) as [->|N]; [destruct (qeqb_spec (gx y) (gx y)); congruence|]. destruct (qeqb_spec (gx x) (gx y)) as [E|E]; [|reflexivity]. exfalso. apply N.
    destruct (q_trichotomy x y) as [L|[Q|L]]; [|exact Q|]; exfalso; pose proof (gx_lt x y) as K; pose proof (gx_lt y x) as K'; rewrite E in K, K'; destruct (qltb_spec (gx y) (gx y)) as [Z|_]; try (exact (Qlt_irrefl _ Z));
      [destruct (qltb_spec x y); congruence|destruct (qltb_spec y x); congruence].
  Qed.
  Lemma gy_eq x y : qeqb (gy x) (gy y) = qeqb x y.
  Proof using Ha Hb.
    destruct (qeqb_spec x y) as [->|N]; [destruct (qeqb_spec (gy y) (gy y)); congruence|]. destruct (qeqb_spec (gy x) (gy y)) as [E|E]; [|reflexivity]. exfalso. apply N.
    destruct (q_trichotomy x y) as [L|[Q|L]]; [|exact Q|]; exfalso; pose proof (gy_lt x y) as K; pose proof (gy_lt y x) as K'; rewrite E in K, K'; destruct (qltb_spec (gy y) (gy y)) as [Z|_]; try (exact (Qlt_irrefl _ Z));
      [destruct (qltb_spec x y); congruence|destruct (qltb_spec y x); congruence].
  Qed.
  Lemma gx_le x y : qleb (gx x) (gx y) = qleb x y. Proof using Ha Hb. unfold qleb. rewrite gx_lt. reflexivity. Qed.
  Lemma gy_le x y : qleb (gy x) (gy y) = qleb x y. Proof using Ha Hb. unfold qleb. rewrite gy_lt. reflexivity. Qed.
  Lemma gx_min x y : qmin (gx x) (gx y) = gx (qmin x y). Proof using Ha Hb. unfold qmin. rewrite gx_lt. destruct (qltb y x); reflexivity. Qed.
  Lemma gy_min x y : qmin (gy x) (gy y) = gy (qmin x y). Proof using Ha Hb. unfold qmin. rewrite gy_lt. destruct (qltb y x); reflexivity. Qed.
  Lemma gx_max x y : qmax (gx x) (gx y) = gx (qmax x y). Proof using Ha Hb. unfold qmax. rewrite gx_lt. destruct (qltb x y); reflexivity. Qed.
  Lemma gy_max x y : qmax (gy x) (gy y) = gy (qmax x y). Proof using Ha Hb. unfold qmax. rewrite gy_lt. destruct (qltb x y); reflexivity. Qed.

  (** * Points *)
  Lemma f_eqb p q : pt_eqb (fm p) (fm q) = pt_eqb p q.
  Proof using Ha Hb. unfold pt_eqb. rewrite !fx, !fy, gx_eq, gy_eq. reflexivity. Qed.
  Lemma f_ltb p q : pt_ltb (fm p) (fm q) = pt_ltb p q.
  Proof using Ha Hb. unfold pt_ltb. rewrite !fx, !fy, gx_lt, gx_eq, gy_lt. reflexivity. Qed.
  Lemma f_min p q : pt_min (fm p) (fm q) = fm (pt_min p q).
  Proof using Ha Hb. unfold pt_min. rewrite f_ltb. destruct (pt_ltb q p); reflexivity. Qed.
  Lemma f_max p q : pt_max (fm p) (fm q) = fm (pt_max p q).
  Proof using Ha Hb. unfold pt_max. rewrite f_ltb. destruct (pt_ltb p q); reflexivity. Qed.
  Definition fe (e : point * point) : point * point := (fm (fst e), fm (snd e)).
  Lemma f_in2 p e : pt_in2 (fm p) (fe e) = pt_in2 p e.
  Proof using Ha Hb. unfold pt_in2, fe. cbn [fst snd]. rewrite !f_eqb. reflexivity. Qed.
  Lemma f_cross p q r : cross (fm p) (fm q) (fm r) = a * b * cross p q r.
  Proof using Type. unfold cross. rewrite !fx, !fy. unfold gx, gy. ring. Qed.
  Lemma ab_pos : 0 < a * b. Proof using Ha Hb. qnra. Qed.
  Lemma f_orient p q r : angle_orientation (fm p) (fm q) (fm r) = angle_orientation p q r.
  Proof using Ha Hb.
    unfold angle_orientation. rewrite f_cross. pose proof ab_pos as H. generalize (cross p q r) (a * b) H. intros c k K.
    destruct (qltb_spec 0 c) as [P|P], (qltb_spec 0 (k * c)) as [P'|P']; try reflexivity; try (exfalso; apply P'; qnra); try (exfalso; apply P; qnra).
    destruct (qltb_spec c 0) as [N|N], (qltb_spec (k * c) 0) as [N'|N']; try reflexivity; exfalso; [apply N'|apply N]; qnra.
  Qed.
  Definition fs : segment -> segment := aff_seg (stretch a b t u).
  Lemma fs_start s : s_start (fs s) = fm (s_start s). Proof using Type. reflexivity. Qed.
  Lemma fs_end s : s_end (fs s) = fm (s_end s). Proof using Type. reflexivity. Qed.
  Lemma fs_seg p q : Seg (fm p) (fm q) = fs (Seg p q). Proof using Type. reflexivity. Qed.
  Lemma f_contains s p : segment_contains_point (fs s) (fm p) = segment_contains_point s p.
  Proof using Ha Hb.
    unfold segment_contains_point. rewrite !fs_start, !fs_end, !f_eqb, !fx, !fy, f_orient, gx_min, gx_max, gy_min, gy_max, !gx_le, !gy_le. reflexivity.
  Qed.
  Lemma f_lo s : seg_lo (fs s) = fm (seg_lo s). Proof using Ha Hb. unfold seg_lo. rewrite fs_start, fs_end. apply f_min. Qed.
  Lemma f_hi s : seg_hi (fs s) = fm (seg_hi s). Proof using Ha Hb. unfold seg_hi. rewrite fs_start, fs_end. apply f_max. Qed.
  Lemma f_relation s s' : segments_relation (fs s) (fs s') = segments_relation s s'.
  Proof using Ha Hb. unfold segments_relation. rewrite !f_lo, !f_hi, !f_eqb, !f_orient, !f_ltb. reflexivity. Qed.
  Lemma div_scale k x y : 0 < k -> k * x / (k * x - k * y) = x / (x - y).
  Proof using Type.
    intros K. replace (k * x - k * y) with (k * (x - y)) by ring. generalize (x - y). intros d. unfold Qcdiv.
    destruct (Qc_eq_dec d 0) as [->|N].
    - replace (k * 0) with (Q2Qc 0) by ring. replace (/ 0) with (Q2Qc 0) by reflexivity. ring.
    - field. split; [exact N|]. intros ->. exact (Qlt_irrefl _ K).
  Qed.
  Lemma f_intersection s s' : segments_intersection (fs s) (fs s') = fm (segments_intersection s s').
  Proof using Ha Hb.
    unfold segments_intersection. rewrite !fs_start, !fs_end, !f_contains. destruct (segment_contains_point s (s_start s')); [reflexivity|].
    destruct (segment_contains_point s (s_end s')); [reflexivity|]. destruct (segment_contains_point s' (s_start s)); [reflexivity|]. destruct (segment_contains_point s' (s_end s)); [reflexivity|].
    rewrite !f_cross, (div_scale _ _ _ ab_pos). generalize (cross (s_start s') (s_end s') (s_start s) / (cross (s_start s') (s_end s') (s_start s) - cross (s_start s') (s_end s') (s_end s))). intros w.
    rewrite (fm_is (Pt _ _)), !fx, !fy. cbn [px py]. unfold gx, gy. f_equal; ring.
  Qed.

  (** * Boxes *)
  Definition fb (x : box) : box := Box (gx (min_x x)) (gx (max_x x)) (gy (min_y x)) (gy (max_y x)).
  Lemma f_point_box p : box_of_point (fm p) = fb (box_of_point p).
  Proof using Type. unfold box_of_point, fb. rewrite fx, fy. reflexivity. Qed.
  Lemma f_join x y : box_join (fb x) (fb y) = fb (box_join x y).
  Proof using Ha Hb. unfold box_join, fb. cbn [min_x max_x min_y max_y]. rewrite gx_min, gx_max, gy_min, gy_max. reflexivity. Qed.
  Lemma f_boxes l : boxes_join (map fb l) = map_res fb (boxes_join l).
  Proof using Ha Hb.
    destruct l as [|x l]; [reflexivity|]. cbn [boxes_join map map_res]. f_equal. revert x. induction l as [|y l IH]; intros x; [reflexivity|]. cbn [map fold_left]. rewrite f_join. apply IH.
  Qed.
  Lemma f_points_box l : points_box (map fm l) = map_res fb (points_box l).
  Proof using Ha Hb. unfold points_box. rewrite <- f_boxes. rewrite !map_map. f_equal. apply map_ext. apply f_point_box. Qed.
  Definition fc : contour -> contour := aff_ctr (stretch a b t u).
  Lemma fc_vertices c : vertices (fc c) = map fm (vertices c). Proof using Type. reflexivity. Qed.
  Lemma f_contour_box c : contour_box (fc c) = map_res fb (contour_box c).
  Proof using Ha Hb. apply f_points_box. Qed.
  Lemma f_contours_box l : contours_box (map fc l) = map_res fb (contours_box l).
  Proof using Ha Hb.
    unfold contours_box. rewrite <- f_points_box. f_equal. rewrite !flat_map_concat_map, concat_map, !map_map. reflexivity.
  Qed.
  Lemma f_segment_box s : segment_box (fs s) = fb (segment_box s).
  Proof using Ha Hb. unfold segment_box. rewrite fs_start, fs_end, !f_point_box. apply f_join. Qed.
  Lemma f_segments_box l : segments_box (map fs l) = map_res fb (segments_box l).
  Proof using Ha Hb. unfold segments_box. rewrite <- f_boxes, !map_map. f_equal. apply map_ext. apply f_segment_box. Qed.
  Definition fp : polygon -> polygon := aff_pg (stretch a b t u).
  Lemma f_polygon_box p : polygon_box (fp p) = map_res fb (polygon_box p).
  Proof using Ha Hb. apply f_contour_box. Qed.
  Lemma f_polygons_box l : polygons_box (map fp l) = map_res fb (polygons_box l).
  Proof using Ha Hb. unfold polygons_box. rewrite <- f_contours_box. f_equal. rewrite !map_map. reflexivity. Qed.
  Lemma f_disjoint x y : disjoint_with (fb x) (fb y) = disjoint_with x y.
  Proof using Ha Hb. unfold disjoint_with, fb. cbn [min_x max_x min_y max_y]. rewrite !gx_lt, !gy_lt. reflexivity. Qed.

  (** * Segments and contours *)
  Lemma f_locate_segment s p : segment_locate_point (fs s) (fm p) = segment_locate_point s p.
  Proof using Ha Hb. unfold segment_locate_point. rewrite f_contains. reflexivity. Qed.
  Lemma f_relate_segment s s' : segment_relate_segment (fs s) (fs s') = segment_relate_segment s s'.
  Proof using Ha Hb. apply f_relation. Qed.
  Lemma combine_map {A B C D} (g : A -> C) (h : B -> D) l l' : combine (map g l) (map h l') = map (fun e => (g (fst e), h (snd e))) (combine l l').
  Proof using Type. revert l'. induction l as [|x l IH]; intros [|y l']; cbn; [reflexivity..|]. rewrite IH. reflexivity. Qed.
  Lemma rot_map {A B} (g : A -> B) l : rot_right (map g l) = map g (rot_right l).
  Proof using Type. unfold rot_right. rewrite <- map_rev. destruct (rev l); [reflexivity|]. cbn [map]. rewrite map_rev. reflexivity. Qed.
  Lemma f_edges c : edges_endpoints (fc c) = map fe (edges_endpoints c).
  Proof using Type. unfold edges_endpoints. rewrite fc_vertices, rot_map, combine_map. reflexivity. Qed.
  Lemma f_segments c : contour_segments (fc c) = map fs (contour_segments c).
  Proof using Type. unfold contour_segments. rewrite f_edges, !map_map. reflexivity. Qed.
  Lemma forallb_map {A B} (g : A -> B) h l : forallb h (map g l) = forallb (fun x => h (g x)) l.
  Proof using Type. induction l; cbn; [reflexivity|]. rewrite IHl. reflexivity. Qed.
  Lemma forallb_same {A} (g h : A -> bool) l : (forall x, g x = h x) -> forallb g l = forallb h l.
  Proof using Type. intros H. induction l; cbn; [reflexivity|]. rewrite H, IHl. reflexivity. Qed.
  Definition fms : multisegment -> multisegment := aff_ms (stretch a b t u).
  Lemma f_locate_multisegment m p : multisegment_locate_point (fms m) (fm p) = multisegment_locate_point m p.
  Proof using Ha Hb.
    unfold multisegment_locate_point. cbn [fms aff_ms segments]. fold fs. rewrite forallb_map. erewrite forallb_same; [reflexivity|]. intros s. rewrite f_locate_segment. reflexivity.
  Qed.
  Lemma f_locate_contour c p : contour_locate_point (fc c) (fm p) = contour_locate_point c p.
  Proof using Ha Hb.
    unfold contour_locate_point. rewrite f_segments, forallb_map. erewrite forallb_same; [reflexivity|]. intros s. rewrite f_locate_segment. reflexivity.
  Qed.
  Lemma f_min_index l : min_index (map fm l) = min_index l.
  Proof using Ha Hb.
    destruct l as [|p l]; [reflexivity|]. cbn [min_index map]. f_equal. assert (H : forall l p i k, min_index_from (map fm l) i k (fm p) = min_index_from l i k p); [|apply H].
    clear p l. intros l. induction l as [|q l IH]; intros p i k; [reflexivity|]. cbn [map min_index_from]. rewrite f_ltb. destruct (pt_ltb q p); apply IH.
  Qed.
  Lemma f_orientation c : contour_orientation (fc c) = contour_orientation c.
  Proof using Ha Hb.
    unfold contour_orientation. rewrite fc_vertices, f_min_index, map_length. apply bind_ext; intros i. rewrite !py_nth_map, !bind_map. apply bind_ext; intros p. rewrite !bind_map. apply bind_ext; intros q. rewrite bind_map. apply bind_ext; intros r. rewrite f_orient. reflexivity.
  Qed.
  Lemma f_index p l : index_of (fm p) (map fm l) = index_of p l.
  Proof using Ha Hb. induction l as [|q l IH]; [reflexivity|]. cbn [index_of map]. rewrite f_eqb, IH. reflexivity. Qed.
  Lemma f_points_eqb l r : points_eqb (map fm l) (map fm r) = points_eqb l r.
  Proof using Ha Hb.
    unfold points_eqb. rewrite !map_length, combine_map, forallb_map. f_equal. apply forallb_same. intros e. cbn [fst snd]. apply f_eqb.
  Qed.
  Lemma f_equal_contours l r : contour_equal (fc l) (fc r) = contour_equal l r.
  Proof using Ha Hb.
    unfold contour_equal. rewrite !fc_vertices, !map_length. destruct (negb _); [reflexivity|]. rewrite py_nth_map, bind_map. apply bind_ext; intros p. rewrite f_index. destruct (index_of p (vertices r)) as [i|]; [|reflexivity].
    rewrite !f_orientation. apply bind_ext; intros o. apply bind_ext; intros o'. f_equal. rewrite <- (f_points_eqb (vertices l)). f_equal.
    destruct (orientation_eqb o o'); rewrite !map_app, ?map_rev, ?firstn_map, ?skipn_map; reflexivity.
  Qed.
  Lemma f_oriented c w : to_oriented_edges_endpoints (fc c) w = map_res (map fe) (to_oriented_edges_endpoints c w).
  Proof using Ha Hb.
    unfold to_oriented_edges_endpoints. rewrite f_orientation, f_edges. destruct (contour_orientation c) as [o|e]; [|reflexivity]. cbn [bind map_res]. f_equal.
    destruct (orientation_eqb o _); [reflexivity|]. rewrite map_rev, !map_map. reflexivity.
  Qed.
  Lemma f_divides p q r s : point_vertex_line_divides_angle (fm p) (fm q) (fm r) (fm s) = point_vertex_line_divides_angle p q r s.
  Proof using Ha Hb. unfold point_vertex_line_divides_angle. rewrite !f_orient. reflexivity. Qed.
  Definition fl (l : option (nat * point)) : option (nat * point) := match l with None => None | Some (i, p) => Some (i, fm p) end.
  Lemma f_in2s p e : pt_in2 (fm p) (s_start (fs e), s_end (fs e)) = pt_in2 p (s_start e, s_end e).
  Proof using Ha Hb. exact (f_in2 p (s_start e, s_end e)). Qed.
  Lemma f_at_vertex s i l e : crosses_at_vertex (fs s) i (fl l) (fs e) = crosses_at_vertex s i l e.
  Proof using Ha Hb.
    unfold crosses_at_vertex. destruct l as [[k p]|]; [|reflexivity]. cbn [fl]. rewrite !fs_start, !fs_end. change (fm (s_start e), fm (s_end e)) with (fe (s_start e, s_end e)). rewrite !f_in2, f_orient, f_divides. reflexivity.
  Qed.
  Definition fcs (st : cs_state) : cs_state := CS (cs_no_touch st) (cs_no_cross st) (fl (cs_last st)).
  Lemma f_cs_loop s l : forall i st, cs_loop (fs s) i (map fs l) (fcs st) = match cs_loop s i l st with inl r => inl r | inr st' => inr (fcs st') end.
  Proof using Ha Hb.
    induction l as [|e l IH]; intros i st; [reflexivity|]. cbn [map cs_loop]. rewrite f_relate_segment. destruct (_ || _); [reflexivity|]. destruct (_ || _); [reflexivity|].
    cbn [fcs cs_no_touch cs_no_cross cs_last]. rewrite f_at_vertex. destruct (relation_eqb _ TOUCH); [exact (IH (S i) (CS false _ (Some (i, s_start e))))|].
    destruct (_ && _); [exact (IH (S i) (CS _ false (cs_last st)))|apply IH].
  Qed.
  Lemma f_last_vertex c s l : crosses_at_last_vertex (fc c) (fs s) (fl l) = crosses_at_last_vertex c s l.
  Proof using Ha Hb.
    unfold crosses_at_last_vertex. rewrite fc_vertices, map_length. replace (match fl l with Some (i, _) => Nat.eqb (S i) (length (vertices c)) | None => false end) with (match l with Some (i, _) => Nat.eqb (S i) (length (vertices c)) | None => false end) by (destruct l as [[? ?]|]; reflexivity).
    destruct (match l with Some (i, _) => _ | None => false end); [|reflexivity]. rewrite !py_nth_map, !bind_map. apply bind_ext; intros p. rewrite bind_map. apply bind_ext; intros q.
    rewrite !fs_seg, f_relate_segment, !fs_start, !fs_end. change (fm p, fm q) with (fe (p, q)). rewrite !f_in2, f_orient. destruct (_ && _); [|reflexivity]. rewrite bind_map. apply bind_ext; intros z. rewrite f_divides. reflexivity.
  Qed.
  Lemma f_contour_segment c s : contour_relate_segment (fc c) (fs s) = contour_relate_segment c s.
  Proof using Ha Hb.
    unfold contour_relate_segment. rewrite f_segments. change (CS true true None) with (fcs (CS true true None)) at 1. rewrite f_cs_loop. destruct (cs_loop s 0 (contour_segments c) _) as [r|st]; [reflexivity|].
    cbn [fcs cs_no_touch cs_no_cross cs_last]. rewrite f_last_vertex. reflexivity.
  Qed.
  (** * Multisegments *)
  Lemma f_dict d k : dict_get (map (fun e => (fm (fst e), snd e)) d) (fm k) = dict_get d k.
  Proof using Ha Hb. induction d as [|[k' v] d IH]; [reflexivity|]. cbn [map dict_get fst snd]. rewrite f_eqb, IH. reflexivity. Qed.
  Lemma f_insert p l : pt_insert (fm p) (map fm l) = map fm (pt_insert p l).
  Proof using Ha Hb. induction l as [|q l IH]; [reflexivity|]. cbn [map pt_insert]. rewrite f_ltb. destruct (pt_ltb p q); [reflexivity|]. cbn [map]. rewrite IH. reflexivity. Qed.
  Lemma f_sort l : pt_sort (map fm l) = map fm (pt_sort l).
  Proof using Ha Hb.
    unfold pt_sort. change (@nil point) with (map fm []) at 1. generalize (@nil point). induction l as [|p l IH]; intros acc; [reflexivity|]. cbn [map fold_left]. rewrite f_insert. apply IH.
  Qed.
  Lemma f_subtract x y : subtract_segments_overlap (fe x) (fe y) = fe (subtract_segments_overlap x y).
  Proof using Ha Hb.
    unfold subtract_segments_overlap. cbn [fe fst snd]. change [fm (fst x); fm (snd x); fm (fst y); fm (snd y)] with (map fm [fst x; snd x; fst y; snd y]). rewrite f_sort.
    destruct (pt_sort _) as [|p1 [|p2 [|p3 [|p4 [|p5 l]]]]]; cbn [map]; try reflexivity. change (fm (fst x), fm (snd x)) with (fe x). rewrite f_in2. destruct (pt_in2 p1 x); reflexivity.
  Qed.
  Definition fst_ (st : ms_state) : ms_state :=
    MS (ms_superset st) (ms_no_touch st) (ms_no_cross st) (ms_no_overlap st) (map (fun e => (fm (fst e), snd e)) (ms_dict st)) (map fe (ms_components st)) (fm (ms_start st)) (fm (ms_end st)) (fe (ms_endpoints st)).
  Lemma f_discrete s sub rel st : ms_discrete (fs s) (fs sub) rel (fst_ st) = fst_ (ms_discrete s sub rel st).
  Proof using Ha Hb.
    destruct st as [s1 s2 s3 s4 d c p q e]. unfold ms_discrete, fst_. cbn [ms_superset ms_no_touch ms_no_cross ms_no_overlap ms_dict ms_components ms_start ms_end ms_endpoints].
    destruct s4; [|reflexivity]. destruct (relation_eqb rel TOUCH).
    - destruct s3; [|reflexivity]. rewrite f_intersection, !f_eqb. destruct (_ && _); [|reflexivity]. rewrite fs_end, f_eqb. rewrite f_dict.
      replace (if pt_eqb (segments_intersection sub s) (s_end sub) then s_start (fs sub) else fm (s_end sub)) with (fm (if pt_eqb (segments_intersection sub s) (s_end sub) then s_start sub else s_end sub)) by (destruct (pt_eqb (segments_intersection sub s) (s_end sub)); reflexivity).
      rewrite f_orient. destruct (dict_get d (segments_intersection sub s)) as [o|]; [|reflexivity]. destruct (negb _); reflexivity.
    - destruct (_ && _); reflexivity.
  Qed.
  Lemma f_sorted e : to_sorted_pair (fe e) = fe (to_sorted_pair e).
  Proof using Ha Hb. destruct e as [p q]. cbn [fe fst snd to_sorted_pair]. rewrite f_ltb. destruct (pt_ltb p q); reflexivity. Qed.
  Lemma f_step s st sub : ms_step (fs s) (fst_ st) (fs sub) = option_map fst_ (ms_step s st sub).
  Proof using Ha Hb.
    unfold ms_step. rewrite f_relate_segment, !fs_start, !fs_end. change (fm (s_start sub), fm (s_end sub)) with (fe (s_start sub, s_end sub)).
    destruct (relation_eqb _ COMPONENT || _); [reflexivity|]. cbn [option_map]. f_equal.
    change (ms_start (fst_ st)) with (fm (ms_start st)). change (ms_end (fst_ st)) with (fm (ms_end st)). change (ms_endpoints (fst_ st)) with (fe (ms_endpoints st)). rewrite !f_in2, f_subtract.
    destruct (relation_eqb _ COMPOSITE).
    - destruct (pt_in2 (ms_start st) _); [unfold fst_; cbn; rewrite f_max; reflexivity|]. destruct (pt_in2 (ms_end st) _); [unfold fst_; cbn; rewrite f_min; reflexivity|].
      rewrite f_sorted. unfold fst_. cbn [ms_superset ms_no_touch ms_no_cross ms_no_overlap ms_dict ms_components ms_start ms_end ms_endpoints]. rewrite map_app. reflexivity.
    - destruct (relation_eqb _ OVERLAP); [reflexivity|]. rewrite <- f_discrete. reflexivity.
  Qed.
  Lemma f_loop s l : forall st, ms_loop (fs s) (fst_ st) (map fs l) = option_map fst_ (ms_loop s st l).
  Proof using Ha Hb.
    induction l as [|x l IH]; intros st; [reflexivity|]. cbn [map ms_loop]. rewrite f_step. destruct (ms_step s st x) as [st'|]; [|reflexivity]. cbn [option_map]. apply IH.
  Qed.
  Lemma f_span c cs : ms_components_span (fe c) (map fe cs) = fe (ms_components_span c cs).
  Proof using Ha Hb.
    unfold ms_components_span. revert c. induction cs as [|x cs IH]; intros c; [reflexivity|]. cbn [map fold_left]. rewrite <- IH. f_equal. unfold fe. cbn [fst snd]. rewrite !f_ltb.
    destruct (pt_ltb (fst x) (fst c)), (pt_ltb (snd c) (snd x)); reflexivity.
  Qed.
  Lemma existsb_map {A B} (g : A -> B) h l : existsb h (map g l) = existsb (fun x => h (g x)) l.
  Proof using Type. induction l; cbn; [reflexivity|]. rewrite IHl. reflexivity. Qed.
  Lemma existsb_same {A} (g h : A -> bool) l : (forall x, g x = h x) -> existsb g l = existsb h l.
  Proof using Type. intros H. induction l; cbn; [reflexivity|]. rewrite H, IHl. reflexivity. Qed.
  Lemma f_result st : ms_result (fst_ st) = ms_result st.
  Proof using Ha Hb.
    destruct st as [s1 s2 s3 s4 d c p q e]. unfold ms_result, fst_. cbn [ms_superset ms_no_touch ms_no_cross ms_no_overlap ms_dict ms_components ms_start ms_end ms_endpoints].
    destruct s4; [reflexivity|]. destruct c as [|c cs]; cbn [map]; [rewrite f_eqb; reflexivity|]. rewrite f_span. destruct (ms_components_span c cs) as [mn mx]. change (fe (mn, mx)) with (fm mn, fm mx). cbv beta iota zeta. rewrite !f_eqb.
    assert (E : forallb (fun ab => existsb (pt_eqb (snd ab)) (map fst (map fe (c :: cs))) || pt_eqb (snd ab) (fm mx)) (map fe (c :: cs))
      = forallb (fun ab => existsb (pt_eqb (snd ab)) (map fst (c :: cs)) || pt_eqb (snd ab) mx) (c :: cs)).
    { rewrite forallb_map. apply forallb_same. intros x. cbn [fe snd]. rewrite f_eqb. f_equal. rewrite !existsb_map. apply existsb_same. intros y. cbn [fe fst]. apply f_eqb. }
    cbn [map] in E |- *. rewrite E. reflexivity.
  Qed.
  Lemma f_multisegment_segment m s : multisegment_relate_segment (fms m) (fs s) = multisegment_relate_segment m s.
  Proof using Ha Hb.
    unfold multisegment_relate_segment. assert (I : ms_init (fs s) = fst_ (ms_init s)).
    { unfold ms_init. rewrite fs_start, fs_end, f_ltb. destruct (pt_ltb (s_end s) (s_start s)); reflexivity. }
    rewrite I. cbn [fms aff_ms segments]. fold fs. rewrite f_loop. destruct (ms_loop s (ms_init s) (segments m)) as [st|]; [apply f_result|reflexivity].
  Qed.
  Lemma f_ends m : to_segments_endpoints (fms m) = map fe (to_segments_endpoints m).
  Proof using Type. unfold to_segments_endpoints. cbn [fms aff_ms segments]. rewrite !map_map. reflexivity. Qed.

  (** * Regions *)
  Lemma f_locate_loop p l : forall i w, region_locate_loop (fm p) i (map fs l) w = region_locate_loop p i l w.
  Proof using Ha Hb.
    induction l as [|e l IH]; intros i w; [reflexivity|]. cbn [map region_locate_loop]. rewrite f_locate_segment, !fs_start, !fs_end, !fy, !gy_lt, f_orient, IH. reflexivity.
  Qed.
  Lemma f_locate_ c p : region_locate_point_ (fc c) (fm p) = region_locate_point_ c p.
  Proof using Ha Hb. unfold region_locate_point_. rewrite f_segments. apply f_locate_loop. Qed.
  Lemma f_locate_region c p : region_locate_point (fc c) (fm p) = region_locate_point c p.
  Proof using Ha Hb. unfold region_locate_point. rewrite f_locate_. reflexivity. Qed.
  Definition frs (st : rs_state) : rs_state := RS (rs_no_touch st) (rs_no_overlap st) (fl (rs_last st)).
  Lemma f_rs_loop s l : forall i st, rs_loop (fs s) i (map fs l) (frs st) = match rs_loop s i l st with inl r => inl r | inr st' => inr (frs st') end.
  Proof using Ha Hb.
    induction l as [|e l IH]; intros i st; [reflexivity|]. cbn [map rs_loop]. rewrite f_relate_segment. destruct (_ || _); [reflexivity|]. destruct (_ || _); [exact (IH (S i) (RS _ false (rs_last st)))|].
    cbn [frs rs_no_touch rs_no_overlap rs_last]. rewrite f_at_vertex. destruct (relation_eqb _ TOUCH).
    - destruct (_ && _); [reflexivity|]. exact (IH (S i) (RS false _ (Some (i, s_start e)))).
    - destruct (relation_eqb _ CROSS); [reflexivity|]. apply IH.
  Qed.
  Lemma f_to_contour c s : relate_segment_to_contour (fc c) (fs s) = relate_segment_to_contour c s.
  Proof using Ha Hb.
    unfold relate_segment_to_contour. rewrite f_segments. change (RS true true None) with (frs (RS true true None)) at 1. rewrite f_rs_loop. destruct (rs_loop s 0 (contour_segments c) _) as [r|st]; [reflexivity|].
    cbn [frs rs_no_touch rs_no_overlap rs_last]. rewrite f_last_vertex. reflexivity.
  Qed.
  Ltac step := rewrite ?py_nth_map, ?bind_map; apply bind_ext; intros ?.
  Lemma f_start_outside vs bo i p q : rs_start_outside (map fm vs) bo i (fm p) (fm q) = rs_start_outside vs bo i p q.
  Proof using Ha Hb.
    unfold rs_start_outside. rewrite !map_length. step. step. rewrite !f_eqb.
    destruct (pt_eqb p x); [destruct (or_is bo CCW); step; rewrite !f_orient; reflexivity|].
    destruct (pt_eqb p x0); [destruct (or_is bo CCW); step; rewrite !f_orient; reflexivity|]. rewrite !f_orient. reflexivity.
  Qed.
  Lemma f_end_outside vs bo i p q : rs_end_outside (map fm vs) bo i (fm p) (fm q) = rs_end_outside vs bo i p q.
  Proof using Ha Hb.
    unfold rs_end_outside. rewrite !map_length. step. step. rewrite !f_eqb.
    destruct (pt_eqb q x); [destruct (or_is bo CCW); step; rewrite !f_orient; reflexivity|].
    destruct (pt_eqb q x0); [destruct (or_is bo CCW); step; rewrite !f_orient; reflexivity|]. rewrite !f_orient. reflexivity.
  Qed.
  Lemma f_region_segment c s : region_relate_segment (fc c) (fs s) = region_relate_segment c s.
  Proof using Ha Hb.
    unfold region_relate_segment. rewrite f_to_contour. apply bind_ext; intros rc. destruct (_ || _); [reflexivity|]. rewrite !fs_start, !fs_end, !f_locate_.
    destruct (region_locate_point_ c (s_start s)) as [si sl]. destruct (relation_eqb rc DISJOINT); [reflexivity|]. destruct sl; try reflexivity.
    destruct (region_locate_point_ c (s_end s)) as [ei el]. destruct el; try reflexivity. rewrite f_orientation. apply bind_ext; intros bo. destruct si as [si|]; [|reflexivity]. destruct ei as [ei|]; [|reflexivity].
    rewrite fc_vertices, f_start_outside, f_end_outside. reflexivity.
  Qed.
  Lemma f_locate_multiregion rs p : multiregion_locate_point (map fc rs) (fm p) = multiregion_locate_point rs p.
  Proof using Ha Hb. induction rs as [|r rs IH]; [reflexivity|]. cbn [map multiregion_locate_point]. rewrite f_locate_region, IH. reflexivity. Qed.
  Lemma f_locate_holes hs p : polygon_locate_in_holes (map fc hs) (fm p) = polygon_locate_in_holes hs p.
  Proof using Ha Hb. induction hs as [|r rs IH]; [reflexivity|]. cbn [map polygon_locate_in_holes]. rewrite f_locate_region, IH. reflexivity. Qed.
  Lemma fp_border pg : border (fp pg) = fc (border pg). Proof using Type. reflexivity. Qed.
  Lemma fp_holes pg : holes (fp pg) = map fc (holes pg). Proof using Type. reflexivity. Qed.
  Lemma f_locate_polygon pg p : polygon_locate_point (fp pg) (fm p) = polygon_locate_point pg p.
  Proof using Ha Hb. unfold polygon_locate_point. rewrite fp_border, fp_holes, f_locate_region, f_locate_holes. reflexivity. Qed.
  Definition fmp : multipolygon -> multipolygon := aff_mp (stretch a b t u).
  Lemma fmp_polygons mp : polygons (fmp mp) = map fp (polygons mp). Proof using Type. reflexivity. Qed.
  Lemma f_locate_multipolygon mp p : multipolygon_locate_point (fmp mp) (fm p) = multipolygon_locate_point mp p.
  Proof using Ha Hb.
    unfold multipolygon_locate_point. rewrite fmp_polygons. induction (polygons mp) as [|x l IH]; [reflexivity|]. cbn [map polygons_locate_point]. rewrite f_locate_polygon, IH. reflexivity.
  Qed.
  Lemma f_regions_edges rs w : multiregion_oriented_edges (map fc rs) w = map_res (map fe) (multiregion_oriented_edges rs w).
  Proof using Ha Hb.
    induction rs as [|r rs IH]; [reflexivity|]. cbn [map multiregion_oriented_edges]. rewrite f_oriented, bind_map, IH. destruct (to_oriented_edges_endpoints r w) as [e|]; [|reflexivity]. cbn [bind]. rewrite bind_map.
    destruct (multiregion_oriented_edges rs w) as [es|]; [|reflexivity]. cbn [bind map_res]. rewrite map_app. reflexivity.
  Qed.
  Lemma f_polygon_edges pg w : polygon_oriented_edges (fp pg) w = map_res (map fe) (polygon_oriented_edges pg w).
  Proof using Ha Hb.
    unfold polygon_oriented_edges. rewrite fp_border, fp_holes, f_oriented, bind_map, f_regions_edges. destruct (to_oriented_edges_endpoints (border pg) w) as [e|]; [|reflexivity]. cbn [bind]. rewrite bind_map.
    destruct (multiregion_oriented_edges (holes pg) (negb w)) as [es|]; [|reflexivity]. cbn [bind map_res]. rewrite map_app. reflexivity.
  Qed.
  Lemma f_polygons_edges l w : polygons_oriented_edges (map fp l) w = map_res (map fe) (polygons_oriented_edges l w).
  Proof using Ha Hb.
    induction l as [|r rs IH]; [reflexivity|]. cbn [map polygons_oriented_edges]. rewrite f_polygon_edges, bind_map, IH. destruct (polygon_oriented_edges r w) as [e|]; [|reflexivity]. cbn [bind]. rewrite bind_map.
    destruct (polygons_oriented_edges rs w) as [es|]; [|reflexivity]. cbn [bind map_res]. rewrite map_app. reflexivity.
  Qed.
End Moved.
