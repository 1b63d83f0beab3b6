(* Moving and stretching: all queries together, and witnesses. *)
From Coq Require Import QArith Qcanon List Bool ZArith.
From Verif Require Import Scalar Base Ground MLinear MSweep MCompound Planar Spec SpecAreas SpecMore SpecSides SpecMoved Geom Check Witness RefuteProofs Witness6 Witness10 Witness11 Witness12 Witness13 Witness22 Moved MovedSweep MovedQueries.
Import ListNotations.
Open Scope Qc_scope.

Section All.
  Variables (a b t u : Qc).
  Hypothesis (Ha : 0 < a) (Hb : 0 < b).
  Let m := stretch a b t u.
  Lemma moved_points_l p :
    (forall s, point_in_segment (aff_pt m p) (aff_seg m s) = point_in_segment p s)
    /\ (forall ms, point_in_multisegment (aff_pt m p) (aff_ms m ms) = point_in_multisegment p ms)
    /\ (forall c, point_in_contour (aff_pt m p) (aff_ctr m c) = point_in_contour p c /\ point_in_region (aff_pt m p) (aff_ctr m c) = point_in_region p c)
    /\ (forall rs, point_in_multiregion (aff_pt m p) (aff_mr m rs) = point_in_multiregion p rs)
    /\ (forall pg, point_in_polygon (aff_pt m p) (aff_pg m pg) = point_in_polygon p pg)
    /\ (forall mp, point_in_multipolygon (aff_pt m p) (aff_mp m mp) = point_in_multipolygon p mp).
  Proof using Ha Hb.
    split; [intros s; apply (f_locate_segment a b t u Ha Hb)|]. split; [intros s; apply (f_locate_multisegment a b t u Ha Hb)|]. split; [intros c; split; [apply (f_locate_contour a b t u Ha Hb)|apply (f_locate_region a b t u Ha Hb)]|].
    split; [intros s; apply (f_locate_multiregion a b t u Ha Hb)|]. split; [intros s; apply (f_locate_polygon a b t u Ha Hb)|intros s; apply (f_locate_multipolygon a b t u Ha Hb)].
  Qed.
  Lemma moved_segments_l s :
    (forall s', segment_in_segment (aff_seg m s) (aff_seg m s') = segment_in_segment s s')
    /\ (forall ms, segment_in_multisegment (aff_seg m s) (aff_ms m ms) = segment_in_multisegment s ms)
    /\ (forall c, segment_in_contour (aff_seg m s) (aff_ctr m c) = segment_in_contour s c /\ segment_in_region (aff_seg m s) (aff_ctr m c) = segment_in_region s c)
    /\ (forall rs, segment_in_multiregion (aff_seg m s) (aff_mr m rs) = segment_in_multiregion s rs)
    /\ (forall pg, segment_in_polygon (aff_seg m s) (aff_pg m pg) = segment_in_polygon s pg)
    /\ (forall mp, segment_in_multipolygon (aff_seg m s) (aff_mp m mp) = segment_in_multipolygon s mp).
  Proof using Ha Hb.
    split; [intros s'; apply (f_relate_segment a b t u Ha Hb)|]. split; [intros s'; apply (f_multisegment_segment a b t u Ha Hb)|]. split; [intros c; split; [apply (f_contour_segment a b t u Ha Hb)|apply (f_region_segment a b t u Ha Hb)]|].
    split; [intros s'; apply (q_mr_s a b t u Ha Hb)|]. split; [intros s'; apply (q_p_s a b t u Ha Hb)|intros s'; apply (q_mp_s a b t u Ha Hb)].
  Qed.
  Lemma moved_multisegments_l ms :
    (forall c, multisegment_in_region (aff_ms m ms) (aff_ctr m c) = multisegment_in_region ms c)
    /\ (forall rs, multisegment_in_multiregion (aff_ms m ms) (aff_mr m rs) = multisegment_in_multiregion ms rs)
    /\ (forall pg, multisegment_in_polygon (aff_ms m ms) (aff_pg m pg) = multisegment_in_polygon ms pg)
    /\ (forall mp, multisegment_in_multipolygon (aff_ms m ms) (aff_mp m mp) = multisegment_in_multipolygon ms mp).
  Proof using Ha Hb.
    split; [intros x; apply (q_r_ms a b t u Ha Hb)|]. split; [intros x; apply (q_mr_ms a b t u Ha Hb)|]. split; [intros x; apply (q_p_ms a b t u Ha Hb)|intros x; apply (q_mp_ms a b t u Ha Hb)].
  Qed.
  Lemma moved_contours_l c :
    (forall c', contour_in_contour (aff_ctr m c) (aff_ctr m c') = contour_in_contour c c' /\ contour_in_region (aff_ctr m c) (aff_ctr m c') = contour_in_region c c')
    /\ (forall rs, contour_in_multiregion (aff_ctr m c) (aff_mr m rs) = contour_in_multiregion c rs)
    /\ (forall pg, contour_in_polygon (aff_ctr m c) (aff_pg m pg) = contour_in_polygon c pg)
    /\ (forall mp, contour_in_multipolygon (aff_ctr m c) (aff_mp m mp) = contour_in_multipolygon c mp).
  Proof using Ha Hb.
    split; [intros x; split; [apply (q_c_c a b t u Ha Hb)|apply (q_r_c a b t u Ha Hb)]|]. split; [intros x; apply (q_mr_c a b t u Ha Hb)|]. split; [intros x; apply (q_p_c a b t u Ha Hb)|intros x; apply (q_mp_c a b t u Ha Hb)].
  Qed.
  Lemma moved_areas_l :
    (forall r r', region_in_region (aff_ctr m r) (aff_ctr m r') = region_in_region r r')
    /\ (forall r rs, region_in_multiregion (aff_ctr m r) (aff_mr m rs) = region_in_multiregion r rs)
    /\ (forall rs rs', multiregion_in_multiregion (aff_mr m rs) (aff_mr m rs') = multiregion_in_multiregion rs rs')
    /\ (forall r pg, region_in_polygon (aff_ctr m r) (aff_pg m pg) = region_in_polygon r pg)
    /\ (forall rs pg, multiregion_in_polygon (aff_mr m rs) (aff_pg m pg) = multiregion_in_polygon rs pg)
    /\ (forall pg pg', polygon_in_polygon (aff_pg m pg) (aff_pg m pg') = polygon_in_polygon pg pg')
    /\ (forall r mp, region_in_multipolygon (aff_ctr m r) (aff_mp m mp) = region_in_multipolygon r mp)
    /\ (forall rs mp, multiregion_in_multipolygon (aff_mr m rs) (aff_mp m mp) = multiregion_in_multipolygon rs mp)
    /\ (forall pg mp, polygon_in_multipolygon (aff_pg m pg) (aff_mp m mp) = polygon_in_multipolygon pg mp)
    /\ (forall mp mp', multipolygon_in_multipolygon (aff_mp m mp) (aff_mp m mp') = multipolygon_in_multipolygon mp mp').
  Proof using Ha Hb.
    split; [intros x y; apply (q_r_r a b t u Ha Hb)|]. split; [intros x y; apply (q_mr_r a b t u Ha Hb)|]. split; [intros x y; apply (q_mr_mr a b t u Ha Hb)|].
    split; [intros x y; apply (q_p_r a b t u Ha Hb)|]. split; [intros x y; apply (q_p_mr a b t u Ha Hb)|]. split; [intros x y; apply (q_p_p a b t u Ha Hb)|].
    split; [intros x y; apply (q_mp_r a b t u Ha Hb)|]. split; [intros x y; apply (q_mp_mr a b t u Ha Hb)|]. split; [intros x y; apply (q_mp_p a b t u Ha Hb)|intros x y; apply (q_mp_mp a b t u Ha Hb)].
  Qed.
End All.
Lemma moved_lines_l a t u ms : 0 < a -> let m := stretch a a t u in
  (forall ms', multisegment_in_multisegment (aff_ms m ms) (aff_ms m ms') = multisegment_in_multisegment ms ms')
  /\ (forall c, multisegment_in_contour (aff_ms m ms) (aff_ctr m c) = multisegment_in_contour ms c).
Proof. intros H m. split; intros x; [apply (q_ms_ms a a t u H H); reflexivity|apply (q_c_ms a a t u H H); reflexivity]. Qed.

(* Three branches of the second multisegment and two of the first one meet. *)
Definition star2 : multisegment := MSeg [Seg (P 0 0) (P 1 2); Seg (P 0 0) (P (-2) 1)].
Definition star3 : multisegment := MSeg [Seg (P 0 0) (P 2 1); Seg (P 0 0) (P (-1) 2); Seg (P 0 0) (P (-1) (-2))].
Definition tall : affine := stretch 1 (zq 5) 0 0.
Definition shift : affine := stretch (zq 3) (1 / zq 2) (zq 7) (- zq 100).
Definition double : affine := stretch (zq 2) (zq 2) (zq 7) (zq 5).
(* Twice the same segment, and a triangle run through twice. *)
Definition twice : multisegment := MSeg [Seg (P 1 1) (P 5 5); Seg (P 1 1) (P 5 5)].
Definition tri_twice : contour := Ctr [P 0 0; P 6 0; P 0 6; P 0 0; P 6 0; P 0 6].
Lemma wit_stretched : 0 < 1 /\ 0 < zq 5 /\ valid_multisegment star2 /\ valid_multisegment star3
  /\ multisegment_in_multisegment star2 star3 = Ok TOUCH /\ multisegment_in_multisegment (aff_ms tall star2) (aff_ms tall star3) = Ok CROSS.
Proof. split; [reflexivity|]. split; [reflexivity|]. split; [valid_ms|]. split; [valid_ms|]. split; vm_compute; reflexivity. Qed.
Lemma wit_moved_lines : valid_multisegment star2 /\ valid_multisegment star3
  /\ multisegment_in_multisegment (aff_ms double star2) (aff_ms double star3) = Ok TOUCH /\ multisegment_in_multisegment star3 star2 = multisegment_in_multisegment (aff_ms double star3) (aff_ms double star2)
  /\ multisegment_in_multisegment twice star3 = multisegment_in_multisegment (aff_ms double twice) (aff_ms double star3)
  /\ map (fun m => multisegment_in_contour (aff_ms m star2) (aff_ctr m (sqr 0 1))) [tall; double; shift] = [Ok CROSS; Ok CROSS; Ok CROSS].
Proof. split; [valid_ms|]. split; [valid_ms|]. repeat (split; [vm_compute; reflexivity|]). vm_compute; reflexivity. Qed.
