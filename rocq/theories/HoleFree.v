(* Polygons without holes behave as their borders (C35). *)
From Coq Require Import QArith Qcanon List Bool ZArith Lia.
From Verif Require Import Scalar Base Ground MLinear MSweep MCompound Planar Spec RangeProofs BoxProofs.
Import ListNotations.
Open Scope Qc_scope.

Definition hole_free (c : contour) : polygon := Poly c [].

Lemma hole_free_edges c b : polygon_oriented_edges (hole_free c) b = to_oriented_edges_endpoints c b.
Proof.
  unfold polygon_oriented_edges; cbn [border holes hole_free multiregion_oriented_edges bind].
  destruct (to_oriented_edges_endpoints c b); cbn [bind]; [rewrite app_nil_r|]; reflexivity.
Qed.

Lemma point_in_hole_free p c : point_in_polygon p (hole_free c) = point_in_region p c.
Proof.
  unfold point_in_polygon, polygon_locate_point, point_in_region; cbn [border holes hole_free].
  destruct (region_locate_point c p); reflexivity.
Qed.
Lemma segment_in_hole_free s c : segment_in_polygon s (hole_free c) = segment_in_region s c.
Proof.
  unfold segment_in_polygon, polygon_relate_segment, segment_in_region; cbn [border holes hole_free nonempty andb].
  destruct (region_relate_segment c s); reflexivity.
Qed.
Lemma contour_in_hole_free d c : contour_in_polygon d (hole_free c) = contour_in_region d c.
Proof.
  unfold contour_in_polygon, polygon_relate_contour, contour_in_region, region_relate_contour;
    cbn [border holes hole_free nonempty andb].
  destruct (contour_box d); cbn [bind]; [|reflexivity]. destruct (region_relate_contour_ _ _ _); reflexivity.
Qed.

(* A box is computed unless the list of points is empty. *)
Lemma boxes_join_raise l e : boxes_join l = Raise e -> e = ValueError.
Proof. destruct l; cbn; congruence. Qed.

Lemma multisegment_in_hole_free m c : multisegment_in_polygon m (hole_free c) = multisegment_in_region m c.
Proof.
  unfold multisegment_in_polygon, polygon_relate_multisegment, multisegment_in_region, region_relate_multisegment, polygon_box.
  rewrite hole_free_edges. cbn [border hole_free].
  destruct (contour_box c) as [cb|e] eqn:E, (segments_box (segments m)) as [mb|e'] eqn:E'; cbn [bind]; try reflexivity.
  - rewrite disjoint_with_sym. reflexivity.
  - apply boxes_join_raise in E, E'. subst. reflexivity.
Qed.
Lemma region_in_hole_free r c : region_in_polygon r (hole_free c) = region_in_region r c.
Proof.
  unfold region_in_polygon, polygon_relate_region, region_in_region, region_relate_region; cbn [border holes hole_free].
  destruct (contour_box r) as [b|e] eqn:E, (contour_box c) as [b'|e'] eqn:E'; cbn [bind]; try reflexivity.
  - destruct (region_relate_region_ c r b' b) as [rel|] eqn:R; cbn [bind]; [|reflexivity].
    assert (X := region_relate_region__range c r b' b). rewrite R in X. cbn in X.
    unfold multiregion_relate_region_. cbn [gather bind snd nonempty relation_eqb].
    repeat (destruct X as [<-|X]; [reflexivity|]). destruct X.
  - apply boxes_join_raise in E, E'. subst. reflexivity.
Qed.
Lemma multiregion_in_hole_free rs c :
  multiregion_in_polygon rs (hole_free c)
  = match region_in_multiregion c rs with Ok r => Ok (complement r) | Raise e => Raise e end.
Proof.
  unfold multiregion_in_polygon, polygon_relate_multiregion, region_in_multiregion, multiregion_relate_region;
    cbn [border holes hole_free nonempty negb].
  destruct (contour_box c); cbn [bind]; reflexivity.
Qed.
Lemma polygon_in_hole_free c d : polygon_in_polygon (hole_free c) (hole_free d) = region_in_region c d.
Proof.
  unfold polygon_in_polygon, polygon_relate_polygon, region_in_region, region_relate_region, polygon_box;
    cbn [border holes hole_free nonempty andb].
  destruct (contour_box d); cbn [bind]; [|reflexivity]. destruct (contour_box c); cbn [bind]; [|reflexivity].
  destruct (region_relate_region_ d c a a0) as [[]|]; reflexivity.
Qed.

(** Multipolygons of hole-free polygons. *)
Definition hole_frees (cs : list contour) : multipolygon := MPoly (map hole_free cs).

Lemma gather_map {A B} (g : A -> B) pb pe pb' pe' tb te parts :
  (forall a, pb' (g a) = pb a) -> (forall a, pe' (g a) = pe a) ->
  forall nd acc, gather pb' pe' tb te (map g parts) nd acc = gather pb pe tb te parts nd acc.
Proof.
  intros Hb He. induction parts as [|a parts IH]; intros nd acc; cbn [map gather]; [reflexivity|].
  rewrite Hb, He. destruct (pb a); cbn [bind]; [|reflexivity]. destruct (disjoint_with _ _); [apply IH|].
  match goal with |- bind ?x _ = bind ?y _ => destruct x; cbn [bind]; [|reflexivity] end.
  destruct (pe a); cbn [bind]; [|reflexivity]. apply IH.
Qed.
Lemma gather_hole_frees tb te cs nd acc :
  gather polygon_box (fun pg => polygon_oriented_edges pg false) tb te (map hole_free cs) nd acc
  = gather contour_box (fun r => to_oriented_edges_endpoints r false) tb te cs nd acc.
Proof. apply gather_map; [reflexivity|]. intros a. apply hole_free_edges. Qed.

Lemma point_in_hole_frees p cs : point_in_multipolygon p (hole_frees cs) = point_in_multiregion p cs.
Proof.
  unfold point_in_multipolygon, point_in_multiregion, multipolygon_locate_point, hole_frees. cbn [polygons].
  induction cs as [|c cs IH]; [reflexivity|]. cbn [map polygons_locate_point multiregion_locate_point].
  assert (E : polygon_locate_point (hole_free c) p = region_locate_point c p) by apply point_in_hole_free.
  rewrite E, IH. reflexivity.
Qed.
Lemma multisegment_in_hole_frees m cs :
  multisegment_in_multipolygon m (hole_frees cs) = multisegment_in_multiregion m cs.
Proof.
  unfold multisegment_in_multipolygon, multipolygon_relate_multisegment, multisegment_in_multiregion,
    multiregion_relate_multisegment, multiregion_relate_multisegment_, hole_frees. cbn [polygons].
  destruct (segments_box _); cbn [bind]; [|reflexivity]. rewrite gather_hole_frees. reflexivity.
Qed.
Lemma segment_in_hole_frees s cs : segment_in_multipolygon s (hole_frees cs) = segment_in_multiregion s cs.
Proof.
  unfold segment_in_multipolygon, multipolygon_relate_segment.
  change (multipolygon_relate_multisegment (hole_frees cs) (MSeg [s]))
    with (multisegment_in_multipolygon (MSeg [s]) (hole_frees cs)).
  rewrite multisegment_in_hole_frees. reflexivity.
Qed.
Lemma contour_in_hole_frees c cs : contour_in_multipolygon c (hole_frees cs) = contour_in_multiregion c cs.
Proof.
  unfold contour_in_multipolygon, multipolygon_relate_contour, contour_in_multiregion,
    multiregion_relate_contour, multiregion_relate_contour_, hole_frees. cbn [polygons].
  destruct (contour_box _); cbn [bind]; [|reflexivity]. rewrite gather_hole_frees. reflexivity.
Qed.
Lemma region_in_hole_frees c cs : region_in_multipolygon c (hole_frees cs) = region_in_multiregion c cs.
Proof.
  unfold region_in_multipolygon, multipolygon_relate_region, region_in_multiregion,
    multiregion_relate_region, multiregion_relate_region_, hole_frees. cbn [polygons].
  destruct (contour_box _); cbn [bind]; [|reflexivity]. rewrite gather_hole_frees. reflexivity.
Qed.
Lemma polygon_in_hole_frees c cs : polygon_in_multipolygon (hole_free c) (hole_frees cs) = region_in_multiregion c cs.
Proof.
  rewrite <- region_in_hole_frees.
  unfold polygon_in_multipolygon, multipolygon_relate_polygon, region_in_multipolygon, multipolygon_relate_region, hole_frees.
  cbn [polygons]. rewrite hole_free_edges. reflexivity.
Qed.
Lemma hole_frees_edges cs b : polygons_oriented_edges (map hole_free cs) b = multiregion_oriented_edges cs b.
Proof.
  induction cs as [|c cs IH]; [reflexivity|]. cbn [map polygons_oriented_edges multiregion_oriented_edges].
  rewrite hole_free_edges, IH. reflexivity.
Qed.
Lemma map_border_hole_free cs : map border (map hole_free cs) = cs.
Proof. rewrite map_map. cbn. apply map_id. Qed.
Lemma multiregion_in_hole_frees rs cs :
  multiregion_in_multipolygon rs (hole_frees cs) = multiregion_in_multiregion rs cs.
Proof.
  unfold multiregion_in_multipolygon, multipolygon_relate_multiregion, multiregion_in_multiregion,
    multiregion_relate_multiregion, hole_frees, polygons_box. cbn [polygons].
  rewrite hole_frees_edges, map_border_hole_free.
  destruct (contours_box rs) eqn:E, (contours_box cs) eqn:E'; cbn [bind]; try reflexivity.
  apply boxes_join_raise in E, E'. subst; reflexivity.
Qed.

Lemma hole_free_polygon_l : forall p s m c d r rs,
  point_in_polygon p (Poly c []) = point_in_region p c
  /\ segment_in_polygon s (Poly c []) = segment_in_region s c
  /\ multisegment_in_polygon m (Poly c []) = multisegment_in_region m c
  /\ contour_in_polygon d (Poly c []) = contour_in_region d c
  /\ region_in_polygon r (Poly c []) = region_in_region r c
  /\ multiregion_in_polygon rs (Poly c [])
     = match region_in_multiregion c rs with Ok x => Ok (complement x) | Raise e => Raise e end
  /\ polygon_in_polygon (Poly d []) (Poly c []) = region_in_region d c.
Proof.
  intros. split; [apply point_in_hole_free|]. split; [apply segment_in_hole_free|].
  split; [apply multisegment_in_hole_free|]. split; [apply contour_in_hole_free|].
  split; [apply region_in_hole_free|]. split; [apply multiregion_in_hole_free|apply polygon_in_hole_free].
Qed.
Lemma hole_free_multipolygon_l : forall p s m d rs cs,
  let mp := MPoly (map (fun c => Poly c []) cs) in
  point_in_multipolygon p mp = point_in_multiregion p cs
  /\ segment_in_multipolygon s mp = segment_in_multiregion s cs
  /\ multisegment_in_multipolygon m mp = multisegment_in_multiregion m cs
  /\ contour_in_multipolygon d mp = contour_in_multiregion d cs
  /\ region_in_multipolygon d mp = region_in_multiregion d cs
  /\ polygon_in_multipolygon (Poly d []) mp = region_in_multiregion d cs
  /\ multiregion_in_multipolygon rs mp = multiregion_in_multiregion rs cs.
Proof.
  intros. split; [apply point_in_hole_frees|]. split; [apply segment_in_hole_frees|].
  split; [apply multisegment_in_hole_frees|]. split; [apply contour_in_hole_frees|].
  split; [apply region_in_hole_frees|]. split; [apply polygon_in_hole_frees|apply multiregion_in_hole_frees].
Qed.
