(* Inputs for the examples of PropsPoly.v. *)
From Coq Require Import QArith Qcanon List Bool ZArith.
From Verif Require Import Scalar Base Ground MLinear MSweep MCompound Planar Spec SpecAreas Geom PointProofs SegProofs EqualProofs Check NoFail RefuteProofs Drawn AreaQueries ClosedProofs Polygons PolyQueries BoxProofs Witness6 Witness10.
Import ListNotations.
Open Scope Qc_scope.

(* A checker for valid polygons. *)
Definition hole_b (b h : contour) : bool :=
  match region_in_region h b with Ok WITHIN | Ok ENCLOSED => true | _ => false end
  && (contour_edges_okb h && (contour_edges_okb b && edges_discreteb (cyc_pairs (vertices h)) (cyc_pairs (vertices b)))).
Definition valid_polygonb (pg : polygon) : bool :=
  simple_contourb (border pg) && (valid_multiregionb (holes pg) && forallb (hole_b (border pg)) (holes pg)).
Lemma hole_b_ok b h : simple_contour b -> simple_contour h -> hole_b b h = true ->
  (forall p, on_contour h p -> ~ outside b p) /\ ~ share_segment (on_contour h) (on_contour b).
Proof.
  intros B H E. unfold hole_b in E. apply andb_true_iff in E. destruct E as [E1 E2]. apply andb_true_iff in E2. destruct E2 as [E2 E3].
  apply andb_true_iff in E3. destruct E3 as [E3 E4]. split; [|apply no_shared_segment; assumption].
  intros p Hp O. destruct (region_in_region_exact_l h b H B) as (rel & Q & S & _). rewrite Q in E1.
  assert (K : a_cl (region_area b) p) by (destruct rel; try discriminate E1; cbn [areal_spec] in S; apply S; right; exact Hp).
  destruct K as [K|K]; [exact (inside_not_outside b p B K O)|exact (proj1 O K)].
Qed.
Lemma valid_polygonb_ok pg : valid_polygonb pg = true -> valid_polygon pg.
Proof.
  intros E. unfold valid_polygonb in E. apply andb_true_iff in E. destruct E as [E1 E2]. apply andb_true_iff in E2. destruct E2 as [E2 E3].
  apply simple_contourb_ok in E1. apply valid_multiregionb_ok in E2. rewrite forallb_forall in E3.
  assert (F : forall h, In h (holes pg) -> simple_contour h) by (destruct E2 as [F _]; rewrite Forall_forall in F; exact F).
  split; [exact E1|]. split; [exact E2|]. split.
  - intros h p I. apply (hole_b_ok _ _ E1 (F h I) (E3 h I)).
  - intros h I. apply (hole_b_ok _ _ E1 (F h I) (E3 h I)).
Qed.
(* Polygons whose borders are apart, or one of which is in a hole of the other. *)
Definition apart_or_in (a b : polygon) : bool :=
  match region_in_region (border a) (border b) with Ok DISJOINT | Ok TOUCH => true | _ => false end
  || existsb (fun h => match region_in_region (border a) h with Ok ENCLOSED | Ok WITHIN => true | _ => false end) (holes b).
Definition discrete_edgesb (l m : list (point * point)) : bool :=
  forallb (fun e => nodegb (pseg e)) l && (forallb (fun e => nodegb (pseg e)) m && edges_discreteb l m).
Definition polygons_apartb (a b : polygon) : bool := (apart_or_in a b || apart_or_in b a) && discrete_edgesb (polygon_edges a) (polygon_edges b).
Lemma apart_or_in_ok a b : valid_polygon a -> valid_polygon b -> apart_or_in a b = true -> forall p, polygon_interior a p -> polygon_interior b p -> False.
Proof.
  intros A B E p [P _] [Q N]. pose proof (pg_border a A) as SA. pose proof (pg_border b B) as SB. apply orb_true_iff in E. destruct E as [E|E].
  - destruct (region_in_region_exact_l _ _ SA SB) as (rel & R & S & _). rewrite R in E. destruct rel; try discriminate E; cbn [areal_spec] in S.
    + apply S. exists p. split; left; assumption.
    + apply (proj1 S). exists p. split; assumption.
  - apply existsb_exists in E. destruct E as (h & I & E). destruct (region_in_region_exact_l _ _ SA (pg_hole b B h I)) as (rel & R & S & _). rewrite R in E.
    assert (K : a_cl (region_area h) p) by (destruct rel; try discriminate E; cbn [areal_spec] in S; apply S; left; exact P). specialize (N h I).
    destruct K as [K|K]; [exact (inside_not_outside h p (pg_hole b B h I) K N)|exact (proj1 N K)].
Qed.
Lemma boundary_edges pg p : polygon_boundary pg p -> exists x y, In (x, y) (polygon_edges pg) /\ on_segment x y p.
Proof.
  intros [H|(h & I & H)]; destruct H as (x & y & J & S); exists x, y; (split; [|exact S]); unfold polygon_edges, contours_edges; apply in_flat_map.
  - exists (border pg). split; [left; reflexivity|exact J].
  - exists h. split; [right; exact I|exact J].
Qed.
Lemma polygons_apartb_ok a b : valid_polygon a -> valid_polygon b -> polygons_apartb a b = true -> polygons_apart a b.
Proof.
  intros A B E. unfold polygons_apartb in E. apply andb_true_iff in E. destruct E as [E1 E2]. split.
  - intros p P Q. apply orb_true_iff in E1. destruct E1 as [E1|E1]; [exact (apart_or_in_ok a b A B E1 p P Q)|exact (apart_or_in_ok b a B A E1 p Q P)].
  - unfold discrete_edgesb in E2. rewrite !andb_true_iff in E2. destruct E2 as (F1 & F2 & F3). intros (x & y & N & S).
    destruct (edges_discreteb_finite _ _ F1 F2 F3) as [ps Hps].
    apply (finite_cover (fun p => polygon_boundary a p /\ polygon_boundary b p) ps).
    + exists x, y. split; [exact N|]. intros p Hp. split; apply S; exact Hp.
    + intros p (Pa & Pb). destruct (boundary_edges a p Pa) as (u & v & I & H). destruct (boundary_edges b p Pb) as (u' & v' & I' & H'). exact (Hps _ _ _ _ p I I' H H').
Qed.
Definition valid_multipolygonb (mp : multipolygon) : bool := forallb valid_polygonb (polygons mp) && ord_pairsb polygons_apartb (polygons mp).
Lemma valid_multipolygonb_ok mp : valid_multipolygonb mp = true -> valid_multipolygon mp.
Proof.
  intros E. unfold valid_multipolygonb in E. apply andb_true_iff in E. destruct E as [E1 E2]. rewrite forallb_forall in E1.
  assert (F : forall pg, In pg (polygons mp) -> valid_polygon pg) by (intros pg I; apply valid_polygonb_ok, E1, I).
  split; [apply Forall_forall; exact F|]. revert E2. apply ord_pairsb_ok. intros x y X Y. apply polygons_apartb_ok; apply F; assumption.
Qed.
Ltac valid_pg := apply valid_polygonb_ok; vm_compute; reflexivity.
Ltac valid_mp := apply valid_multipolygonb_ok; vm_compute; reflexivity.

(* Edges that have no common point, or one that is an end of both. *)
Definition ends_onlyb (e f : point * point) : bool :=
  (pt_eqb (fst e) (fst f) && pt_eqb (snd e) (snd f)) ||
  match segments_relation (pseg e) (pseg f) with
  | DISJOINT => true
  | TOUCH => pt_eqb (fst e) (fst f) || pt_eqb (fst e) (snd f) || pt_eqb (snd e) (fst f) || pt_eqb (snd e) (snd f)
  | _ => false
  end.
Definition meet_at_endsb (l : list (point * point)) : bool :=
  forallb (fun e => nodegb (pseg e)) l && forallb (fun e => forallb (ends_onlyb e) l) l.
Lemma meet_at_endsb_ok X l : meet_at_endsb l = true -> meet_at_ends X l.
Proof.
  intros E. unfold meet_at_endsb in E. apply andb_true_iff in E. destruct E as [F E]. rewrite forallb_forall in E, F.
  intros e e' p I I' N _ H H'. pose proof (nodegb_ok _ (F e I)) as D. pose proof (nodegb_ok _ (F e' I')) as D'.
  specialize (E e I). rewrite forallb_forall in E. specialize (E e' I'). unfold ends_onlyb in E. apply orb_true_iff in E. destruct E as [E|E].
  { exfalso. apply N. apply andb_true_iff in E. destruct E as [E1 E2]. destruct e as [a b], e' as [c d]. cbn [fst snd] in *.
    destruct (pt_eqb_spec a c) as [->|]; [|discriminate]. destruct (pt_eqb_spec b d) as [->|]; [|discriminate]. reflexivity. }
  assert (S := segments_relation_sound _ _ D D'). unfold pseg, in_segment in S. destruct e as [a b], e' as [c d]. cbn [pseg fst snd s_start s_end] in *.
  unfold pseg in E. cbn [fst snd] in E. destruct (segments_relation _ _); try discriminate; cbn [segments_spec] in S.
  - exfalso. apply S. exists p. auto.
  - destruct S as (x & (_ & _ & U) & _). assert (Up : p = x) by (apply U; assumption).
    assert (Q : forall z, on_segment a b z -> on_segment c d z -> p = z) by (intros z Z1 Z2; rewrite Up; symmetry; apply U; assumption).
    rewrite !orb_true_iff in E. destruct E as [[[E|E]|E]|E].
    + destruct (pt_eqb_spec a c) as [->|]; [|discriminate]. left. apply Q; apply on_segment_start.
    + destruct (pt_eqb_spec a d) as [->|]; [|discriminate]. left. apply Q; [apply on_segment_start|apply on_segment_end].
    + destruct (pt_eqb_spec b c) as [->|]; [|discriminate]. right. apply Q; [apply on_segment_end|apply on_segment_start].
    + destruct (pt_eqb_spec b d) as [->|]; [|discriminate]. right. apply Q; apply on_segment_end.
Qed.
Ltac ends := apply meet_at_endsb_ok; vm_compute; reflexivity.

(* A square with a hole, and a triangle at its corner. *)
Definition ring_q : polygon := Poly (sqr 0 8) [sqr 2 6].
Definition corner_t : contour := Ctr [P 8 8; P 10 8; P 10 10].
Definition ring_and : multipolygon := MPoly [ring_q; Poly corner_t []].
Definition sq_and : multiregion := [sqr 0 8; corner_t].
Definition g_in : multisegment := MSeg [Seg (P 1 1) (P 1 7); Seg (P 1 1) (P 7 1)].
Definition g_enc : multisegment := MSeg [Seg (P 1 1) (P 1 7); Seg (P 1 1) (P 0 0)].
Definition g_comp : multisegment := MSeg [Seg (P 0 0) (P 0 1); Seg (P 2 0) (P 3 0)].
Definition g_cross : multisegment := MSeg [Seg (P 1 1) (P 1 9); Seg (P 1 1) (P 1 (-1))].
Definition g_touch : multisegment := MSeg [Seg (P 0 1) (P (-1) 1); Seg (P 0 0) (P 0 1)].
Definition g_far : multisegment := MSeg [Seg (P 3 10) (P 5 10); Seg (P 5 10) (P 5 9)].
Lemma not_around m A p : a_on A p -> misses m p = true -> ~ runs_around (in_multisegment m) A.
Proof. intros H Mi (S & _). exact (misses_ok m _ p H Mi S). Qed.

Definition c_lines : list contour := [sqr 1 7; sqr 2 6; sqr 3 5; sqr 2 5; sqr 7 9; sqr 1 8].
Definition m_lines : list multisegment := [g_in; g_enc; g_comp; g_cross; g_touch; g_far].
Definition s_lines : list segment := [Seg (P 1 1) (P 7 1); Seg (P 6 6) (P 10 9); Seg (P 1 1) (P 0 0); Seg (P 2 3) (P 2 6); Seg (P 3 3) (P 6 6); Seg (P 3 3) (P 4 5); Seg (P 1 3) (P 4 3)].
Lemma ring_and_valid : valid_multipolygon ring_and. Proof. valid_mp. Qed.
Lemma ring_q_valid : valid_polygon ring_q. Proof. valid_pg. Qed.
Lemma sq_and_valid : valid_multiregion sq_and. Proof. valid_mr. Qed.
Ltac m_all := repeat (apply Forall_cons; [valid_ms|]); apply Forall_nil.
Lemma border_not_around m pg : existsb (misses m) (vertices (border pg)) = true -> ~ runs_around (in_multisegment m) (polygon_area pg).
Proof.
  intros E. apply existsb_exists in E. destruct E as (p & I & E). apply (not_around m _ p); [|exact E]. left. apply on_contour_vertex, I.
Qed.
Lemma region_not_around m r : existsb (misses m) (vertices r) = true -> ~ runs_around (in_multisegment m) (region_area r).
Proof. intros E. apply existsb_exists in E. destruct E as (p & I & E). apply (not_around m _ p); [|exact E]. apply on_contour_vertex, I. Qed.
Lemma lines_not_around (l : list multisegment) (ps : list polygon) : forallb (fun m => forallb (fun pg => existsb (misses m) (vertices (border pg))) ps) l = true ->
  forall m pg, In m l -> In pg ps -> ~ runs_around (in_multisegment m) (polygon_area pg).
Proof. intros E m pg I J. apply border_not_around. rewrite forallb_forall in E. specialize (E m I). rewrite forallb_forall in E. exact (E pg J). Qed.
Lemma lines_not_around_r (l : list multisegment) (ps : list contour) : forallb (fun m => forallb (fun r => existsb (misses m) (vertices r)) ps) l = true ->
  forall m r, In m l -> In r ps -> ~ runs_around (in_multisegment m) (region_area r).
Proof. intros E m pg I J. apply region_not_around. rewrite forallb_forall in E. specialize (E m I). rewrite forallb_forall in E. exact (E pg J). Qed.
Lemma wit_lines_multipolygon :
  valid_multipolygon ring_and /\ polygons ring_and <> [] /\ (forall X, meet_at_ends X (multipolygon_edges ring_and))
  /\ Forall nondegenerate s_lines
  /\ map (fun s => segment_in_multipolygon s ring_and) s_lines
     = [Ok WITHIN; Ok CROSS; Ok ENCLOSED; Ok COMPONENT; Ok TOUCH; Ok DISJOINT; Ok CROSS]
  /\ Forall valid_multisegment m_lines
  /\ (forall m pg, In m m_lines -> In pg (polygons ring_and) -> ~ runs_around (in_multisegment m) (polygon_area pg))
  /\ map (fun m => multisegment_in_multipolygon m ring_and) m_lines
     = [Ok WITHIN; Ok ENCLOSED; Ok COMPONENT; Ok CROSS; Ok TOUCH; Ok DISJOINT]
  /\ Forall simple_contour c_lines
  /\ map (fun c => contour_in_multipolygon c ring_and) c_lines
     = [Ok WITHIN; Ok COMPONENT; Ok DISJOINT; Ok TOUCH; Ok CROSS; Ok ENCLOSED].
Proof.
  split; [exact ring_and_valid|]. split; [discriminate|]. split; [intros X; ends|]. split; [repeat (apply Forall_cons; [nd|]); apply Forall_nil|].
  split; [vm_compute; reflexivity|]. split; [m_all|]. split; [apply lines_not_around; vm_compute; reflexivity|]. split; [vm_compute; reflexivity|]. split; [all_simple|vm_compute; reflexivity].
Qed.
Definition s_more : list segment := [Seg (P 1 1) (P 7 1); Seg (P 6 6) (P 10 9); Seg (P 1 1) (P 0 0); Seg (P 0 3) (P 0 6); Seg (P 8 0) (P 8 11); Seg (P 9 1) (P 9 5)].
Definition c_more : list contour := [sqr 1 7; sqr 0 8; sqr 9 12; sqr (-2) 0; sqr 0 7; sqr 11 12].
Lemma wit_lines_multiregion :
  valid_multiregion sq_and /\ sq_and <> [] /\ (forall X, meet_at_ends X (contours_edges sq_and))
  /\ Forall nondegenerate s_more
  /\ map (fun s => segment_in_multiregion s sq_and) s_more = [Ok WITHIN; Ok CROSS; Ok ENCLOSED; Ok COMPONENT; Ok TOUCH; Ok DISJOINT]
  /\ Forall valid_multisegment m_lines
  /\ (forall m r, In m m_lines -> In r sq_and -> ~ runs_around (in_multisegment m) (region_area r))
  /\ map (fun m => multisegment_in_multiregion m sq_and) m_lines = [Ok WITHIN; Ok ENCLOSED; Ok COMPONENT; Ok CROSS; Ok TOUCH; Ok DISJOINT]
  /\ Forall simple_contour c_more
  /\ map (fun c => contour_in_multiregion c sq_and) c_more = [Ok WITHIN; Ok COMPONENT; Ok CROSS; Ok TOUCH; Ok ENCLOSED; Ok DISJOINT].
Proof.
  split; [exact sq_and_valid|]. split; [discriminate|]. split; [intros X; ends|]. split; [repeat (apply Forall_cons; [nd|]); apply Forall_nil|].
  split; [vm_compute; reflexivity|]. split; [m_all|]. split; [apply lines_not_around_r; vm_compute; reflexivity|]. split; [vm_compute; reflexivity|]. split; [all_simple|vm_compute; reflexivity].
Qed.
Lemma wit_lines_polygon :
  valid_polygon ring_q /\ (forall X, meet_at_ends X (polygon_edges ring_q)) /\ Forall valid_multisegment m_lines
  /\ (forall m, In m m_lines -> ~ runs_around (in_multisegment m) (polygon_area ring_q))
  /\ map (fun m => multisegment_in_polygon m ring_q) m_lines = [Ok WITHIN; Ok ENCLOSED; Ok COMPONENT; Ok CROSS; Ok TOUCH; Ok DISJOINT].
Proof.
  split; [exact ring_q_valid|]. split; [intros X; ends|]. split; [m_all|].
  split; [intros m I; apply (lines_not_around m_lines [ring_q]); [vm_compute; reflexivity|exact I|left; reflexivity]|vm_compute; reflexivity].
Qed.


Definition big_ring : polygon := Poly (sqr 0 12) [sqr 4 8].
Definition big_tri : contour := Ctr [P 12 12; P 14 12; P 14 14].
Definition big_and : multipolygon := MPoly [big_ring; Poly big_tri []].
Definition one (c : contour) : polygon := Poly c [].
Definition r_areas : list contour := [big_tri; sqr 1 3; sqr 0 4; sqr 2 6; sqr 4 6; sqr 5 7; sqr 0 15; sqr (-1) 15].
Definition p_areas : list polygon := [big_ring; Poly (sqr 1 11) [sqr 3 9]; Poly (sqr 0 12) [sqr 3 9]; Poly (sqr 2 10) [sqr 5 7]; Poly (sqr 4 8) [sqr 5 7];
  one (sqr 5 7); Poly (sqr 0 15) [sqr 5 7]; Poly (sqr (-1) 15) [sqr 5 7]].
Definition mr_areas : list multiregion := [[sqr 1 2; sqr 9 10]; [sqr 0 2; sqr 9 10]; [big_tri]; [sqr 4 6; sqr 6 8]; [sqr 5 6; sqr 6 7]; [sqr (-1) 20]; [sqr 1 5; sqr 20 21]].
Definition mp_areas : list multipolygon := [big_and; MPoly [big_ring]; MPoly [Poly (sqr 1 11) [sqr 3 9]]; MPoly [Poly (sqr 0 11) [sqr 3 9]; one big_tri]; MPoly [Poly (sqr 1 10) [sqr 3 7]; one big_tri];
  MPoly [one (sqr 4 6); one (sqr 6 8)]; MPoly [one (sqr 5 6)]; MPoly [big_ring; one big_tri; one (sqr 20 21)]; MPoly [one (sqr (-1) 20); one (sqr 20 21)]; MPoly [one (sqr 0 15); one (sqr 20 21)]].
Lemma wit_areas_multipolygon :
  valid_multipolygon big_and /\ polygons big_and <> [] /\ (forall X, meet_at_ends X (multipolygon_edges big_and))
  /\ Forall simple_contour r_areas
  /\ map (fun r => region_in_multipolygon r big_and) r_areas
     = [Ok COMPONENT; Ok WITHIN; Ok ENCLOSED; Ok OVERLAP; Ok TOUCH; Ok DISJOINT; Ok ENCLOSES; Ok COVER]
  /\ Forall valid_polygon p_areas
  /\ map (fun pg => polygon_in_multipolygon pg big_and) p_areas
     = [Ok COMPONENT; Ok WITHIN; Ok ENCLOSED; Ok OVERLAP; Ok TOUCH; Ok DISJOINT; Ok ENCLOSES; Ok COVER]
  /\ Forall valid_multiregion mr_areas /\ Forall (fun rs => rs <> []) mr_areas
  /\ map (fun rs => multiregion_in_multipolygon rs big_and) mr_areas
     = [Ok WITHIN; Ok ENCLOSED; Ok COMPONENT; Ok TOUCH; Ok DISJOINT; Ok COVER; Ok OVERLAP]
  /\ Forall valid_multipolygon mp_areas /\ Forall (fun mp => polygons mp <> []) mp_areas
  /\ map (fun mp => multipolygon_in_multipolygon mp big_and) mp_areas
     = [Ok EQUAL; Ok COMPONENT; Ok WITHIN; Ok ENCLOSED; Ok OVERLAP; Ok TOUCH; Ok DISJOINT; Ok COMPOSITE; Ok COVER; Ok ENCLOSES].
Proof.
  split; [valid_mp|]. split; [discriminate|]. split; [intros X; ends|]. split; [all_simple|]. split; [vm_compute; reflexivity|].
  split; [repeat (apply Forall_cons; [valid_pg|]); apply Forall_nil|]. split; [vm_compute; reflexivity|].
  split; [repeat (apply Forall_cons; [valid_mr|]); apply Forall_nil|]. split; [repeat (apply Forall_cons; [discriminate|]); apply Forall_nil|]. split; [vm_compute; reflexivity|].
  split; [repeat (apply Forall_cons; [valid_mp|]); apply Forall_nil|]. split; [repeat (apply Forall_cons; [discriminate|]); apply Forall_nil|]. vm_compute; reflexivity.
Qed.
