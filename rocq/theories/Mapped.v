(* Affine images of geometries and the relations of the images. *)
From Coq Require Import QArith Qcanon List Bool ZArith Lia Permutation.
From Verif Require Import Scalar Base Ground MLinear MSweep MCompound Planar Spec SpecAreas SpecMore Geom RayParity SegProofs BoxProofs PointProofs EqualProofs
  NoFail OpenProofs Orient Area AreaAnswer Drawn Gather Cover Sector AreaQueries ClosedProofs Polygons Inner PolyQueries Areas PolyArea Corner Pieces PolyLine PolyMulti PolyPoly Rings Located.
Import ListNotations.
Open Scope Qc_scope.

Lemma aff_onto m p : det m <> 0 -> exists q, aff_pt m q = p.
Proof.
  intros D. destruct p as [x y]. set (u := x - atx m). set (v := y - aty m).
  exists (Pt ((ayy m * u - axy m * v) / det m) ((axx m * v - ayx m * u) / det m)).
  unfold aff_pt. cbn [px py]. f_equal; unfold u, v, det in *; field; exact D.
Qed.
Lemma FOP_map {A B} (f : A -> B) (R : A -> A -> Prop) (R' : B -> B -> Prop) l : (forall x y, R x y -> R' (f x) (f y)) -> ForallOrdPairs R l -> ForallOrdPairs R' (map f l).
Proof.
  intros H F. induction F as [|x l F1 F2 IH]; cbn [map]; constructor; [|exact IH].
  apply Forall_forall. intros y I. apply in_map_iff in I. destruct I as (z & <- & I). apply H. exact (proj1 (Forall_forall _ _) F1 z I).
Qed.
Lemma Forall_map_of {A B} (f : A -> B) (P : A -> Prop) (P' : B -> Prop) l : (forall x, P x -> P' (f x)) -> Forall P l -> Forall P' (map f l).
Proof. intros H F. apply Forall_forall. intros y I. apply in_map_iff in I. destruct I as (x & <- & I). apply H. exact (proj1 (Forall_forall _ _) F x I). Qed.

Section Map.
  Variable m : affine.
  Hypothesis D : det m <> 0.
  Let f := aff_pt m.
  (* [X'] is the image of [X]. *)
  Definition image (X X' : point -> Prop) : Prop := forall p, X' (aff_pt m p) <-> X p.
  Definition image_area (A A' : area) : Prop := image (a_in A) (a_in A') /\ image (a_on A) (a_on A') /\ image (a_out A) (a_out A').

  Lemma im_subset X X' Y Y' : image X X' -> image Y Y' -> (subset X' Y' <-> subset X Y).
  Proof using D.
    intros HX HY. split; intros S p Hp.
    - apply HY, S, HX, Hp.
    - destruct (aff_onto m p D) as (q & <-). apply HY, S, HX, Hp.
  Qed.
  Lemma im_same X X' Y Y' : image X X' -> image Y Y' -> (same_set X' Y' <-> same_set X Y).
  Proof using D.
    intros HX HY. split; intros S p.
    - rewrite <- (HX p), <- (HY p). apply S.
    - destruct (aff_onto m p D) as (q & <-). rewrite (HX q), (HY q). apply S.
  Qed.
  Lemma im_meets X X' Y Y' : image X X' -> image Y Y' -> (meets X' Y' <-> meets X Y).
  Proof using D.
    intros HX HY. split; intros (p & P1 & P2).
    - destruct (aff_onto m p D) as (q & <-). exists q. split; [apply HX|apply HY]; assumption.
    - exists (aff_pt m p). split; [apply HX|apply HY]; assumption.
  Qed.
  Lemma im_segment a b : image (on_segment a b) (on_segment (aff_pt m a) (aff_pt m b)).
  Proof using D. intros p. apply aff_on_segment, D. Qed.
  Lemma im_share X X' Y Y' : image X X' -> image Y Y' -> (share_segment X' Y' <-> share_segment X Y).
  Proof using D.
    intros HX HY. split; intros (a & b & N & S).
    - destruct (aff_onto m a D) as (a' & <-). destruct (aff_onto m b D) as (b' & <-). exists a', b'. split; [congruence|].
      intros p Hp. destruct (S (aff_pt m p)) as [S1 S2]; [apply im_segment, Hp|]. split; [apply HX|apply HY]; assumption.
    - exists (aff_pt m a), (aff_pt m b). split; [intros E; apply N; exact (aff_inj m a b D E)|]. intros p Hp. destruct (aff_onto m p D) as (q & <-).
      destruct (S q) as [S1 S2]; [apply im_segment, Hp|]. split; [apply HX|apply HY]; assumption.
  Qed.
  Lemma im_cl A A' : image_area A A' -> image (a_cl A) (a_cl A').
  Proof using Type. intros (H1 & H2 & _) p. unfold a_cl. rewrite (H1 p), (H2 p). tauto. Qed.
  Lemma im_areal A A' B B' : image_area A A' -> image_area B B' -> forall rel, areal_spec A B rel <-> areal_spec A' B' rel.
  Proof using D.
    intros HA HB. pose proof (im_cl _ _ HA) as CA. pose proof (im_cl _ _ HB) as CB. destruct HA as (IA & OA & _), HB as (IB & OB & _).
    pose proof (im_meets _ _ _ _ CA CB) as M1. pose proof (im_meets _ _ _ _ IA IB) as M2. pose proof (im_meets _ _ _ _ OA OB) as M3. pose proof (im_meets _ _ _ _ OB OA) as M3'.
    pose proof (im_subset _ _ _ _ CA CB) as S1. pose proof (im_subset _ _ _ _ CB CA) as S2. pose proof (im_subset _ _ _ _ OA OB) as S3. pose proof (im_subset _ _ _ _ OB OA) as S4.
    pose proof (im_same _ _ _ _ CA CB) as E. intros rel. destruct rel; cbn [areal_spec]; unfold proper_part; tauto.
  Qed.
  Lemma im_linear X X' A A' : image X X' -> image_area A A' -> forall rel, linear_areal_spec X A rel <-> linear_areal_spec X' A' rel.
  Proof using D.
    intros HX (IA & OA & UA). pose proof (im_meets _ _ _ _ HX IA) as M1. pose proof (im_meets _ _ _ _ HX OA) as M2. pose proof (im_meets _ _ _ _ HX UA) as M3.
    pose proof (im_subset _ _ _ _ HX IA) as S1. pose proof (im_subset _ _ _ _ HX OA) as S2. pose proof (im_subset _ _ _ _ HX UA) as S3.
    intros rel. destruct rel; cbn [linear_areal_spec]; tauto.
  Qed.
  Lemma im_contour c : image (on_contour c) (on_contour (aff_ctr m c)).
  Proof using D. intros p. apply aff_on_contour, D. Qed.
  Lemma im_inside c : image (inside c) (inside (aff_ctr m c)).
  Proof using D. intros p. rewrite <- (proj1 (point_in_region_exact_l p c)), <- (proj1 (point_in_region_exact_l _ (aff_ctr m c))), point_in_region_affine_l by exact D. tauto. Qed.
  Lemma im_outside c : image (outside c) (outside (aff_ctr m c)).
  Proof using D.
    intros p. destruct (point_in_region_exact_l p c) as (_ & A & _). destruct (point_in_region_exact_l (aff_pt m p) (aff_ctr m c)) as (_ & B & _).
    rewrite <- A, <- B, point_in_region_affine_l by exact D. tauto.
  Qed.
  Lemma im_region c : image_area (region_area c) (region_area (aff_ctr m c)).
  Proof using D. exact (conj (im_inside c) (conj (im_contour c) (im_outside c))). Qed.
  Lemma im_some {A B} (g : A -> B) (X : A -> point -> Prop) (X' : B -> point -> Prop) l : (forall a, image (X a) (X' (g a))) ->
    image (fun p => exists a, In a l /\ X a p) (fun p => exists b, In b (map g l) /\ X' b p).
  Proof using Type.
    intros H p. split.
    - intros (b & I & K). apply in_map_iff in I. destruct I as (a & <- & I). exists a. split; [exact I|apply H, K].
    - intros (a & I & K). exists (g a). split; [apply in_map, I|apply H, K].
  Qed.
  Lemma im_every {A B} (g : A -> B) (X : A -> point -> Prop) (X' : B -> point -> Prop) l : (forall a, image (X a) (X' (g a))) ->
    image (fun p => forall a, In a l -> X a p) (fun p => forall b, In b (map g l) -> X' b p).
  Proof using Type.
    intros H p. split.
    - intros K a I. apply H, K, in_map, I.
    - intros K b I. apply in_map_iff in I. destruct I as (a & <- & I). apply H, K, I.
  Qed.
  Lemma im_and (X X' Y Y' : point -> Prop) : image X X' -> image Y Y' -> image (fun p => X p /\ Y p) (fun p => X' p /\ Y' p).
  Proof using Type. intros HX HY p. rewrite (HX p), (HY p). tauto. Qed.
  Lemma im_or (X X' Y Y' : point -> Prop) : image X X' -> image Y Y' -> image (fun p => X p \/ Y p) (fun p => X' p \/ Y' p).
  Proof using Type. intros HX HY p. rewrite (HX p), (HY p). tauto. Qed.
  Lemma im_multiregion rs : image_area (multiregion_area rs) (multiregion_area (aff_mr m rs)).
  Proof using D.
    split; [|split]; [exact (im_some (aff_ctr m) inside inside rs im_inside)|exact (im_some (aff_ctr m) on_contour on_contour rs im_contour)|exact (im_every (aff_ctr m) outside outside rs im_outside)].
  Qed.
  Lemma im_polygon pg : image_area (polygon_area pg) (polygon_area (aff_pg m pg)).
  Proof using D.
    split; [|split].
    - apply (im_and _ _ _ _ (im_inside (border pg)) (im_every (aff_ctr m) outside outside (holes pg) im_outside)).
    - apply (im_or _ _ _ _ (im_contour (border pg)) (im_some (aff_ctr m) on_contour on_contour (holes pg) im_contour)).
    - apply (im_or _ _ _ _ (im_outside (border pg)) (im_some (aff_ctr m) inside inside (holes pg) im_inside)).
  Qed.
  Lemma im_multipolygon mp : image_area (multipolygon_area mp) (multipolygon_area (aff_mp m mp)).
  Proof using D.
    split; [|split].
    - apply (im_some (aff_pg m) (fun pg => a_in (polygon_area pg)) (fun pg => a_in (polygon_area pg)) (polygons mp)). intros pg. apply im_polygon.
    - apply (im_some (aff_pg m) (fun pg => a_on (polygon_area pg)) (fun pg => a_on (polygon_area pg)) (polygons mp)). intros pg. apply im_polygon.
    - apply (im_every (aff_pg m) (fun pg => a_out (polygon_area pg)) (fun pg => a_out (polygon_area pg)) (polygons mp)). intros pg. apply im_polygon.
  Qed.
  Lemma im_in_segment s : image (in_segment s) (in_segment (aff_seg m s)).
  Proof using D. exact (im_segment (s_start s) (s_end s)). Qed.
  Lemma im_multisegment ms : image (in_multisegment ms) (in_multisegment (aff_ms m ms)).
  Proof using D. exact (im_some (aff_seg m) in_segment in_segment (segments ms) im_in_segment). Qed.

  (** * Validity *)
  Lemma aff_edge c e : In e (cyc_pairs (vertices (aff_ctr m c))) <-> exists a b, In (a, b) (cyc_pairs (vertices c)) /\ e = (aff_pt m a, aff_pt m b).
  Proof using Type.
    unfold aff_ctr. cbn [vertices]. rewrite cyc_pairs_map, in_map_iff. split.
    - intros ([a b] & <- & I). exists a, b. auto.
    - intros (a & b & I & ->). exists (a, b). auto.
  Qed.
  Lemma aff_simple c : simple_contour c -> simple_contour (aff_ctr m c).
  Proof using D.
    intros (L & N & S). unfold simple_contour, aff_ctr. cbn [vertices]. rewrite map_length. split; [exact L|]. split.
    - apply FinFun.Injective_map_NoDup; [|exact N]. intros x y. apply aff_inj, D.
    - rewrite cyc_pairs_map. intros i j a b c' d p. rewrite !nth_error_map.
      destruct (nth_error (cyc_pairs (vertices c)) i) as [[a0 b0]|] eqn:E1; [|discriminate]. destruct (nth_error (cyc_pairs (vertices c)) j) as [[c0 d0]|] eqn:E2; [|discriminate].
      cbn [option_map fst snd]. intros [= <- <-] [= <- <-] Nij S1 S2. destruct (aff_onto m p D) as (q & <-). apply (im_segment a0 b0) in S1. apply (im_segment c0 d0) in S2.
      destruct (S i j a0 b0 c0 d0 q E1 E2 Nij S1 S2) as [[-> ->]|[-> ->]]; [left|right]; auto.
  Qed.
  Lemma aff_regions_apart r r' : regions_apart r r' -> regions_apart (aff_ctr m r) (aff_ctr m r').
  Proof using D.
    intros [H1 H2]. split.
    - intros p P1 P2. destruct (aff_onto m p D) as (q & <-). apply (H1 q); apply im_inside; assumption.
    - intros Z. apply H2. exact (proj1 (im_share _ _ _ _ (im_contour r) (im_contour r')) Z).
  Qed.
  Lemma aff_multiregion rs : valid_multiregion rs -> valid_multiregion (aff_mr m rs).
  Proof using D. intros [F O]. split; [exact (Forall_map_of _ _ _ rs aff_simple F)|exact (FOP_map _ _ _ rs aff_regions_apart O)]. Qed.
  Lemma aff_polygon pg : valid_polygon pg -> valid_polygon (aff_pg m pg).
  Proof using D.
    intros (B & H & I1 & I2). split; [exact (aff_simple _ B)|]. split; [exact (aff_multiregion _ H)|]. split; cbn [aff_pg border holes].
    - intros h p I K Z. apply in_map_iff in I. destruct I as (h0 & <- & I). destruct (aff_onto m p D) as (q & <-). apply (I1 h0 q I); [apply im_contour, K|apply im_outside, Z].
    - intros h I Z. apply in_map_iff in I. destruct I as (h0 & <- & I). apply (I2 h0 I). exact (proj1 (im_share _ _ _ _ (im_contour h0) (im_contour (border pg))) Z).
  Qed.
  Lemma aff_polygons_apart a b : polygons_apart a b -> polygons_apart (aff_pg m a) (aff_pg m b).
  Proof using D.
    intros [H1 H2]. destruct (im_polygon a) as (IA & OA & _), (im_polygon b) as (IB & OB & _). split.
    - intros p P1 P2. destruct (aff_onto m p D) as (q & <-). apply (H1 q); [apply IA, P1|apply IB, P2].
    - intros Z. apply H2. exact (proj1 (im_share _ _ _ _ OA OB) Z).
  Qed.
  Lemma aff_multipolygon mp : valid_multipolygon mp -> valid_multipolygon (aff_mp m mp).
  Proof using D. intros [F O]. split; [exact (Forall_map_of _ _ _ _ aff_polygon F)|exact (FOP_map _ _ _ _ aff_polygons_apart O)]. Qed.
  Lemma aff_nondegenerate s : nondegenerate s -> nondegenerate (aff_seg m s).
  Proof using D. intros N E. apply N. exact (aff_inj m _ _ D E). Qed.
  Lemma aff_multisegment ms : valid_multisegment ms -> valid_multisegment (aff_ms m ms).
  Proof using D.
    intros (L & F & O). split; [cbn [aff_ms segments]; rewrite map_length; exact L|]. split; [exact (Forall_map_of _ _ _ _ aff_nondegenerate F)|].
    refine (FOP_map _ _ _ _ _ O). intros s t H p q P1 P2 Q1 Q2. destruct (aff_onto m p D) as (p' & <-). destruct (aff_onto m q D) as (q' & <-).
    f_equal. exact (H p' q' (proj1 (im_in_segment s p') P1) (proj1 (im_in_segment t p') P2) (proj1 (im_in_segment s q') Q1) (proj1 (im_in_segment t q') Q2)).
  Qed.
  Definition aff_edges (l : list (point * point)) := map (fun e => (aff_pt m (fst e), aff_pt m (snd e))) l.
  Lemma flat_map_map {A B C} (g : A -> B) (h : B -> list C) l : flat_map h (map g l) = flat_map (fun a => h (g a)) l.
  Proof using Type. induction l as [|a l IH]; cbn; [reflexivity|]. rewrite IH. reflexivity. Qed.
  Lemma map_flat_map {A B C} (g : B -> C) (h : A -> list B) l : map g (flat_map h l) = flat_map (fun a => map g (h a)) l.
  Proof using Type. induction l as [|a l IH]; cbn; [reflexivity|]. rewrite map_app, IH. reflexivity. Qed.
  Lemma aff_cyc c : cyc_pairs (vertices (aff_ctr m c)) = aff_edges (cyc_pairs (vertices c)).
  Proof using Type. unfold aff_ctr. cbn [vertices]. rewrite cyc_pairs_map. reflexivity. Qed.
  Lemma aff_contours_edges cs : contours_edges (map (aff_ctr m) cs) = aff_edges (contours_edges cs).
  Proof using Type. unfold contours_edges, aff_edges. rewrite flat_map_map, map_flat_map. apply flat_map_ext. intros c. apply aff_cyc. Qed.
  Lemma aff_polygon_edges pg : polygon_edges (aff_pg m pg) = aff_edges (polygon_edges pg).
  Proof using Type. exact (aff_contours_edges (border pg :: holes pg)). Qed.
  Lemma aff_multipolygon_edges mp : multipolygon_edges (aff_mp m mp) = aff_edges (multipolygon_edges mp).
  Proof using Type. unfold multipolygon_edges, aff_edges, aff_mp. cbn [polygons]. rewrite flat_map_map, map_flat_map. apply flat_map_ext. intros pg. apply aff_polygon_edges. Qed.
  Lemma aff_meet_at_ends X X' l : image X X' -> meet_at_ends X l -> meet_at_ends X' (aff_edges l).
  Proof using D.
    intros HX M e e' p I I' N Hp K K'. apply in_map_iff in I, I'. destruct I as (g & <- & I), I' as (g' & <- & I'). cbn [fst snd] in *. destruct (aff_onto m p D) as (q & <-).
    apply (im_segment (fst g) (snd g)) in K. apply (im_segment (fst g') (snd g')) in K'. apply HX in Hp.
    destruct (M g g' q I I' (fun E => N ltac:(rewrite E; reflexivity)) Hp K K') as [->| ->]; auto.
  Qed.
  Lemma aff_ctr_inj c c' : aff_ctr m c = aff_ctr m c' -> c = c'.
  Proof using D.
    destruct c as [l], c' as [l']. unfold aff_ctr. cbn [vertices]. intros E. injection E as E. f_equal. revert l' E.
    induction l as [|x l IH]; intros [|y l'] E; try discriminate; [reflexivity|]. cbn [map] in E.
    assert (Ex : aff_pt m x = aff_pt m y) by exact (f_equal (fun k => hd (aff_pt m x) k) E). assert (El : map (aff_pt m) l = map (aff_pt m) l') by exact (f_equal (@tl point) E).
    rewrite (IH l' El), (aff_inj m x y D Ex). reflexivity.
  Qed.
  Lemma aff_clear_rings X X' pg : image X X' -> clear_rings X pg -> clear_rings X' (aff_pg m pg).
  Proof using D.
    intros HX C c c' p I I' N Hp K K'. assert (Pre : forall c, In c (border (aff_pg m pg) :: holes (aff_pg m pg)) -> exists d, In d (border pg :: holes pg) /\ c = aff_ctr m d).
    { intros d [<-|J]; [exists (border pg); cbn; auto|]. apply in_map_iff in J. destruct J as (h & <- & J). exists h. cbn; auto. }
    destruct (Pre c I) as (d & J & ->), (Pre c' I') as (d' & J' & ->). destruct (aff_onto m p D) as (q & <-).
    apply (C d d' q J J'); [congruence|apply HX, Hp|apply im_contour, K|apply im_contour, K'].
  Qed.
  Lemma aff_clear_border X X' pg : image X X' -> clear_border X pg -> clear_border X' (aff_pg m pg).
  Proof using D.
    intros HX C h p I Hp K K'. apply in_map_iff in I. destruct I as (h0 & <- & I). destruct (aff_onto m p D) as (q & <-).
    apply (C h0 q I); [apply HX, Hp|apply im_contour, K|apply im_contour, K'].
  Qed.
  Lemma aff_no_touching pt pg : no_touching_holes pt pg -> no_touching_holes (aff_pg m pt) (aff_pg m pg).
  Proof using D.
    intros N h I T. apply in_map_iff in I. destruct I as (h0 & <- & I). apply (N h0 I). exact (proj2 (im_areal _ _ _ _ (im_region h0) (im_region (border pt)) TOUCH) T).
  Qed.
  Lemma aff_runs_around X X' A A' : image X X' -> image_area A A' -> (runs_around X' A' <-> runs_around X A).
  Proof using D.
    intros HX (IA & OA & UA). pose proof (im_subset _ _ _ _ OA HX) as S. pose proof (im_meets _ _ _ _ HX IA) as M1. pose proof (im_meets _ _ _ _ HX UA) as M2. unfold runs_around. tauto.
  Qed.
  Lemma aff_answer A A' B B' r r' : image_area A A' -> image_area B B' -> answer_is (areal_spec A B) r -> answer_is (areal_spec A' B') r' -> r' = r.
  Proof using D. intros HA HB H H'. symmetry. exact (answers_agree _ _ _ _ H H' (im_areal _ _ _ _ HA HB)). Qed.
  Lemma aff_linear_answer X X' A A' r r' : image X X' -> image_area A A' -> answer_is (linear_areal_spec X A) r -> answer_is (linear_areal_spec X' A') r' -> r' = r.
  Proof using D. intros HX HA H H'. symmetry. exact (answers_agree _ _ _ _ H H' (im_linear _ _ _ _ HX HA)). Qed.
End Map.
