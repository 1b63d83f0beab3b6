(* Affine images of polygons, wherever their rings touch. *)
From Coq Require Import QArith Qcanon List Bool ZArith Lia.
From Verif Require Import Scalar Base Ground MLinear MSweep MCompound Planar Spec SpecAreas SpecMore Mapped Agree PolyMulti PolyPoly WrittenPoly Moved.
Import ListNotations.
Open Scope Qc_scope.

Section Map.
  Variable m : affine.
  Hypothesis D : det m <> 0.
  Let f := aff_ctr m.
  Lemma rel_of_image b r : simple_contour b -> simple_contour r -> rel_of (f b) (f r) = rel_of b r.
  Proof using D.
    intros B R. pose proof (aff_simple m D b B) as B'. pose proof (aff_simple m D r R) as R'.
    destruct (box_of b B) as (bb & Eb), (box_of r R) as (rb & Er), (box_of _ B') as (bb' & Eb'), (box_of _ R') as (rb' & Er').
    pose proof (proj1 (region_affine_l m r b D R B)) as E. unfold region_in_region, region_relate_region in E. rewrite Eb, Er, Eb', Er' in E. cbn [bind] in E.
    rewrite (rel_of_run _ _ _ _ B R Eb Er), (rel_of_run _ _ _ _ B' R' Eb' Er') in E. injection E as E. exact E.
  Qed.
  Definition isum (r : relation + (bool * list contour)) : relation + (bool * list contour) := match r with inl x => inl x | inr (n, l) => inr (n, map f l) end.
  Section Loops.
    Variables (b : contour) (bb bb' : box).
    Hypothesis (B : simple_contour b) (Eb : contour_box b = Ok bb) (Eb' : contour_box (f b) = Ok bb').
    Lemma mr_loop_image rs : Forall simple_contour rs -> forall nt sub, polygon_multiregion_loop (f b) bb' (map f rs) nt (map f sub) = map_res isum (polygon_multiregion_loop b bb rs nt sub).
    Proof using D B Eb Eb'.
      intros F. induction F as [|r rs R F IH]; intros nt sub; [reflexivity|]. cbn [map polygon_multiregion_loop]. pose proof (aff_simple m D b B) as B'. pose proof (aff_simple m D r R) as R'.
      destruct (box_of r R) as (rb & Er), (box_of _ R') as (rb' & Er'). fold f in Er', R', B'. rewrite Er, Er'. cbn [bind]. rewrite (rel_of_run _ _ _ _ B R Eb Er), (rel_of_run _ _ _ _ B' R' Eb' Er'), (rel_of_image b r B R). cbn [bind].
      destruct (relation_eqb _ TOUCH); [apply IH|]. destruct (rel_in _ _); [reflexivity|]. destruct (_ || _); [reflexivity|]. destruct (negb _); [|apply IH]. rewrite <- IH, map_app. reflexivity.
    Qed.
    Lemma h_loop_image rs : Forall simple_contour rs -> forall nt sub, polygon_holes_loop (f b) bb' (map f rs) nt (map f sub) = map_res isum (polygon_holes_loop b bb rs nt sub).
    Proof using D B Eb Eb'.
      intros F. induction F as [|r rs R F IH]; intros nt sub; [reflexivity|]. cbn [map polygon_holes_loop]. pose proof (aff_simple m D b B) as B'. pose proof (aff_simple m D r R) as R'.
      destruct (box_of r R) as (rb & Er), (box_of _ R') as (rb' & Er'). fold f in Er', R', B'. rewrite Er, Er'. cbn [bind]. rewrite (rel_of_run _ _ _ _ B R Eb Er), (rel_of_run _ _ _ _ B' R' Eb' Er'), (rel_of_image b r B R). cbn [bind].
      destruct (relation_eqb _ TOUCH); [apply IH|]. destruct (relation_eqb _ OVERLAP); [reflexivity|]. destruct (relation_eqb _ COVER); [reflexivity|]. destruct (rel_in _ _); [reflexivity|]. destruct (negb _); [|apply IH]. rewrite <- IH, map_app. reflexivity.
    Qed.
  End Loops.
  Lemma regions_image qs rs : valid_multiregion qs -> qs <> [] -> valid_multiregion rs -> rs <> [] -> multiregion_relate_multiregion (map f rs) (map f qs) = multiregion_relate_multiregion rs qs.
  Proof using D. intros V N W M. exact (proj1 (multiregion_affine_l m qs rs D V N W M)). Qed.
  Lemma nonempty_ne {A} (l : list A) : nonempty l = true -> l <> [].
  Proof using Type. destruct l; [discriminate|congruence]. Qed.
  Lemma nonempty_image {A C} (h : A -> C) l : nonempty (map h l) = nonempty l. Proof using Type. destruct l; reflexivity. Qed.
  Lemma multiregion_in_polygon_affine_l rs pg : valid_multiregion rs -> valid_polygon pg -> multiregion_in_polygon (aff_mr m rs) (aff_pg m pg) = multiregion_in_polygon rs pg.
  Proof using D.
    intros V VP. unfold multiregion_in_polygon, polygon_relate_multiregion, aff_mr. change (border (aff_pg m pg)) with (f (border pg)). change (holes (aff_pg m pg)) with (map f (holes pg)).
    pose proof (proj1 VP) as B. pose proof (aff_simple m D _ B) as B'. fold f in B'. destruct (box_of _ B) as (bb & Eb), (box_of _ B') as (bb' & Eb'). rewrite Eb, Eb'. cbn [bind]. rewrite nonempty_image. destruct (nonempty (holes pg)) eqn:NE; cbn [negb].
    - change (@nil region) with (map f []) at 1. fold f. rewrite (mr_loop_image _ bb bb' B Eb Eb' rs (proj1 V)).
      destruct (multiregion_loop _ bb rs B Eb (proj1 V) true []) as [(r & rel & I & LE & _)|[LE _]]; unfold multiregion, region in *; rewrite !LE; cbn [map_res bind isum]; [reflexivity|]. cbn [app].
      destruct (filter _ rs) as [|s sub] eqn:Fl; [reflexivity|]. cbn [map]. cbv zeta. cbn [length]. rewrite !map_length.
      assert (E : multiregion_relate_multiregion (map f (holes pg)) (if Nat.eqb (S (length sub)) (length rs) then map f rs else f s :: map f sub) = multiregion_relate_multiregion (holes pg) (if Nat.eqb (S (length sub)) (length rs) then rs else s :: sub)).
      { destruct (Nat.eqb _ _); [|change (f s :: map f sub) with (map f (s :: sub))]; (apply regions_image; [| |apply (proj1 (proj2 VP))|apply nonempty_ne, NE]).
        - exact V.
        - intros Z. rewrite Z in Fl. discriminate Fl.
        - rewrite <- Fl. exact (valid_mr_filter _ rs V).
        - discriminate. }
      unfold multiregion, region in *. rewrite E. reflexivity.
    - assert (E : multiregion_relate_region_ (map f rs) (f (border pg)) bb' = multiregion_relate_region_ rs (border pg) bb); [|fold f; rewrite E; reflexivity].
      destruct rs as [|r rs]; [reflexivity|]. assert (N : r :: rs <> []) by discriminate. pose proof (proj2 (multiregion_affine_l m (r :: rs) (r :: rs) D V N V N) (border pg) B) as E. unfold region_in_multiregion, multiregion_relate_region in E. fold f in E. rewrite Eb, Eb' in E. exact E.
  Qed.
  Lemma holes_result_image br st wk b bb bb' oh ih : simple_contour b -> contour_box b = Ok bb -> contour_box (f b) = Ok bb' -> valid_multiregion oh -> valid_multiregion ih ->
    polygon_holes_result br st wk (f b) bb' (map f oh) (map f ih) = polygon_holes_result br st wk b bb oh ih.
  Proof using D.
    intros B Eb Eb' V W. unfold polygon_holes_result. change (@nil contour) with (map f []) at 1. rewrite (h_loop_image _ bb bb' B Eb Eb' oh (proj1 V)).
    destruct (holes_loop _ bb oh B Eb (proj1 V) true []) as [(r & rel & I & LE & _)|[LE _]]; unfold multiregion, region in *; rewrite !LE; cbn [map_res bind isum]; [reflexivity|]. cbn [app].
    destruct (filter _ oh) as [|s sub] eqn:Fl; [reflexivity|]. cbn [map]. cbn [length]. rewrite !map_length, nonempty_image. destruct (nonempty ih) eqn:NE; [|reflexivity].
    assert (E : multiregion_relate_multiregion (map f ih) (if Nat.eqb (S (length sub)) (length oh) then map f oh else f s :: map f sub) = multiregion_relate_multiregion ih (if Nat.eqb (S (length sub)) (length oh) then oh else s :: sub)).
    { destruct (Nat.eqb _ _); [|change (f s :: map f sub) with (map f (s :: sub))]; (apply regions_image; [| |exact W|apply nonempty_ne, NE]).
      - exact V.
      - intros Z. rewrite Z in Fl. discriminate Fl.
      - rewrite <- Fl. exact (valid_mr_filter _ oh V).
      - discriminate. }
    unfold multiregion, region in *. rewrite E. reflexivity.
  Qed.
  Lemma polygon_in_polygon_affine_always_l a p : valid_polygon a -> valid_polygon p -> polygon_in_polygon (aff_pg m a) (aff_pg m p) = polygon_in_polygon a p.
  Proof using D.
    intros VA VP. unfold polygon_in_polygon, polygon_relate_polygon, polygon_box. change (border (aff_pg m a)) with (f (border a)). change (holes (aff_pg m a)) with (map f (holes a)). change (border (aff_pg m p)) with (f (border p)). change (holes (aff_pg m p)) with (map f (holes p)).
    pose proof (proj1 VA) as A. pose proof (aff_simple m D _ A) as A'. fold f in A'. destruct (box_of _ A) as (ab & Ea), (box_of _ A') as (ab' & Ea'). pose proof (proj1 VP) as P. pose proof (aff_simple m D _ P) as P'. fold f in P'. destruct (box_of _ P) as (pb & Ep), (box_of _ P') as (pb' & Ep').
    rewrite Ea, Ea', Ep, Ep'. cbn [bind]. rewrite (rel_of_run _ _ _ _ P A Ep Ea), (rel_of_run _ _ _ _ P' A' Ep' Ea'), (rel_of_image _ _ P A). cbn [bind]. rewrite !nonempty_image.
    pose proof (proj1 (proj2 VA)) as HA. pose proof (proj1 (proj2 VP)) as HP.
    rewrite (holes_result_image (rel_of (border p) (border a)) WITHIN ENCLOSED _ ab ab' _ _ A Ea Ea' HP HA), (holes_result_image (rel_of (border p) (border a)) COVER ENCLOSES _ pb pb' _ _ P Ep Ep' HA HP).
    destruct (nonempty (holes p)) eqn:NP, (nonempty (holes a)) eqn:NA; try reflexivity. cbn [andb]. rewrite (regions_image (holes p) (holes a) HP (nonempty_ne _ NP) HA (nonempty_ne _ NA)). reflexivity.
  Qed.
End Map.
