(* Collections with one part, exchanged arguments, the order of the parts, and
   chains of areas. *)
From Coq Require Import QArith Qcanon List Bool ZArith Lia Permutation.
From Verif Require Import Scalar Base Ground MLinear MSweep MCompound Planar Spec SpecAreas SpecMore Geom RayParity SegProofs BoxProofs PointProofs EqualProofs
  NoFail OpenProofs Orient Area AreaAnswer Drawn Gather Cover Sector AreaQueries ClosedProofs Polygons Inner PolyQueries Areas PolyArea Corner Pieces PolyLine PolyMulti PolyPoly Rings Located Mapped.
Import ListNotations.
Open Scope Qc_scope.

(** * One part *)
Lemma one_multiregion r : simple_contour r -> valid_multiregion [r].
Proof. intros R. split; [apply Forall_cons; [exact R|apply Forall_nil]|]. apply FOP_cons; [apply Forall_nil|apply FOP_nil]. Qed.
Lemma one_polygon r : simple_contour r -> valid_polygon (Poly r []).
Proof. intros R. split; [exact R|]. split; [split; [apply Forall_nil|apply FOP_nil]|]. split; [intros h p []|intros h []]. Qed.
Lemma one_multipolygon pg : valid_polygon pg -> valid_multipolygon (MPoly [pg]).
Proof. intros V. split; [apply Forall_cons; [exact V|apply Forall_nil]|]. apply FOP_cons; [apply Forall_nil|apply FOP_nil]. Qed.
Lemma area_refl A : area_eq A A.
Proof. intros p. tauto. Qed.
Lemma one_region_area r : area_eq (multiregion_area [r]) (region_area r).
Proof.
  intros p. cbn [multiregion_area region_area a_in a_on a_out]. split; [|split].
  - split; [intros (x & [<-|[]] & H); exact H|intros H; exists r; cbn; auto].
  - split; [intros (x & [<-|[]] & H); exact H|intros H; exists r; cbn; auto].
  - split; [intros H; exact (H r (or_introl eq_refl))|intros H x [<-|[]]; exact H].
Qed.
Lemma one_polygon_area pg : area_eq (multipolygon_area (MPoly [pg])) (polygon_area pg).
Proof.
  intros p. unfold multipolygon_area. cbn [a_in a_on a_out polygons]. split; [|split].
  - split; [intros (g & [<-|[]] & H); exact H|intros H; exists pg; cbn; auto].
  - split; [intros (g & [<-|[]] & H); exact H|intros H; exists pg; cbn; auto].
  - split; [intros H; exact (H pg (or_introl eq_refl))|intros H g [<-|[]]; exact H].
Qed.
Lemma bare_polygon_area r : area_eq (polygon_area (Poly r [])) (region_area r).
Proof. exact (area_sym _ _ (bare_area (Poly r []) eq_refl)). Qed.
Lemma simple_meet_at_ends X c : simple_contour c -> meet_at_ends X (contours_edges [c]).
Proof.
  intros (_ & _ & S) e e' p I I' N _ K K'. unfold contours_edges in I, I'. cbn [flat_map] in I, I'. rewrite app_nil_r in I, I'.
  destruct (In_nth_error _ _ I) as (i & Ei). destruct (In_nth_error _ _ I') as (j & Ej). destruct e as [a b], e' as [a' b']. cbn [fst snd] in *.
  destruct (S i j a b a' b' p Ei Ej) as [[_ H]|[_ H]]; auto. intros E. apply N. rewrite E in Ei. congruence.
Qed.
Lemma region_in_one_l r q : simple_contour r -> simple_contour q -> region_in_multiregion r [q] = region_in_region r q.
Proof.
  intros R Q. exact (areal_agree _ _ _ _ _ _ (region_in_multiregion_exact_l r [q] R (one_multiregion q Q) ltac:(discriminate)) (region_in_region_exact_l r q R Q) (area_refl _) (one_region_area q)).
Qed.
Lemma one_in_multiregion_l r qs : simple_contour r -> valid_multiregion qs -> qs <> [] -> multiregion_in_multiregion [r] qs = region_in_multiregion r qs.
Proof.
  intros R V N. exact (areal_agree _ _ _ _ _ _ (multiregion_in_multiregion_exact_l [r] qs (one_multiregion r R) V ltac:(discriminate) N) (region_in_multiregion_exact_l r qs R V N) (one_region_area r) (area_refl _)).
Qed.
Lemma contour_in_one_l c q : simple_contour c -> simple_contour q -> contour_in_multiregion c [q] = contour_in_region c q.
Proof.
  intros C Q. exact (linear_agree _ _ _ _ _ _ (contour_in_multiregion_exact_l c [q] C (one_multiregion q Q) ltac:(discriminate) (simple_meet_at_ends _ q Q)) (contour_in_region_exact_l c q C Q)
    (fun p => iff_refl _) (one_region_area q)).
Qed.
Lemma one_in_multipolygon_l r mp : simple_contour r -> valid_multipolygon mp -> polygons mp <> [] ->
  multiregion_in_multipolygon [r] mp = region_in_multipolygon r mp /\ polygon_in_multipolygon (Poly r []) mp = region_in_multipolygon r mp.
Proof.
  intros R V N. pose proof (region_in_multipolygon_exact_l r mp R V N) as H. split.
  - exact (areal_agree _ _ _ _ _ _ (multiregion_in_multipolygon_exact_l [r] mp (one_multiregion r R) ltac:(discriminate) V N (or_introl (simple_meet_at_ends _ r R))) H (one_region_area r) (area_refl _)).
  - exact (areal_agree _ _ _ _ _ _ (polygon_in_multipolygon_exact_l (Poly r []) mp (one_polygon r R) V N (or_introl (simple_meet_at_ends _ r R))) H (bare_polygon_area r) (area_refl _)).
Qed.
Lemma polygon_one_in_multipolygon_l pg mp : valid_polygon pg -> valid_multipolygon mp -> polygons mp <> [] ->
  meet_at_ends (a_on (multipolygon_area mp)) (polygon_edges pg) \/ meet_at_ends (polygon_boundary pg) (multipolygon_edges mp) ->
  multipolygon_in_multipolygon (MPoly [pg]) mp = polygon_in_multipolygon pg mp.
Proof.
  intros G V N M. refine (areal_agree _ _ _ _ _ _ (multipolygon_in_multipolygon_exact_l (MPoly [pg]) mp (one_multipolygon pg G) ltac:(discriminate) V N _) (polygon_in_multipolygon_exact_l pg mp G V N M) (one_polygon_area pg) (area_refl _)).
  destruct M as [M|M]; [left|right].
  - unfold multipolygon_edges. cbn [polygons flat_map]. rewrite app_nil_r. exact M.
  - refine (meet_sub _ _ _ _ M). intros p Hp. apply (one_polygon_area pg p). exact Hp.
Qed.
Lemma merge_of A B rel : shaped A -> shaped B -> areal_spec A B rel -> forall r, answer_is (merged_spec A B) r -> r = Ok (merge_component rel).
Proof.
  intros SA SB S r (x & -> & _ & U). f_equal. symmetry. apply U. destruct rel; cbn [merge_component merged_spec]; auto.
Qed.
Lemma region_in_one_polygon_l r pg : simple_contour r -> valid_polygon pg ->
  exists rel, region_in_multipolygon r (MPoly [pg]) = Ok rel /\ region_in_polygon r pg = Ok (merge_component rel).
Proof.
  intros R V. destruct (region_in_multipolygon_exact_l r (MPoly [pg]) R (one_multipolygon pg V) ltac:(discriminate)) as (rel & E & S & _). exists rel. split; [exact E|].
  apply (merge_of _ _ _ (shaped_region r R) (shaped_polygon pg V) (proj1 (areal_spec_ext _ _ _ _ (area_refl _) (one_polygon_area pg) rel) S)). exact (region_in_polygon_merged_l r pg R V).
Qed.
Lemma one_region_in_polygon_l r pg : simple_contour r -> valid_polygon pg -> clear_border (on_contour r) pg -> multiregion_in_polygon [r] pg = region_in_polygon r pg.
Proof.
  intros R V Cl. assert (Cl' : clear_border (on_contours [r]) pg) by (intros h p I (x & [<-|[]] & Hp); exact (Cl h p I Hp)).
  refine (answers_agree _ _ _ _ (multiregion_in_polygon_merged_l [r] pg (one_multiregion r R) ltac:(discriminate) V Cl') (region_in_polygon_merged_l r pg R V) _).
  pose proof (areal_spec_ext _ _ _ _ (one_region_area r) (area_refl (polygon_area pg))) as E. intros rel. pose proof (E rel) as E0. pose proof (E COMPONENT) as E1. destruct rel; cbn [merged_spec]; tauto.
Qed.

(** * Exchanged arguments *)
Lemma areal_swap_answers A B r r' : answer_is (areal_spec A B) r -> answer_is (areal_spec B A) r' -> exists rel, r = Ok rel /\ r' = Ok (complement rel).
Proof. intros (x & -> & S & _) (x' & -> & _ & U). exists x. split; [reflexivity|]. f_equal. symmetry. apply U, areal_turn, S. Qed.
Lemma multipolygon_swap_l mp mq : valid_multipolygon mp -> polygons mp <> [] -> valid_multipolygon mq -> polygons mq <> [] ->
  meet_at_ends (a_on (multipolygon_area mq)) (multipolygon_edges mp) \/ meet_at_ends (a_on (multipolygon_area mp)) (multipolygon_edges mq) ->
  exists rel, multipolygon_in_multipolygon mp mq = Ok rel /\ multipolygon_in_multipolygon mq mp = Ok (complement rel).
Proof.
  intros V N W M H. apply (areal_swap_answers (multipolygon_area mp) (multipolygon_area mq)); [exact (multipolygon_in_multipolygon_exact_l mp mq V N W M H)|].
  apply (multipolygon_in_multipolygon_exact_l mq mp W M V N). tauto.
Qed.
Lemma region_no_component r c : simple_contour r -> simple_contour c -> ~ areal_spec (region_area r) (region_area c) COMPONENT.
Proof. intros R C [[S1 S2] S3]. exact (S2 (proj2 (same_ring r c R C S3))). Qed.
Lemma region_no_composite r c : simple_contour r -> simple_contour c -> ~ areal_spec (region_area r) (region_area c) COMPOSITE.
Proof. intros R C H. exact (region_no_component c r C R (areal_turn _ _ _ H)). Qed.
Lemma polygon_swap_l pt pg : valid_polygon pt -> valid_polygon pg ->
  exists rel, polygon_in_polygon pt pg = Ok rel /\ polygon_in_polygon pg pt = Ok (complement rel).
Proof.
  intros VT VG. pose proof (pg_border pt VT) as BT. pose proof (pg_border pg VG) as BG.
  destruct (box_of _ BT) as (tb & Et). destruct (box_of _ BG) as (gb & Eg). pose proof (rel_of_spec _ _ BG BT) as S. set (br := rel_of (border pg) (border pt)) in *.
  assert (E1 : region_relate_region_ (border pg) (border pt) gb tb = Ok br) by exact (rel_of_run _ _ gb tb BG BT Eg Et).
  assert (E2 : region_relate_region_ (border pt) (border pg) tb gb = Ok (complement br)).
  { rewrite (rel_of_run _ _ tb gb BT BG Et Eg). f_equal. pose proof (rel_of_spec _ _ BT BG) as S'. destruct (sh_of _ _ (shaped_region _ BG) (shaped_region _ BT) _ S') as (y & Ey & _ & U).
    injection Ey as <-. symmetry. apply U, areal_turn, S. }
  assert (NC : br <> COMPONENT) by (intros Z; rewrite Z in S; exact (region_no_component _ _ BT BG S)).
  assert (NC' : br <> COMPOSITE) by (intros Z; rewrite Z in S; exact (region_no_composite _ _ BT BG S)).
  assert (NX : br <> CROSS) by (intros Z; rewrite Z in S; exact S).
  assert (Done : forall x : res relation, (exists r, x = Ok r) -> forall y, y = (do z <- x; Ok (complement z)) -> exists rel, x = Ok rel /\ y = Ok (complement rel)).
  { intros x (r & ->) y ->. exists r. auto. }
  assert (Rt : exists r, polygon_in_polygon pt pg = Ok r).
  { pose proof (p_p_returns pg pt (polygon_contours pg VG) (polygon_contours pt VT)) as Q. exact Q. }
  apply (Done _ Rt). unfold polygon_in_polygon, polygon_relate_polygon, polygon_box. rewrite Et, Eg. cbn [bind]. rewrite E1, E2. cbn [bind].
  assert (Hl : forall x y (f : relation -> relation), (exists h, x = Ok h /\ y = Ok (complement h)) -> x <> Ok CROSS -> (forall h, h <> CROSS -> f (complement h) = complement (f h)) ->
    (do h <- y; Ok (f h)) = (do z <- (do h <- x; Ok (f h)); Ok (complement z))).
  { intros x y g (h & -> & ->) N F. cbn [bind]. rewrite F by congruence. reflexivity. }
  assert (Inv : forall x y : res relation, x = (do z <- y; Ok (complement z)) -> y = (do z <- x; Ok (complement z))).
  { intros x [y|e] ->; cbn [bind]; [rewrite complement_involutive|]; reflexivity. }
  clearbody br. destruct br; try congruence; cbn [complement rel_in existsb relation_eqb orb]; try reflexivity.
  - destruct (nonempty (holes pt)); [|destruct (nonempty (holes pg)); reflexivity]. apply Inv. exact (holes_result_swap WITHIN _ _ _ _ (or_introl eq_refl)).
  - destruct (nonempty (holes pt)); [|destruct (nonempty (holes pg)); reflexivity]. apply Inv. exact (holes_result_swap ENCLOSED _ _ _ _ (or_intror eq_refl)).
  - destruct (holes pt) as [|t1 ts] eqn:ET, (holes pg) as [|g1 gs] eqn:EG; try reflexivity. cbn [nonempty andb].
    apply (Hl (multiregion_relate_multiregion (t1 :: ts) (g1 :: gs)) (multiregion_relate_multiregion (g1 :: gs) (t1 :: ts))
      (fun h => if rel_in h [DISJOINT; TOUCH; OVERLAP] then OVERLAP else if rel_in h [COVER; ENCLOSES; COMPOSITE] then ENCLOSES else if relation_eqb h EQUAL then EQUAL else ENCLOSED)).
    + assert (Q : t1 :: ts <> []) by discriminate. assert (Q' : g1 :: gs <> []) by discriminate. rewrite <- ET, <- EG in *.
      exact (multiregion_swap_l (holes pg) (holes pt) (pg_holes pg VG) (pg_holes pt VT) Q' Q).
    + assert (Q : t1 :: ts <> []) by discriminate. assert (Q' : g1 :: gs <> []) by discriminate. rewrite <- ET, <- EG in *.
      destruct (multiregion_in_multiregion_exact_l (holes pg) (holes pt) (pg_holes pg VG) (pg_holes pt VT) Q' Q) as (h & E & Sh & _). unfold multiregion_in_multiregion in E.
      intros Z. assert (Zh : h = CROSS) by (pose proof (eq_trans (eq_sym E) Z) as K; injection K as K; exact K). rewrite Zh in Sh. exact Sh.
    + intros h Nh. destruct h; congruence || reflexivity.
  - destruct (nonempty (holes pg)); [|destruct (nonempty (holes pt)); reflexivity]. exact (holes_result_swap ENCLOSED _ _ _ _ (or_intror eq_refl)).
  - destruct (nonempty (holes pg)); [|destruct (nonempty (holes pt)); reflexivity]. exact (holes_result_swap WITHIN _ _ _ _ (or_introl eq_refl)).
Qed.

(** * The order of the parts *)
Lemma FOP_perm {A} (R : A -> A -> Prop) l l' : (forall x y, R x y -> R y x) -> Permutation l l' -> ForallOrdPairs R l -> ForallOrdPairs R l'.
Proof.
  intros Sy P. induction P as [|x l l' P IH|x y l|l1 l2 l3 P1 IH1 P2 IH2]; intros F.
  - exact F.
  - inversion F as [|a b F1 F2]; subst. constructor; [|exact (IH F2)]. exact (Permutation_Forall P F1).
  - inversion F as [|a b F1 F2]; subst. inversion F2 as [|a' b' F3 F4]; subst. inversion F1 as [|a' b' F5 F6]; subst.
    constructor; [constructor; [exact (Sy _ _ F5)|exact F3]|]. constructor; assumption.
  - exact (IH2 (IH1 F)).
Qed.
Lemma perm_multiregion rs rs' : Permutation rs rs' -> valid_multiregion rs -> valid_multiregion rs'.
Proof.
  intros P [F O]. split; [exact (Permutation_Forall P F)|]. refine (FOP_perm _ _ _ _ P O). intros x y [H1 H2]. split; [intros p K1 K2; exact (H1 p K2 K1)|].
  intros (a & b & N & S). apply H2. exists a, b. split; [exact N|]. intros p Hp. destruct (S p Hp). auto.
Qed.
Lemma perm_polygon b hs hs' : Permutation hs hs' -> valid_polygon (Poly b hs) -> valid_polygon (Poly b hs').
Proof.
  intros P (B & H & I1 & I2). split; [exact B|]. split; [exact (perm_multiregion hs hs' P H)|]. split; cbn [border holes] in *.
  - intros h p I. apply I1. exact (Permutation_in _ (Permutation_sym P) I).
  - intros h I. apply I2. exact (Permutation_in _ (Permutation_sym P) I).
Qed.
Lemma perm_multipolygon l l' : Permutation l l' -> valid_multipolygon (MPoly l) -> valid_multipolygon (MPoly l').
Proof.
  intros P [F O]. split; [exact (Permutation_Forall P F)|]. refine (FOP_perm _ _ _ _ P O). intros x y [H1 H2]. split; [intros p K1 K2; exact (H1 p K2 K1)|].
  intros (a & b & N & S). apply H2. exists a, b. split; [exact N|]. intros p Hp. destruct (S p Hp). auto.
Qed.
Lemma perm_ne {A} (l l' : list A) : Permutation l l' -> l <> [] -> l' <> [].
Proof. intros P N E. rewrite E in P. apply N. exact (Permutation_nil (Permutation_sym P)). Qed.
Lemma some_perm {A} (X : A -> point -> Prop) l l' p : Permutation l l' -> ((exists a, In a l /\ X a p) <-> exists a, In a l' /\ X a p).
Proof. intros P. split; intros (a & I & K); exists a; (split; [|exact K]); [exact (Permutation_in _ P I)|exact (Permutation_in _ (Permutation_sym P) I)]. Qed.
Lemma every_perm {A} (X : A -> point -> Prop) l l' p : Permutation l l' -> ((forall a, In a l -> X a p) <-> forall a, In a l' -> X a p).
Proof. intros P. split; intros K a I; apply K; [exact (Permutation_in _ (Permutation_sym P) I)|exact (Permutation_in _ P I)]. Qed.
Lemma perm_multiregion_area rs rs' : Permutation rs rs' -> area_eq (multiregion_area rs) (multiregion_area rs').
Proof. intros P p. split; [exact (some_perm inside _ _ p P)|]. split; [exact (some_perm on_contour _ _ p P)|exact (every_perm outside _ _ p P)]. Qed.
Lemma perm_polygon_area b hs hs' : Permutation hs hs' -> area_eq (polygon_area (Poly b hs)) (polygon_area (Poly b hs')).
Proof.
  intros P p. cbn [polygon_area a_in a_on a_out]. unfold polygon_interior, polygon_boundary. cbn [border holes].
  rewrite (every_perm outside _ _ p P), (some_perm on_contour _ _ p P), (some_perm inside _ _ p P). tauto.
Qed.
Lemma perm_multipolygon_area l l' : Permutation l l' -> area_eq (multipolygon_area (MPoly l)) (multipolygon_area (MPoly l')).
Proof.
  intros P p. split; [exact (some_perm polygon_interior _ _ p P)|]. split; [exact (some_perm polygon_boundary _ _ p P)|exact (every_perm (fun pg => a_out (polygon_area pg)) _ _ p P)].
Qed.
Lemma merged_ext A A' B B' : area_eq A A' -> area_eq B B' -> forall rel, merged_spec A B rel <-> merged_spec A' B' rel.
Proof. intros EA EB rel. pose proof (areal_spec_ext _ _ _ _ EA EB rel) as H. pose proof (areal_spec_ext _ _ _ _ EA EB COMPONENT) as H'. destruct rel; cbn [merged_spec]; tauto. Qed.
Lemma multiregion_order_l qs qs' rs rs' : valid_multiregion qs -> qs <> [] -> valid_multiregion rs -> rs <> [] -> Permutation qs qs' -> Permutation rs rs' ->
  multiregion_in_multiregion qs' rs' = multiregion_in_multiregion qs rs /\ (forall r, simple_contour r -> region_in_multiregion r rs' = region_in_multiregion r rs).
Proof.
  intros V N W M P Q. pose proof (perm_multiregion _ _ P V) as V'. pose proof (perm_ne _ _ P N) as N'. pose proof (perm_multiregion _ _ Q W) as W'. pose proof (perm_ne _ _ Q M) as M'. split.
  - exact (areal_agree _ _ _ _ _ _ (multiregion_in_multiregion_exact_l qs' rs' V' W' N' M') (multiregion_in_multiregion_exact_l qs rs V W N M)
      (area_sym _ _ (perm_multiregion_area _ _ P)) (area_sym _ _ (perm_multiregion_area _ _ Q))).
  - intros r R. exact (areal_agree _ _ _ _ _ _ (region_in_multiregion_exact_l r rs' R W' M') (region_in_multiregion_exact_l r rs R W M) (area_refl _) (area_sym _ _ (perm_multiregion_area _ _ Q))).
Qed.
Lemma polygon_order_l r b hs hs' : simple_contour r -> valid_polygon (Poly b hs) -> Permutation hs hs' -> region_in_polygon r (Poly b hs') = region_in_polygon r (Poly b hs).
Proof.
  intros R V P. exact (answers_agree _ _ _ _ (region_in_polygon_merged_l r _ R (perm_polygon b hs hs' P V)) (region_in_polygon_merged_l r _ R V) (merged_ext _ _ _ _ (area_refl _) (area_sym _ _ (perm_polygon_area b hs hs' P)))).
Qed.
Lemma multipolygon_order_l r l l' : simple_contour r -> valid_multipolygon (MPoly l) -> l <> [] -> Permutation l l' -> region_in_multipolygon r (MPoly l') = region_in_multipolygon r (MPoly l).
Proof.
  intros R V N P. exact (areal_agree _ _ _ _ _ _ (region_in_multipolygon_exact_l r (MPoly l') R (perm_multipolygon _ _ P V) (perm_ne _ _ P N)) (region_in_multipolygon_exact_l r (MPoly l) R V N)
    (area_refl _) (area_sym _ _ (perm_multipolygon_area _ _ P))).
Qed.

(** * Chains of areas *)
Section Chain.
  Variable (A B C : area).
  Hypothesis (SA : shaped A) (SB : shaped B) (SC : shaped C).
  Lemma part_sub A' B' rel : part_relation rel -> areal_spec A' B' rel -> subset (a_cl A') (a_cl B').
  Proof using Type.
    intros I S. unfold part_relation in I. cbn in I. destruct I as [<-|[<-|[<-|[<-|[]]]]]; cbn [areal_spec] in S; try apply S. intros p. apply S.
  Qed.
  Lemma sub_part A' B' : shaped A' -> shaped B' -> subset (a_cl A') (a_cl B') -> exists rel, part_relation rel /\ areal_spec A' B' rel.
  Proof using Type.
    intros SA' SB' S. destruct (sh_total A' B' SA' SB') as (rel & H). exists rel. split; [|exact H].
    pose proof (sh_sub_in A' B' SA' SB' S) as M. destruct (sh_inner A' SA') as (q & Hq). destruct rel; cbn [areal_spec] in H; unfold part_relation; cbn; auto 6; exfalso.
    - apply H. exists q. split; [left; exact Hq|apply S; left; exact Hq].
    - exact (proj1 H M).
    - exact (proj1 (proj2 H) S).
    - exact (proj2 (proj1 H) S).
    - exact (proj2 (proj1 H) S).
    - exact (proj2 (proj1 H) S).
  Qed.
  Lemma chain_part rel rel' : part_relation rel -> part_relation rel' -> areal_spec A B rel -> areal_spec B C rel' -> exists rel'', part_relation rel'' /\ areal_spec A C rel''.
  Proof using SA SC. intros I I' S S'. apply (sub_part A C SA SC). intros p Hp. exact (part_sub _ _ _ I' S' p (part_sub _ _ _ I S p Hp)). Qed.
  (* Away from the boundary: on the way into [B] or on the way out of it. *)
  Lemma chain_within rel rel' : part_relation rel -> part_relation rel' -> rel = WITHIN \/ rel' = WITHIN -> areal_spec A B rel -> areal_spec B C rel' -> areal_spec A C WITHIN.
  Proof using SA SB SC.
    intros I I' W S S'. pose proof (part_sub _ _ _ I S) as Q. pose proof (part_sub _ _ _ I' S') as Q'.
    assert (F : subset (a_cl A) (a_in C)).
    { intros p Hp. assert (K : a_in B p \/ a_on B p) by exact (Q p Hp). destruct K as [K|K]; [exact (sh_in B C SB SC p Q' K)|].
      destruct W as [-> | ->].
      - exfalso. destruct S as [_ N]. destruct Hp as [Hp|Hp]; [exact (sh_in_on B p SB (sh_in A B SA SB p Q Hp) K)|]. apply N. exists p. auto.
      - destruct S' as [_ N]. destruct (Q' p (or_intror K)) as [L|L]; [exact L|]. destruct N. exists p. auto. }
    split; [split|].
    - intros p Hp. left. exact (F p Hp).
    - intros Z. destruct (sh_some C SC) as (p & Hp). exact (sh_in_on C p SC (F p (Z p (or_intror Hp))) Hp).
    - intros (p & P1 & P2). exact (sh_in_on C p SC (F p (or_intror P1)) P2).
  Qed.
  Lemma chain_disjoint rel : part_relation rel -> areal_spec A B rel -> areal_spec B C DISJOINT -> areal_spec A C DISJOINT.
  Proof using Type. intros I S N (p & P1 & P2). apply N. exists p. split; [exact (part_sub _ _ _ I S p P1)|exact P2]. Qed.
  Lemma chain_apart rel rel' : part_relation rel -> apart_relation rel' -> areal_spec A B rel -> areal_spec B C rel' -> exists rel'', apart_relation rel'' /\ areal_spec A C rel''.
  Proof using SA SB SC.
    intros I I' S S'. assert (N : ~ meets (a_in B) (a_in C)).
    { intros (p & P1 & P2). destruct I' as [<-|[<-|[]]]; [|exact (proj1 S' (ex_intro _ p (conj P1 P2)))]. apply S'. exists p. split; left; assumption. }
    assert (N' : ~ meets (a_in A) (a_in C)).
    { intros (p & P1 & P2). apply N. exists p. split; [exact (sh_in A B SA SB p (part_sub _ _ _ I S) P1)|exact P2]. }
    destruct (sh_decide A C SA SC) as (_ & _ & [M|M] & _).
    - exists TOUCH. split; [right; left; reflexivity|]. split; assumption.
    - exists DISJOINT. split; [left; reflexivity|]. intros Z. destruct (sh_cl_meets A C SA SC Z) as [K|K]; contradiction.
  Qed.
  Lemma chain_touch : areal_spec A B WITHIN -> areal_spec B C TOUCH -> areal_spec A C DISJOINT.
  Proof using SA SB SC.
    intros S [N _] (p & P1 & P2). assert (K : a_in B p).
    { destruct (proj1 (proj1 S) p P1) as [K|K]; [exact K|exfalso]. destruct P1 as [P1|P1]; [|apply (proj2 S); exists p; auto].
      exact (sh_in_on B p SB (sh_in A B SA SB p (proj1 (proj1 S)) P1) K). }
    apply N. destruct P2 as [P2|P2]; [exists p; auto|]. destruct (sh_beside C B SC SB p true true P2 K) as (q & Q1 & Q2). exists q. auto.
  Qed.
  Lemma chain_equal rel : areal_spec A B EQUAL -> areal_spec B C rel -> areal_spec A C rel.
  Proof using SA SB.
    intros E S. assert (EA : area_eq A B).
    { pose proof (sh_equal_on A B SA SB E) as E1. assert (E' : areal_spec B A EQUAL) by (intros p; symmetry; apply E). pose proof (sh_equal_on B A SB SA E') as E2. intros p.
      pose proof (sh_in A B SA SB p (fun q => proj1 (E q))) as I1. pose proof (sh_in B A SB SA p (fun q => proj2 (E q))) as I2. pose proof (E1 p) as O1. pose proof (E2 p) as O2.
      pose proof (sh_cases A p SA). pose proof (sh_cases B p SB). pose proof (sh_in_out A p SA). pose proof (sh_on_out A p SA). pose proof (sh_in_out B p SB). pose proof (sh_on_out B p SB). tauto. }
    exact (proj2 (areal_spec_ext _ _ _ _ EA (area_refl C) rel) S).
  Qed.
End Chain.
Lemma sh_chains A B C ab bc ac : shaped A -> shaped B -> shaped C -> areal_spec A B ab -> areal_spec B C bc -> areal_spec A C ac -> chains ab bc ac.
Proof.
  intros SA SB SC HAB HBC HAC. assert (U : forall rel, areal_spec A C rel -> ac = rel).
  { intros rel H. destruct (sh_of A C SA SC rel H) as (x & E & _ & U). injection E as <-. exact (U ac HAC). }
  split; [|split; [|split; [|split; [|split; [|split]]]]].
  - intros I I'. destruct (chain_part A B C SA SC ab bc I I' HAB HBC) as (x & Ix & Hx). rewrite (U x Hx). exact Ix.
  - intros I I' W. exact (U _ (chain_within A B C SA SB SC ab bc I I' W HAB HBC)).
  - intros I ->. exact (U _ (chain_disjoint A B C ab I HAB HBC)).
  - intros I I'. destruct (chain_apart A B C SA SB SC ab bc I I' HAB HBC) as (x & Ix & Hx). rewrite (U x Hx). exact Ix.
  - intros -> ->. exact (U _ (chain_touch A B C SA SB SC HAB HBC)).
  - intros ->. exact (U _ (chain_equal A B C SA SB bc HAB HBC)).
  - intros ->. apply U. pose proof (chain_equal C B A SC SB (complement ab) (areal_turn _ _ _ HBC) (areal_turn _ _ _ HAB)) as H. apply areal_turn in H. rewrite complement_involutive in H. exact H.
Qed.
