(* Lines and polygons, exactly, whatever rings touch. *)
From Coq Require Import QArith Qcanon List Bool ZArith Lia Permutation.
From Verif Require Import Scalar Base Ground MLinear MSweep MCompound Planar Spec SpecAreas SpecAround SpecContact SpecRings SpecSeen SpecRingTold Geom RayParity SegProofs BoxProofs PointProofs EqualProofs
  NoFail OpenProofs Orient Area SegRegion AreaAnswer Drawn Gather Cover Sector AreaQueries ClosedProofs Polygons Inner PolyQueries Areas PolyArea Corner Pieces PolyLine PolyMulti PolyPoly ContactProofs PolyAlways SeenProofs SpecMore Agree SeenAgree Mapped Consequences Witness12.
Import ListNotations.
Open Scope Qc_scope.

Lemma contact_cuts l l' : contact_cut l l' -> cut_by l l'.
Proof. intros (e & e' & p & I & I' & C & _). exists e, e'. split; [exact I|]. split; [exact I'|]. exists p. exact C. Qed.

Section Lines.
  Variable (pg : polygon).
  Hypothesis (V : valid_polygon pg).
  Let P : area := polygon_area pg.
  Let H : area := multiregion_area (holes pg).
  Lemma rt_hole p : a_in H p -> inside (border pg) p.
  Proof using V. intros (h & I & K). exact (hole_in pg V h p I K). Qed.
  Lemma rt_out_on p : outside (border pg) p -> ~ polygon_boundary pg p.
  Proof using V.
    intros O [K|(h & I & K)]; [exact (outside_not_on _ p (pg_border pg V) O K)|].
    exact (pg_within pg V h I (ex_intro _ p (conj K O))).
  Qed.
  Lemma rt_in_on p : a_in H p -> ~ polygon_boundary pg p.
  Proof using V.
    intros (h & I & K) [Z|(g & J & Z)]; [exact (border_hole pg V h p I Z K)|exact (hole_hole pg V h g p I J K Z)].
  Qed.
  Lemma rt_inner p : polygon_interior pg p -> ~ polygon_boundary pg p.
  Proof using V.
    intros [A B] [K|(h & I & K)]; [exact (inside_not_on _ p (pg_border pg V) A K)|]. exact (outside_not_on _ p (pg_hole pg V h I) (B h I) K).
  Qed.
  Section Line.
    Variable (X : point -> Prop) (l : list (point * point)).
    Hypothesis (Ne : exists p, X p).
    (* What is to be shown, in three cases. *)
    Definition rt_goal (r : res relation) : Prop :=
      (answer_is (linear_areal_spec X P) r /\ ~ passes_rings X l pg /\ ~ changes_rings X pg)
      \/ (r = Ok CROSS /\ passes_rings X l pg) \/ (r = Ok ENCLOSED /\ changes_rings X pg).
    Lemma rt_apart : ~ (passes_rings X l pg /\ changes_rings X pg).
    Proof using V.
      intros [[_ A] [B _]]. destruct A as [[_ (p & P1 & P2)]|[(p & P1 & P2) _]]; [exact (rt_out_on p P2 (B p P1))|exact (rt_in_on p P2 (B p P1))].
    Qed.
    Lemma rt_told r : rt_goal r -> ring_told X l pg r.
    Proof using V.
      intros [(A & B & C)|[(A & B)|(A & B)]].
      - split; [intros Z; destruct (B Z)|]. split; [intros Z; destruct (C Z)|]. intros _ _. exact A.
      - split; [intros _; exact A|]. split; [intros Z; destruct (rt_apart (conj B Z))|]. intros Z. destruct (Z B).
      - split; [intros Z; destruct (rt_apart (conj Z B))|]. split; [intros _; exact A|]. intros _ Z. destruct (Z B).
    Qed.
    Lemma rt_meets r : meets X (polygon_interior pg) -> answer_is (linear_areal_spec X P) r -> rt_goal r.
    Proof using V.
      intros (p & P1 & P2) A. left. split; [exact A|]. split; [intros [N _]; apply N; exists p; auto|]. intros [B _]. exact (rt_inner p P2 (B p P1)).
    Qed.
    Variable (r : relation) (rh : res relation).
    Hypothesis (Dec : meets X (polygon_interior pg) \/ ~ meets X (polygon_interior pg)).
    Hypothesis (S : linear_areal_spec X (region_area (border pg)) r).
    Hypothesis (Or : holes pg <> [] -> answer_or (linear_areal_spec X H) CROSS (contact_cut l (contours_edges (holes pg)) /\ linear_areal_spec X H ENCLOSED) rh).
    Hypothesis (Told : holes pg <> [] -> cut_by l (contours_edges (holes pg)) -> rh = Ok CROSS).
    Lemma rt_none : ~ meets X (inside (border pg)) -> ~ passes_rings X l pg.
    Proof using V. intros N [_ [[A _]|[(p & P1 & P2) _]]]; [exact (N A)|]. apply N. exists p. split; [exact P1|exact (rt_hole p P2)]. Qed.
    Lemma rt_line : rt_goal (if nonempty (holes pg) && (relation_eqb r WITHIN || relation_eqb r ENCLOSED) then
      do h <- rh; Ok (match h with DISJOINT => r | TOUCH => ENCLOSED | ENCLOSED => TOUCH | WITHIN => DISJOINT | _ => h end) else Ok r).
    Proof using All.
      assert (HD : holes pg = [] \/ holes pg <> []) by (destruct (holes pg); [left; reflexivity|right; discriminate]).
      pose proof (line_answer pg V X) as LA. fold P in LA. destruct HD as [E|NH].
      - assert (A : answer_is (linear_areal_spec X P) (Ok r)).
        { apply (LA _ Ne). apply (linear_areal_ext _ _ _ _ (fun p => iff_refl _) (bare_area pg E)). exact S. }
        rewrite E. cbn [nonempty andb]. destruct Dec as [M|NI]; [exact (rt_meets _ M A)|].
        left. split; [exact A|]. split.
        + apply rt_none. intros (p & P1 & P2). apply NI. exists p. split; [exact P1|]. split; [exact P2|]. rewrite E. intros h [].
        + intros (B1 & B2 & _). apply B2. intros p Hp. destruct (B1 p Hp) as [K|(h & I & _)]; [exact K|]. rewrite E in I. destruct I.
      - replace (nonempty (holes pg)) with true by (destruct (holes pg); [congruence|reflexivity]). cbn [andb]. specialize (Or NH). specialize (Told NH).
        destruct (relation_eqb r WITHIN || relation_eqb r ENCLOSED) eqn:Q.
        + assert (W : r = WITHIN \/ r = ENCLOSED) by (destruct r; try discriminate Q; auto).
          assert (IN : ~ meets X (outside (border pg))).
          { intros (p & P1 & P2). destruct W as [W|W]; rewrite W in S; [exact (inside_not_outside _ p (pg_border pg V) (S p P1) P2)|]. apply (proj1 S). exists p. auto. }
          destruct Or as [(h & -> & T & _)|[-> [C T]]]; cbn [bind].
          * destruct Dec as [M|NI].
            { apply (rt_meets _ M). apply (LA _ Ne). exact (line_polygon pg V X r h (fun _ _ => M) S T NH W). }
            pose proof (al_polygon pg V X r h NI S T NH Ne W) as AP. fold P in AP.
            destruct h; try (destruct T; fail).
            -- exfalso. destruct W as [E|E]; rewrite E in S.
               ++ destruct Ne as (p & Hp). apply NI. exists p. split; [exact Hp|]. split; [exact (S p Hp)|exact (T p Hp)].
               ++ destruct S as (_ & (p & P1 & P2) & _). apply NI. exists p. split; [exact P1|]. split; [exact P2|exact (T p P1)].
            -- right. right. split; [reflexivity|]. destruct T as (T1 & _ & (q & Q1 & Q2)).
               split; [|split].
               ++ destruct AP as [A|[[A _]|[_ A]]]; [exfalso|discriminate A|exact A]. destruct A as (_ & A & _). exact (NI A).
               ++ intros Z. destruct W as [W|W]; rewrite W in S.
                  ** destruct Ne as (p & Hp). exact (inside_not_on _ p (pg_border pg V) (S p Hp) (Z p Hp)).
                  ** destruct S as (_ & (p & P1 & P2) & _). exact (inside_not_on _ p (pg_border pg V) P2 (Z p P1)).
               ++ intros Z. destruct (Z q Q1) as (g & I & K). exact (outside_not_on _ q (pg_hole pg V g I) (Q2 g I) K).
            -- right. left. split; [reflexivity|]. split; [exact NI|]. right. split; [exact (proj1 T)|left; exact (proj2 T)].
            -- left. destruct AP as [A|[[A _]|[A _]]]; [|discriminate A|discriminate A]. split; [apply (LA _ Ne); exact A|]. split.
               ++ intros [_ [[_ Z]|[(p & P1 & P2) _]]]; [exact (IN Z)|]. apply (rt_in_on p P2). right. exact (T p P1).
               ++ intros (_ & _ & Z). exact (Z T).
            -- left. destruct AP as [A|[[A _]|[A _]]]; [|discriminate A|discriminate A]. split; [apply (LA _ Ne); exact A|]. destruct T as (T1 & (q & Q1 & Q2) & _). split.
               ++ intros [_ [[_ Z]|[_ [Z|Z]]]]; [exact (IN Z)|exact (T1 Z)|discriminate (Told Z)].
               ++ intros (Z & _). exact (rt_in_on q Q2 (Z q Q1)).
            -- left. destruct AP as [A|[[A _]|[A _]]]; [|discriminate A|discriminate A]. split; [apply (LA _ Ne); exact A|]. split.
               ++ intros [_ [[_ Z]|[_ [(p & P1 & P2)|Z]]]]; [exact (IN Z)| |discriminate (Told Z)]. destruct (T p P1) as (g & I & K). exact (inside_not_outside _ p (pg_hole pg V g I) K (P2 g I)).
               ++ intros (Z & _). destruct Ne as (q & Q1). exact (rt_in_on q (T q Q1) (Z q Q1)).
          * right. left. split; [reflexivity|]. split; [exact (proj1 (al_contact pg V X T))|]. right. split; [exact (proj1 (proj2 T))|right; exact (contact_cuts _ _ C)].
        + destruct Dec as [M|NI].
          * apply (rt_meets _ M). apply (LA _ Ne). apply (line_border pg V X r (fun _ _ => M) S); intros Z; rewrite Z in Q; discriminate.
          * assert (RD : r = CROSS \/ r <> CROSS) by (destruct r; (left; reflexivity) || (right; discriminate)). destruct RD as [E|N].
            -- right. left. rewrite E in S |- *. split; [reflexivity|]. split; [exact NI|left; exact S].
            -- left. assert (A : answer_is (linear_areal_spec X P) (Ok r)) by (apply (LA _ Ne); apply (al_border pg V X r S); [intros Z; rewrite Z in Q; discriminate|intros Z; rewrite Z in Q; discriminate|exact N]).
               split; [exact A|]. destruct r; try (destruct S; fail); try discriminate Q; try congruence.
               ++ split; [apply rt_none; [intros (p & P1 & P2); exact (inside_not_outside _ p (pg_border pg V) P2 (S p P1))]|]. intros (Z & _). destruct Ne as (q & Q1). exact (rt_out_on q (S q Q1) (Z q Q1)).
               ++ destruct S as (S1 & _ & (q & Q1 & Q2)). split; [exact (rt_none S1)|]. intros (Z & _). exact (rt_out_on q Q2 (Z q Q1)).
               ++ split; [apply rt_none; [intros (p & P1 & P2); exact (inside_not_on _ p (pg_border pg V) P2 (S p P1))]|]. intros (_ & Z & _). exact (Z S).
    Qed.
  End Line.
  Lemma rt_contour c : simple_contour c -> rt_goal (on_contour c) (contours_edges [c]) (contour_in_polygon c pg).
  Proof using V.
    intros C. destruct (contour_box_tight _ (simple_nonempty c C)) as (cb & Eb & Tb). assert (Ne : exists p, on_contour c p) by (destruct Tb as (_ & (p & Hp & _) & _); exists p; exact Hp).
    destruct (contour_in_region_exact_l c _ C (pg_border pg V)) as (r & Er & Sr & _). unfold contour_in_region, region_relate_contour in Er. rewrite Eb in Er. cbn [bind] in Er.
    unfold contour_in_polygon, polygon_relate_contour. rewrite Eb. cbn [bind]. rewrite Er. cbn [bind].
    assert (Hh : holes pg <> [] -> answer_or (linear_areal_spec (on_contour c) (multiregion_area (holes pg))) CROSS
       (contact_cut (contours_edges [c]) (contours_edges (holes pg)) /\ linear_areal_spec (on_contour c) (multiregion_area (holes pg)) ENCLOSED) (multiregion_relate_contour_ (holes pg) c cb)).
    { intros NH. pose proof (contour_in_multiregion_loose_l c (holes pg) C (pg_holes pg V) NH) as L. unfold contour_in_multiregion, multiregion_relate_contour in L. rewrite Eb in L. exact L. }
    assert (Ht : holes pg <> [] -> cut_by (contours_edges [c]) (contours_edges (holes pg)) -> multiregion_relate_contour_ (holes pg) c cb = Ok CROSS).
    { intros NH K. pose proof (proj1 (contour_in_multiregion_seen_l c (holes pg) C (pg_holes pg V) NH) K) as L. unfold contour_in_multiregion, multiregion_relate_contour in L. rewrite Eb in L. exact L. }
    pose proof (rt_line (on_contour c) (contours_edges [c]) Ne r (multiregion_relate_contour_ (holes pg) c cb) (contour_find c (polygon_interior pg) (segment_inner pg V)) Sr Hh Ht) as A.
    replace (relation_eqb r ENCLOSED || relation_eqb r WITHIN) with (relation_eqb r WITHIN || relation_eqb r ENCLOSED) by apply orb_comm.
    destruct (nonempty (holes pg) && (relation_eqb r WITHIN || relation_eqb r ENCLOSED)) eqn:Q; [|exact A].
    assert (NH : holes pg <> []) by (intros Z; rewrite Z in Q; discriminate). specialize (Hh NH).
    destruct (multiregion_relate_contour_ (holes pg) c cb) as [h|e]; [|exact A]. cbn [bind] in A |- *.
    destruct Hh as [(h' & Z & T & _)|[Z _]]; injection Z as Z; rewrite Z in *; [|exact A]. destruct h'; try (destruct T; fail); exact A.
  Qed.
  Lemma rt_segment s : nondegenerate s -> answer_is (linear_areal_spec (in_segment s) (region_area (border pg))) (segment_in_region s (border pg)) ->
    rt_goal (in_segment s) [(s_start s, s_end s)] (segment_in_polygon s pg).
  Proof using V.
    intros D (r & Er & Sr & _). assert (Ne : exists p, in_segment s p) by (exists (s_start s); apply on_segment_start). unfold segment_in_region in Er. unfold segment_in_polygon, polygon_relate_segment. rewrite Er. cbn [bind].
    assert (Dec : meets (in_segment s) (polygon_interior pg) \/ ~ meets (in_segment s) (polygon_interior pg)).
    { destruct (segment_inner pg V (s_start s) (s_end s)) as [(p & P1 & P2)|N]; [left; exists p; auto|right]. intros (p & P1 & P2). exact (N p P1 P2). }
    exact (rt_line (in_segment s) [(s_start s, s_end s)] Ne r (multiregion_relate_segment (holes pg) s) Dec Sr
      (fun NH => segment_in_multiregion_or_l s (holes pg) D (pg_holes pg V) NH) (fun NH => proj1 (segment_in_multiregion_seen_l s (holes pg) D (pg_holes pg V) NH))).
  Qed.
  Lemma contour_in_polygon_rings_l c : simple_contour c -> ring_told (on_contour c) (contours_edges [c]) pg (contour_in_polygon c pg).
  Proof using V. intros C. apply rt_told, rt_contour, C. Qed.
  Lemma segment_in_polygon_rings_l s : nondegenerate s -> answer_is (linear_areal_spec (in_segment s) (region_area (border pg))) (segment_in_region s (border pg)) ->
    ring_told (in_segment s) [(s_start s, s_end s)] pg (segment_in_polygon s pg).
  Proof using V. intros D A. apply rt_told, rt_segment; assumption. Qed.
  (* Each answer. *)
  Lemma rt_each X l r : (exists p, X p) -> rt_goal X l r -> ring_answer X l pg r -> each_ring_answer X l pg r.
  Proof using V.
    intros Ne G R. assert (U : forall a b, linear_areal_spec X P a -> linear_areal_spec X P b -> b = a) by (intros a b; exact (linear_areal_unique X _ a b Ne (polygon_apart_area pg V))).
    assert (E : forall a b, linear_areal_spec X P a -> r = Ok b -> a = b \/ (b = CROSS /\ a = TOUCH /\ passes_rings X l pg) \/ (b = ENCLOSED /\ a = COMPONENT /\ changes_rings X pg)).
    { intros a b A B. destruct G as [((rel & -> & Sp & _) & _)|[[-> C]|[-> C]]].
      - left. injection B as <-. exact (U _ _ Sp A).
      - injection B as <-. destruct R as [(rel & Z & Sp & _)|[(_ & Sp & _)|(Z & _)]]; [| |discriminate Z].
        + injection Z as <-. exfalso. apply (proj1 C). exact (proj1 Sp).
        + right. left. split; [reflexivity|]. split; [exact (U _ _ Sp A)|exact C].
      - injection B as <-. right. right. split; [reflexivity|]. split; [|exact C]. exact (U COMPONENT a (proj1 C) A). }
    assert (O : exists b, r = Ok b) by (destruct G as [((rel & -> & _) & _)|[[-> _]|[-> _]]]; eexists; reflexivity). destruct O as (b & Eb).
    assert (K : forall a, linear_areal_spec X P a -> ~ passes_rings X l pg -> ~ changes_rings X pg -> r = Ok a).
    { intros a A N1 N2. rewrite Eb. destruct (E a b A Eb) as [->|[(_ & _ & C)|(_ & _ & C)]]; [reflexivity|destruct (N1 C)|destruct (N2 C)]. }
    assert (PT : forall a, linear_areal_spec X P a -> passes_rings X l pg -> a = TOUCH).
    { intros a A C. destruct G as [(_ & N & _)|[[Z _]|[_ Z]]]; [destruct (N C)| |destruct (rt_apart X l (conj C Z))].
      destruct (E a CROSS A Z) as [->|[(_ & -> & _)|(Q & _)]]; [exfalso; exact (proj1 C (proj1 A))|reflexivity|discriminate Q]. }
    assert (CC : forall a, linear_areal_spec X P a -> changes_rings X pg -> a = COMPONENT) by (intros a A C; exact (U COMPONENT a (proj1 C) A)).
    assert (T : ring_told X l pg r) by exact (rt_told X l r G). destruct T as (T1 & T2 & _).
    split; [|split; [|split; [|split; [|split; [|split]]]]].
    - intros rel [<-|[<-|[]]]; split.
      + intros Z. destruct G as [((rel & E1 & Sp & _) & _)|[[E1 _]|[E1 _]]]; rewrite E1 in Z; [injection Z as ->; exact Sp|discriminate|discriminate].
      + intros A. apply (K _ A); intros C; [discriminate (PT _ A C)|discriminate (CC _ A C)].
      + intros Z. destruct G as [((rel & E1 & Sp & _) & _)|[[E1 _]|[E1 _]]]; rewrite E1 in Z; [injection Z as ->; exact Sp|discriminate|discriminate].
      + intros A. apply (K _ A); intros C; [discriminate (PT _ A C)|discriminate (CC _ A C)].
    - split.
      + intros Z. destruct G as [((rel & E1 & Sp & _) & N & _)|[[E1 _]|[E1 _]]]; rewrite E1 in Z; [injection Z as ->; auto|discriminate|discriminate].
      + intros [A N]. apply (K _ A N). intros C. discriminate (CC _ A C).
    - split.
      + intros Z. destruct G as [((rel & E1 & Sp & _) & _ & N)|[[E1 _]|[E1 _]]]; rewrite E1 in Z; [injection Z as ->; auto|discriminate|discriminate].
      + intros [A N]. apply (K _ A); [|exact N]. intros C. discriminate (PT _ A C).
    - split.
      + intros Z. destruct G as [((rel & E1 & Sp & _) & _)|[[_ C]|[E1 _]]]; [rewrite E1 in Z; injection Z as ->; auto|auto|rewrite E1 in Z; discriminate].
      + intros [A|C]; [|exact (T1 C)]. apply (K _ A); intros C; [discriminate (PT _ A C)|discriminate (CC _ A C)].
    - split.
      + intros Z. destruct G as [((rel & E1 & Sp & _) & _)|[[E1 _]|[_ C]]]; [rewrite E1 in Z; injection Z as ->; auto|rewrite E1 in Z; discriminate|auto].
      + intros [A|C]; [|exact (T2 C)]. apply (K _ A); intros C; [discriminate (PT _ A C)|discriminate (CC _ A C)].
    - intros C. specialize (T1 C). destruct R as [(rel & Z & Sp & _)|[(_ & Sp & _)|(Z & _)]]; [|exact Sp|congruence].
      rewrite T1 in Z. injection Z as <-. destruct (proj1 C (proj1 Sp)).
    - intros C. exact (proj1 C).
  Qed.
  Lemma contour_in_polygon_each_l c : simple_contour c -> each_ring_answer (on_contour c) (contours_edges [c]) pg (contour_in_polygon c pg).
  Proof using V.
    intros C. apply rt_each; [|exact (rt_contour c C)|exact (contour_in_polygon_always_l pg V c C)].
    destruct (contour_box_tight _ (simple_nonempty c C)) as (cb & _ & _ & (p & Hp & _) & _). exists p. exact Hp.
  Qed.
  Lemma segment_in_polygon_each_l s : nondegenerate s -> answer_is (linear_areal_spec (in_segment s) (region_area (border pg))) (segment_in_region s (border pg)) ->
    each_ring_answer (in_segment s) [(s_start s, s_end s)] pg (segment_in_polygon s pg).
  Proof using V.
    intros D A. apply rt_each; [exists (s_start s); apply on_segment_start|exact (rt_segment s D A)|exact (segment_in_polygon_always_l pg V s D A)].
  Qed.
End Lines.

(** * The query about contours is made of two others *)
Definition holes_say (r h : relation) : relation :=
  match h with DISJOINT => r | TOUCH => ENCLOSED | CROSS => CROSS | COMPONENT => COMPONENT | ENCLOSED => TOUCH | _ => DISJOINT end.
Lemma contour_in_polygon_two c pg : simple_contour c -> contour_in_polygon c pg
  = (do r <- contour_in_region c (border pg);
     if nonempty (holes pg) && (relation_eqb r ENCLOSED || relation_eqb r WITHIN) then do h <- contour_in_multiregion c (holes pg); Ok (holes_say r h) else Ok r).
Proof.
  intros C. destruct (contour_box_tight _ (simple_nonempty c C)) as (cb & Eb & _).
  unfold contour_in_polygon, polygon_relate_contour, contour_in_region, region_relate_contour, contour_in_multiregion, multiregion_relate_contour. rewrite Eb. reflexivity.
Qed.
Lemma contour_in_polygon_affine_l m c pg : det m <> 0 -> simple_contour c -> valid_polygon pg -> contour_in_polygon (aff_ctr m c) (aff_pg m pg) = contour_in_polygon c pg.
Proof.
  intros D C V. rewrite (contour_in_polygon_two _ _ C), (contour_in_polygon_two _ _ (aff_simple m D c C)). cbn [border holes aff_pg].
  destruct (region_affine_l m c (border pg) D C (pg_border pg V)) as (_ & -> & _).
  assert (HD : holes pg = [] \/ holes pg <> []) by (destruct (holes pg); [left; reflexivity|right; discriminate]). destruct HD as [E|NH]; [rewrite E; reflexivity|].
  replace (nonempty (map (aff_ctr m) (holes pg))) with (nonempty (holes pg)) by (destruct (holes pg); reflexivity).
  pose proof (proj2 (proj1 (lines_affine_always_l m D) (holes pg) (pg_holes pg V) NH) c C) as H. unfold aff_mr in H. rewrite H. reflexivity.
Qed.
Lemma segment_in_polygon_affine_l m s pg : det m <> 0 -> nondegenerate s -> valid_polygon pg ->
  segment_in_region (aff_seg m s) (aff_ctr m (border pg)) = segment_in_region s (border pg) -> segment_in_polygon (aff_seg m s) (aff_pg m pg) = segment_in_polygon s pg.
Proof.
  intros D N V E. unfold segment_in_polygon, polygon_relate_segment. unfold segment_in_region in E. cbn [border holes aff_pg]. rewrite E.
  assert (HD : holes pg = [] \/ holes pg <> []) by (destruct (holes pg); [left; reflexivity|right; discriminate]). destruct HD as [H|NH]; [rewrite H; reflexivity|].
  replace (nonempty (map (aff_ctr m) (holes pg))) with (nonempty (holes pg)) by (destruct (holes pg); reflexivity).
  pose proof (proj1 (proj1 (lines_affine_always_l m D) (holes pg) (pg_holes pg V) NH) s N) as H. unfold aff_mr, segment_in_multiregion in H. rewrite H. reflexivity.
Qed.

(** * A polygon and the multipolygon of it *)
Lemma cut_region c r e' : simple_contour c -> simple_contour r -> In e' (contours_edges [r]) -> (exists e, In e (contours_edges [c]) /\ cuts e e') ->
  meets (on_contour c) (inside r) /\ meets (on_contour c) (outside r).
Proof.
  intros C R I (e & J & K). assert (V : valid_multiregion [r]) by (split; [apply Forall_cons; [exact R|apply Forall_nil]|apply FOP_cons; [apply Forall_nil|apply FOP_nil]]).
  assert (E : contour_in_multiregion c [r] = Ok CROSS) by (apply (contour_in_multiregion_seen_l c [r] C V ltac:(discriminate)); exists e, e'; auto).
  rewrite (contour_in_one_l c r C R) in E. destruct (contour_in_region_exact_l c r C R) as (rel & Er & S & _). rewrite E in Er. injection Er as <-. exact S.
Qed.
Lemma cut_polygon c pg : simple_contour c -> valid_polygon pg -> cut_by (contours_edges [c]) (polygon_edges pg) -> contour_in_polygon c pg = Ok CROSS.
Proof.
  intros C V (e & e' & I & J & K). destruct (contour_in_polygon_each_l pg V c C) as (_ & _ & _ & Cr & _). apply Cr.
  assert (Ring : exists r, In r (border pg :: holes pg) /\ In e' (contours_edges [r])).
  { unfold polygon_edges in J. unfold contours_edges in *. cbn [flat_map] in *. rewrite ?in_app_iff in J. destruct J as [J|J].
    - exists (border pg). split; [left; reflexivity|]. rewrite app_nil_r. exact J.
    - apply in_flat_map in J. destruct J as (h & A & B). exists h. split; [right; exact A|]. rewrite app_nil_r. exact B. }
  destruct Ring as (r & Ir & Jr). assert (R : simple_contour r) by (destruct Ir as [<-|Ir]; [exact (pg_border pg V)|exact (pg_hole pg V r Ir)]).
  destruct (cut_region c r e' C R Jr (ex_intro _ e (conj I K))) as [(p & P1 & P2) (q & Q1 & Q2)].
  destruct (contour_find c (polygon_interior pg) (segment_inner pg V)) as [M|NI].
  - left. split; [exact M|]. destruct Ir as [<-|Ir]; [exists q; split; [exact Q1|left; exact Q2]|exists p; split; [exact P1|right; exists r; auto]].
  - right. split; [exact NI|]. destruct Ir as [<-|Ir]; [left; split; [exists p; auto|exists q; auto]|right]. split; [exists p; split; [exact P1|exists r; auto]|right].
    exists e, e'. split; [exact I|]. split; [|exact K]. unfold contours_edges in *. cbn [flat_map] in Jr. rewrite app_nil_r in Jr. apply in_flat_map. exists r. auto.
Qed.
Lemma contour_one_polygon_l c pg : simple_contour c -> valid_polygon pg ->
  contour_in_polygon c pg = contour_in_multipolygon c (MPoly [pg])
  \/ (contour_in_polygon c pg = Ok CROSS /\ contour_in_multipolygon c (MPoly [pg]) = Ok TOUCH /\ passes_rings (on_contour c) (contours_edges [c]) pg)
  \/ (contour_in_polygon c pg = Ok ENCLOSED /\ contour_in_multipolygon c (MPoly [pg]) = Ok COMPONENT /\ changes_rings (on_contour c) pg).
Proof.
  intros C V. pose proof (multi_one pg V) as VM.
  destruct (contour_in_multipolygon_loose_l c (MPoly [pg]) C VM ltac:(discriminate)) as [(rel & -> & S & _)|[-> [K _]]].
  - apply (linear_areal_ext _ _ _ _ (fun p => iff_refl _) (single_area pg)) in S.
    assert (Ne : exists p, on_contour c p) by (destruct (contour_box_tight _ (simple_nonempty c C)) as (cb & _ & _ & (p & Hp & _) & _); exists p; exact Hp).
    assert (U : forall b, linear_areal_spec (on_contour c) (polygon_area pg) b -> b = rel) by (intros b; exact (linear_areal_unique _ _ rel b Ne (polygon_apart_area pg V) S)).
    pose proof (contour_in_polygon_always_l pg V c C) as A.
    destruct (rt_contour pg V c C) as [((b & Eb & Sb & _) & _)|[[Eb B]|[Eb B]]].
    + left. rewrite Eb, (U b Sb). reflexivity.
    + right. left. rewrite Eb. split; [reflexivity|]. split; [|exact B]. f_equal. symmetry. apply U. destruct A as [(x & Ex & Sx & _)|[(_ & T & _)|(Ex & _)]]; [|exact T|congruence].
      rewrite Eb in Ex. injection Ex as <-. destruct (proj1 B (proj1 Sx)).
    + right. right. rewrite Eb. split; [reflexivity|]. split; [|exact B]. f_equal. symmetry. apply U. exact (proj1 B).
  - left. apply (cut_polygon c pg C V). apply contact_cuts in K. destruct K as (e & e' & I & J & K). exists e, e'. split; [exact I|]. split; [|exact K].
    unfold multipolygon_edges in J. cbn [polygons flat_map] in J. rewrite app_nil_r in J. exact J.
Qed.
