(* Queries about a polygon, without conditions on the points where rings touch. *)
From Coq Require Import QArith Qcanon List Bool ZArith Lia Permutation.
From Verif Require Import Scalar Base Ground MLinear MSweep MCompound Planar Spec SpecAreas SpecContact SpecRings Geom RayParity SegProofs BoxProofs PointProofs EqualProofs
  NoFail OpenProofs Orient Area SegRegion AreaAnswer Drawn Gather Cover Sector AreaQueries ClosedProofs Polygons Inner PolyQueries Areas PolyArea Corner Pieces PolyLine PolyMulti PolyPoly ContactProofs.
Import ListNotations.
Open Scope Qc_scope.

(** * Lines *)
Section Lines.
  Variable (pg : polygon).
  Hypothesis (V : valid_polygon pg).
  Let P : area := polygon_area pg.
  Lemma segment_border a b : (exists p, on_segment a b p /\ on_contour (border pg) p) \/ (forall p, on_segment a b p -> ~ on_contour (border pg) p).
  Proof using V.
    pose proof (pg_border pg V) as B.
    assert (D : forall p, on_contour (border pg) p \/ ~ on_contour (border pg) p).
    { intros p. destruct (in_cases (border pg) p) as [K|[K|K]]; [right|left; exact K|right]; intros Z; [exact (inside_not_on _ p B K Z)|exact (outside_not_on _ p B K Z)]. }
    destruct (pt_dec a b) as [<-|N].
    - destruct (D a) as [K|K]; [left; exists a; split; [apply on_segment_start|exact K]|right]. intros p (t & _ & _ & ->). replace (lerp a a t) with a; [exact K|apply pt_eq; cbn; ring].
    - refine (chain_decide _ _ a b (even_chain (polygon_edges pg) a b N) _ D). intros x y Ev. destruct (ring_place pg V (border pg) a b x y (or_introl eq_refl) Ev) as [U1 U2].
      apply (uniform_ext (fun p => ~ inside (border pg) p /\ ~ outside (border pg) p)); [|apply uniform_and; apply uniform_not; assumption].
      intros p. split; [intros [N1 N2]; destruct (in_cases (border pg) p) as [K|[K|K]]; [destruct (N1 K)|exact K|destruct (N2 K)]|].
      intros K. split; intros Z; [exact (inside_not_on _ p B Z K)|exact (outside_not_on _ p B Z K)].
  Qed.
  Lemma no_border a b : (forall p, on_segment a b p -> ~ on_contour (border pg) p) -> inside (border pg) a -> inside (border pg) b.
  Proof using V.
    intros N K. pose proof (point_in_region_constant_l (border pg) a b N) as E. destruct (point_in_region_exact_l a (border pg)) as (I1 & _). destruct (point_in_region_exact_l b (border pg)) as (I2 & _).
    apply I2. rewrite <- E. apply I1. exact K.
  Qed.
  Section Line.
    Variable (X : point -> Prop) (r h : relation).
    Hypothesis (NI : ~ meets X (polygon_interior pg)) (S : linear_areal_spec X (region_area (border pg)) r).
    Lemma al_border : r <> WITHIN -> r <> ENCLOSED -> r <> CROSS -> linear_areal_spec X P r.
    Proof using S V.
      intros N1 N2 N3. destruct r; try (destruct S; fail); try congruence.
      - intros p Hp. left. exact (S p Hp).
      - destruct S as (A & (p & P1 & P2) & (q & Q1 & Q2)). split; [intros (z & Z1 & Z2); apply A; exists z; split; [exact Z1|apply Z2]|]. split; [exists p; split; [exact P1|left; exact P2]|exists q; split; [exact Q1|left; exact Q2]].
      - intros p Hp. left. exact (S p Hp).
    Qed.
    Lemma al_cross : r = CROSS -> meets X (on_contour (border pg)) -> linear_areal_spec X P TOUCH.
    Proof using S NI.
      intros E (q & Q1 & Q2). rewrite E in S. destruct S as [_ (p & P1 & P2)]. split; [exact NI|]. split; [exists q; split; [exact Q1|left; exact Q2]|exists p; split; [exact P1|left; exact P2]].
    Qed.
    Hypothesis (T : linear_areal_spec X (multiregion_area (holes pg)) h) (NH : holes pg <> []) (Ne : exists p, X p) (W : r = WITHIN \/ r = ENCLOSED).
    Lemma al_within p : X p -> inside (border pg) p \/ on_contour (border pg) p.
    Proof using S W. intros Hp. destruct W as [E|E]; rewrite E in S; [left; exact (S p Hp)|]. destruct (in_cases (border pg) p) as [K|[K|K]]; [auto|auto|exfalso]. apply (proj1 S). exists p. auto. Qed.
    Lemma al_out q : X q -> a_out (multiregion_area (holes pg)) q -> on_contour (border pg) q.
    Proof using S W NI. intros Hq O. destruct (al_within q Hq) as [K|K]; [|exact K]. exfalso. apply NI. exists q. split; [exact Hq|exact (conj K O)]. Qed.
    Local Notation answer := (match h with DISJOINT => r | TOUCH => ENCLOSED | ENCLOSED => TOUCH | WITHIN => DISJOINT | _ => h end).
    Lemma al_polygon : linear_areal_spec X P answer \/ (answer = CROSS /\ linear_areal_spec X P TOUCH) \/ (answer = ENCLOSED /\ linear_areal_spec X P COMPONENT).
    Proof using S T W V NH NI Ne.
      destruct h; try (destruct T; fail).
      - exfalso. destruct W as [E|E]; rewrite E in S.
        + destruct Ne as (p & Hp). apply NI. exists p. split; [exact Hp|]. split; [exact (S p Hp)|exact (T p Hp)].
        + destruct S as (_ & (p & P1 & P2) & _). apply NI. exists p. split; [exact P1|]. split; [exact P2|exact (T p P1)].
      - right. right. split; [reflexivity|]. destruct T as (A & _). intros p Hp. destruct (al_within p Hp) as [K|K]; [right|left; exact K].
        destruct (in_holes pg V p K) as (g & I & Z); [intros Z; apply NI; exists p; auto|]. exists g. split; [exact I|]. destruct (in_cases g p) as [L|[L|L]]; [exfalso|exact L|destruct (Z L)].
        apply A. exists p. split; [exact Hp|exists g; auto].
      - right. left. split; [reflexivity|]. destruct T as ((p & P1 & P2) & (q & Q1 & Q2)). split; [exact NI|]. split; [exists q; split; [exact Q1|left; exact (al_out q Q1 Q2)]|exists p; split; [exact P1|right; exact P2]].
      - left. intros p Hp. right. exact (T p Hp).
      - left. destruct T as (A & (p & P1 & P2) & (q & Q1 & Q2)). split; [exact NI|]. split; [exists q; split; [exact Q1|right; exact Q2]|exists p; split; [exact P1|right; exact P2]].
      - left. intros p Hp. right. exact (T p Hp).
    Qed.
  End Line.
  (* A contact that was taken for a crossing of the holes. *)
  Lemma al_contact X : linear_areal_spec X (multiregion_area (holes pg)) ENCLOSED -> linear_areal_spec X P TOUCH.
  Proof using V.
    intros (A & (p & P1 & P2) & (q & Q1 & Q2)). split; [|split; [exists q; split; [exact Q1|right; exact Q2]|exists p; split; [exact P1|right; exact P2]]].
    intros (z & Z1 & [_ Z2]). apply A. exists z. split; [exact Z1|exact Z2].
  Qed.
  (* Both queries. *)
  Lemma al_line X l r rh : (exists p, X p) -> (meets X (polygon_interior pg) \/ ~ meets X (polygon_interior pg)) ->
    (clear_border X pg -> meets X (inside (border pg)) -> (exists p, X p /\ ~ inside (border pg) p) -> meets X (polygon_interior pg)) ->
    (meets X (inside (border pg)) -> meets X (outside (border pg)) -> meets X (on_contour (border pg))) ->
    linear_areal_spec X (region_area (border pg)) r ->
    (holes pg <> [] -> answer_or (linear_areal_spec X (multiregion_area (holes pg))) CROSS (contact_cut l (contours_edges (holes pg)) /\ linear_areal_spec X (multiregion_area (holes pg)) ENCLOSED) rh) ->
    ring_answer X l pg (if nonempty (holes pg) && (relation_eqb r WITHIN || relation_eqb r ENCLOSED) then
      do h <- rh; Ok (match h with DISJOINT => r | TOUCH => ENCLOSED | ENCLOSED => TOUCH | WITHIN => DISJOINT | _ => h end) else Ok r).
  Proof using V.
    intros Ne Dec Thr Bor S Hh. assert (HD : holes pg = [] \/ holes pg <> []) by (destruct (holes pg); [left; reflexivity|right; discriminate]). destruct HD as [E|NH].
    - left. rewrite E. cbn [nonempty andb]. apply (line_answer pg V _ _ Ne). apply (linear_areal_ext _ _ _ _ (fun p => iff_refl _) (bare_area pg E)). exact S.
    - specialize (Hh NH). replace (nonempty (holes pg)) with true by (destruct (holes pg); [congruence|reflexivity]). cbn [andb].
      destruct Dec as [M|NI].
      + assert (Thr' : meets X (inside (border pg)) -> (exists p, X p /\ ~ inside (border pg) p) -> meets X (polygon_interior pg)) by (intros _ _; exact M).
        destruct (relation_eqb r WITHIN || relation_eqb r ENCLOSED) eqn:Q.
        * assert (W : r = WITHIN \/ r = ENCLOSED) by (destruct r; try discriminate Q; auto).
          destruct Hh as [(h & -> & T & _)|[-> [_ T]]]; cbn [bind].
          -- left. apply (line_answer pg V _ _ Ne). exact (line_polygon pg V X r h Thr' S T NH W).
          -- exfalso. apply (al_contact X T). exact M.
        * left. apply (line_answer pg V _ _ Ne). apply (line_border pg V _ _ Thr' S); intros Z; rewrite Z in Q; discriminate.
      + assert (NC : meets X (inside (border pg)) -> (exists p, X p /\ ~ inside (border pg) p) -> ~ clear_border X pg) by (intros A B C; exact (NI (Thr C A B))).
        destruct (relation_eqb r WITHIN || relation_eqb r ENCLOSED) eqn:Q.
        * assert (W : r = WITHIN \/ r = ENCLOSED) by (destruct r; try discriminate Q; auto).
          destruct Hh as [(h & -> & T & _)|[-> [C T]]]; cbn [bind].
          -- destruct (al_polygon X r h NI S T NH Ne W) as [A|[[A B]|[A B]]].
             ++ left. apply (line_answer pg V _ _ Ne). exact A.
             ++ right. left. rewrite A. split; [reflexivity|]. split; [exact B|]. right. destruct W as [W|W]; rewrite W in *.
                ** exfalso. destruct h; try discriminate A. destruct T as [_ (q & Q1 & Q2)]. apply NI. exists q. split; [exact Q1|]. split; [exact (S q Q1)|exact Q2].
                ** apply NC; [apply S|]. destruct S as (_ & _ & (q & Q1 & Q2)). exists q. split; [exact Q1|]. intros Z. exact (inside_not_on _ q (pg_border pg V) Z Q2).
             ++ right. right. rewrite A. split; [reflexivity|]. split; [exact B|]. destruct W as [W|W]; rewrite W in *.
                ** exfalso. destruct h; try discriminate A. destruct T as (_ & _ & (q & Q1 & Q2)). apply NI. exists q. split; [exact Q1|]. split; [exact (S q Q1)|exact Q2].
                ** apply NC; [apply S|]. destruct S as (_ & _ & (q & Q1 & Q2)). exists q. split; [exact Q1|]. intros Z. exact (inside_not_on _ q (pg_border pg V) Z Q2).
          -- right. left. split; [reflexivity|]. split; [exact (al_contact X T)|left; exact C].
        * assert (RD : r = CROSS \/ r <> CROSS) by (destruct r; (left; reflexivity) || (right; discriminate)). destruct RD as [E|N].
          -- right. left. rewrite E. split; [reflexivity|]. pose proof S as S0. rewrite E in S0. destruct S0 as [A1 A2]. split; [exact (al_cross X r NI S E (Bor A1 A2))|right].
             apply (NC A1). destruct A2 as (q & Q1 & Q2). exists q. split; [exact Q1|]. intros Z. exact (inside_not_outside _ q (pg_border pg V) Z Q2).
          -- left. apply (line_answer pg V _ _ Ne). apply (al_border X r S); [intros Z; rewrite Z in Q; discriminate|intros Z; rewrite Z in Q; discriminate|exact N].
  Qed.
  Lemma contour_in_polygon_always_l c : simple_contour c -> ring_answer (on_contour c) (contours_edges [c]) pg (contour_in_polygon c pg).
  Proof using V.
    intros C. destruct (contour_box_tight _ (simple_nonempty c C)) as (cb & Eb & Tb). assert (Ne : exists p, on_contour c p) by (destruct Tb as (_ & (p & Hp & _) & _); exists p; exact Hp).
    destruct (contour_in_region_exact_l c _ C (pg_border pg V)) as (r & Er & Sr & _). unfold contour_in_region, region_relate_contour in Er. rewrite Eb in Er. cbn [bind] in Er.
    unfold contour_in_polygon, polygon_relate_contour. rewrite Eb. cbn [bind]. rewrite Er. cbn [bind].
    pose proof (al_line (on_contour c) (contours_edges [c]) r (multiregion_relate_contour_ (holes pg) c cb) Ne (contour_find c (polygon_interior pg) (segment_inner pg V)) (contour_through pg V c)) as A.
    specialize (A ltac:(intros (p & P1 & P2) (q & Q1 & Q2); destruct (contour_find c (on_contour (border pg)) segment_border) as [M|N]; [exact M|exfalso];
      refine (inside_not_outside _ q (pg_border pg V) (contour_spread c (inside (border pg)) p q _ P1 Q1 P2) Q2); intros a b Z; apply no_border; intros z Hz O; apply N; exists z; split; [exact (Z z Hz)|exact O]) Sr).
    assert (Hh : holes pg <> [] -> answer_or (linear_areal_spec (on_contour c) (multiregion_area (holes pg))) CROSS
       (contact_cut (contours_edges [c]) (contours_edges (holes pg)) /\ linear_areal_spec (on_contour c) (multiregion_area (holes pg)) ENCLOSED) (multiregion_relate_contour_ (holes pg) c cb)).
    { intros NH. pose proof (contour_in_multiregion_loose_l c (holes pg) C (pg_holes pg V) NH) as L. unfold contour_in_multiregion, multiregion_relate_contour in L. rewrite Eb in L. exact L. }
    specialize (A Hh). replace (relation_eqb r ENCLOSED || relation_eqb r WITHIN) with (relation_eqb r WITHIN || relation_eqb r ENCLOSED) by apply orb_comm.
    destruct (nonempty (holes pg) && (relation_eqb r WITHIN || relation_eqb r ENCLOSED)) eqn:Q; [|exact A].
    assert (NH : holes pg <> []) by (intros Z; rewrite Z in Q; discriminate). specialize (Hh NH).
    destruct (multiregion_relate_contour_ (holes pg) c cb) as [h|e]; [|exact A]. cbn [bind] in A |- *.
    destruct Hh as [(h' & Z & T & _)|[Z _]]; injection Z as Z; rewrite Z in *; [|exact A]. destruct h'; try (destruct T; fail); exact A.
  Qed.
  Lemma segment_in_polygon_always_l s : nondegenerate s -> answer_is (linear_areal_spec (in_segment s) (region_area (border pg))) (segment_in_region s (border pg)) ->
    ring_answer (in_segment s) [(s_start s, s_end s)] pg (segment_in_polygon s pg).
  Proof using V.
    intros D (r & Er & Sr & _). assert (Ne : exists p, in_segment s p) by (exists (s_start s); apply on_segment_start). unfold segment_in_region in Er. unfold segment_in_polygon, polygon_relate_segment. rewrite Er. cbn [bind].
    assert (Dec : meets (in_segment s) (polygon_interior pg) \/ ~ meets (in_segment s) (polygon_interior pg)).
    { destruct (segment_inner pg V (s_start s) (s_end s)) as [(p & P1 & P2)|N]; [left; exists p; auto|right]. intros (p & P1 & P2). exact (N p P1 P2). }
    pose proof (al_line (in_segment s) [(s_start s, s_end s)] r (multiregion_relate_segment (holes pg) s) Ne Dec (segment_through pg V s)) as A.
    specialize (A ltac:(intros (p & P1 & P2) (q & Q1 & Q2); assert (Z : forall z, on_segment p q z -> in_segment s z) by (intros z Z; exact (on_segment_convex _ _ p q z P1 Q1 Z));
      destruct (segment_border p q) as [(z & Z1 & Z2)|N]; [exists z; split; [exact (Z z Z1)|exact Z2]|exfalso]; exact (inside_not_outside _ q (pg_border pg V) (no_border p q N P2) Q2)) Sr).
    specialize (A (fun NH => segment_in_multiregion_or_l s (holes pg) D (pg_holes pg V) NH)).
    exact A.
  Qed.
End Lines.

(** * Multiregions *)
Section Together.
  Variable (pg : polygon) (rs : multiregion).
  Hypothesis (V : valid_polygon pg) (VR : valid_multiregion rs) (NR : rs <> []) (NH : holes pg <> []) (CT : covered_together rs pg).
  Let B : area := region_area (border pg).
  Let H : area := multiregion_area (holes pg).
  Let P : area := polygon_area pg.
  Let RS : area := multiregion_area rs.
  Local Notation rel := (rel_of (border pg)).
  Definition loose_result (x : relation) : Prop := (x = OVERLAP /\ proper_part P RS) \/ (x = ENCLOSED /\ areal_spec RS P EQUAL).
  Lemma tg_meets : meets (a_in RS) (a_in P).
  Proof using V VR NR CT.
    pose proof (shaped_polygon pg V : shaped P) as SP. pose proof (shaped_multiregion rs VR NR : shaped RS) as SR. destruct (sh_inner P SP) as (p & Hp). exists p. split; [|exact Hp].
    exact (sh_in P RS SP SR p (proj1 CT) Hp).
  Qed.
  Lemma tg_over : ~ subset (a_cl RS) (a_cl P) -> loose_result OVERLAP.
  Proof using CT. intros N. left. split; [reflexivity|]. split; [exact (proj1 CT)|exact N]. Qed.
  Lemma tg_equal : subset (a_cl RS) (a_cl P) -> loose_result ENCLOSED.
  Proof using CT. intros S. right. split; [reflexivity|]. intros p. split; [apply S|apply (proj1 CT)]. Qed.
  Lemma tg_found r x : In r rs -> ((x = rel r /\ rel_in x [OVERLAP; COVER; ENCLOSES] = true) \/ (x = ENCLOSES /\ rel_in (rel r) [COMPOSITE; EQUAL] = true)) -> loose_result x.
  Proof using V VR NR NH CT.
    intros I Hx. pose proof (mp_S pg rs V VR r I) as S. pose proof (proj2 CT r I) as N.
    destruct Hx as [[-> K]|[-> K]]; destruct (rel r) eqn:E; try discriminate K; try (exfalso; apply N; first [apply S | intros p; apply S]; fail).
    apply tg_over. intros Z. destruct S as (_ & S & _). apply S. intros p Hp. apply (pa_sub pg V), Z, (mp_cl rs r p I Hp).
  Qed.
  Hypothesis (Hall : forall r, In r rs -> kept (rel r) = true \/ aside (rel r) = true).
  Let subs : multiregion := filter (fun r => kept (rel r)) rs.
  Let K : area := multiregion_area subs.
  Lemma tg_some : subs <> [].
  Proof using V VR NR CT Hall.
    intros E. pose proof (filter_empty _ rs E) as N. destruct tg_meets as (p & (r & I & P1) & P2). destruct (mp_aside pg rs V VR Hall r I (N r I)) as [_ D]. apply D. exists p. split; [exact P1|exact (proj1 P2)].
  Qed.
  Lemma tg_answer h : areal_spec K H h ->
    loose_result (if relation_eqb h DISJOINT then
              if Nat.eqb (length subs) (length rs) then (if forallb (fun r => negb (contacts (rel r))) rs then WITHIN else ENCLOSED) else OVERLAP
            else if relation_eqb h TOUCH then
              if Nat.eqb (length subs) (length rs) then ENCLOSED else OVERLAP
            else if relation_eqb h OVERLAP then OVERLAP
            else if rel_in h [COVER; ENCLOSES; COMPOSITE] then OVERLAP
            else if relation_eqb h WITHIN then (if forallb (fun r => negb (contacts (rel r))) rs then DISJOINT else TOUCH)
            else TOUCH).
  Proof using V VR NR NH CT Hall.
    intros S. pose proof (mp_SK pg rs VR tg_some : shaped K) as SK. pose proof (mp_SH pg V NH : shaped H) as SH.
    assert (LE : {length subs = length rs} + {length subs <> length rs}) by apply Nat.eq_dec.
    assert (In_H : subset (a_cl K) (a_cl H) -> False) by (intros Z; exact (mp_in_holes pg rs V VR NR NH Hall tg_some Z tg_meets)).
    assert (Ov : length subs <> length rs -> loose_result OVERLAP) by (intros L; exact (tg_over (mp_beyond pg rs V VR Hall L))).
    assert (Hit : meets (a_in K) (a_in H) -> loose_result OVERLAP) by (intros M; exact (tg_over (mp_hits pg rs V NH M))).
    assert (En : length subs = length rs -> ~ meets (a_in K) (a_in H) -> loose_result ENCLOSED).
    { intros L N. apply tg_equal. destruct (filter_length_all _ rs L) as [E _]. intros p Hp. apply (part_sub pg V NH K SK (mp_KB pg rs V VR) N). exact (eq_ind_r (fun l => a_cl (multiregion_area l) p) Hp E). }
    destruct h; cbn [relation_eqb rel_in existsb orb]; cbn [areal_spec] in S; try (destruct S; fail).
    - assert (NM : ~ meets (a_in K) (a_in H)) by (intros (p & P1 & P2); apply S; exists p; split; left; assumption).
      destruct LE as [L|L]; [rewrite (proj2 (Nat.eqb_eq _ _) L)|rewrite (proj2 (Nat.eqb_neq _ _) L); exact (Ov L)].
      destruct (forallb (fun r => negb (contacts (rel r))) rs) eqn:Q; [exfalso|exact (En L NM)].
      destruct (sh_some B (mp_SB pg V)) as (b & Hb). assert (Kb : a_cl RS b) by (apply (proj1 CT); right; left; exact Hb).
      assert (G : exists r, In r rs /\ a_cl (region_area r) b) by (destruct Kb as [(r & I & Z)|(r & I & Z)]; exists r; (split; [exact I|]); [left|right]; exact Z).
      destruct G as (r & I & Z). pose proof (mp_S pg rs V VR r I) as Sr. destruct (mp_no_contact pg rs V VR Hall r Q I) as [W|W]; rewrite W in Sr.
      + destruct Sr as [[S1 _] S2]. destruct Z as [Z|Z]; [|apply S2; exists b; auto]. exact (sh_in_on B b (mp_SB pg V) (sh_in _ B (shaped_region r (mp_r rs VR r I)) (mp_SB pg V) b S1 Z) Hb).
      + apply Sr. exists b. split; [exact Z|right; exact Hb].
    - destruct S as [NM _]. destruct LE as [L|L]; [rewrite (proj2 (Nat.eqb_eq _ _) L); exact (En L NM)|rewrite (proj2 (Nat.eqb_neq _ _) L); exact (Ov L)].
    - exact (Hit (proj1 S)).
    - apply Hit. exact (sh_sub_in' K H SK SH (proj1 (proj1 S))).
    - apply Hit. exact (sh_sub_in' K H SK SH (proj1 (proj1 S))).
    - apply Hit. exact (sh_sub_in' K H SK SH (proj1 (proj1 S))).
    - exfalso. apply In_H. intros p. apply S.
    - exfalso. apply In_H. apply S.
    - exfalso. apply In_H. apply S.
    - exfalso. apply In_H. apply S.
  Qed.
End Together.
Lemma multiregion_together rs pg : valid_multiregion rs -> rs <> [] -> valid_polygon pg -> holes pg <> [] -> covered_together rs pg ->
  exists x, multiregion_in_polygon rs pg = Ok x /\ loose_result pg rs x.
Proof.
  intros VR NR V NH CT. pose proof (pg_border pg V) as B. destruct (box_of _ B) as (bb & Eb). unfold multiregion_in_polygon, polygon_relate_multiregion. rewrite Eb. cbn [bind].
  replace (nonempty (holes pg)) with true by (destruct (holes pg); [congruence|reflexivity]). cbn [negb].
  destruct (multiregion_loop (border pg) bb rs B Eb (proj1 VR) true []) as [(r & x & I & -> & H)|[-> Hall]]; cbn [bind andb app].
  - exists x. split; [reflexivity|]. exact (tg_found pg rs V VR NR NH CT r x I H).
  - set (subs := filter (fun r => kept (rel_of (border pg) r)) rs). pose proof (tg_some pg rs V VR NR CT Hall : subs <> []) as SD.
    pose proof (multiregion_in_multiregion_exact_l subs (holes pg) (mr_filter rs _ VR) (pg_holes pg V) SD NH) as (h & Eh & Sh & _). unfold multiregion_in_multiregion in Eh.
    pose proof (tg_answer pg rs V VR NR NH CT Hall h Sh) as A. fold subs in A.
    assert (EQ : (if Nat.eqb (length subs) (length rs) then rs else subs) = subs).
    { destruct (Nat.eqb_spec (length subs) (length rs)) as [L|L]; [|reflexivity]. symmetry. exact (proj1 (filter_length_all _ rs L)). }
    destruct subs as [|s subs'] eqn:Es; [congruence|]. cbv beta iota zeta. match goal with |- context [if ?b then rs else ?x] => replace (if b then rs else x) with (s :: subs') by (symmetry; exact EQ) end. rewrite Eh. cbn [bind].
    eexists. split; [reflexivity|exact A].
Qed.
Lemma covers_one (X : contour -> Prop) rs : (forall r, In r rs -> X r \/ ~ X r) -> (exists r, In r rs /\ X r) \/ (forall r, In r rs -> ~ X r).
Proof.
  induction rs as [|r rs IH]; intros D; [right; intros r []|]. destruct (D r (or_introl eq_refl)) as [K|K]; [left; exists r; cbn; auto|].
  destruct IH as [(x & I & Z)|Z]; [intros x I; apply D; right; exact I|left; exists x; cbn; auto|right; intros x [<-|I]; [exact K|exact (Z x I)]].
Qed.
Lemma multiregion_in_polygon_always_l rs pg : valid_multiregion rs -> rs <> [] -> valid_polygon pg ->
  answer_is (merged_spec (multiregion_area rs) (polygon_area pg)) (multiregion_in_polygon rs pg)
  \/ (covered_together rs pg
      /\ (multiregion_in_polygon rs pg = Ok OVERLAP /\ proper_part (polygon_area pg) (multiregion_area rs)
          \/ multiregion_in_polygon rs pg = Ok ENCLOSED /\ areal_spec (multiregion_area rs) (polygon_area pg) EQUAL)).
Proof.
  intros VR NR V. assert (HD : holes pg = [] \/ holes pg <> []) by (destruct (holes pg); [left; reflexivity|right; discriminate]). destruct HD as [E|NH].
  - left. apply (multiregion_in_polygon_merged_l rs pg VR NR V). intros h p I. rewrite E in I. destruct I.
  - pose proof (shaped_polygon pg V) as SP. pose proof (shaped_multiregion rs VR NR) as SR.
    assert (D : subset (a_cl (polygon_area pg)) (a_cl (multiregion_area rs)) \/ ~ subset (a_cl (polygon_area pg)) (a_cl (multiregion_area rs))).
    { destruct (sh_decide _ _ SP SR) as [[S|(p & P1 & P2)] _]; [left; exact S|right]. intros Z. exact (sh_cl_out _ p SR (Z p (or_introl P1)) P2). }
    destruct D as [S|N]; [|left; apply (multiregion_in_polygon_of rs pg VR NR V NH); intros Z; destruct (N Z)].
    destruct (covers_one (fun r => subset (a_cl (region_area (border pg))) (a_cl (region_area r))) rs) as [(r & I & Z)|Z].
    + intros r I. pose proof (shaped_region _ (pg_border pg V)) as SB. pose proof (shaped_region r (mr_simple rs r VR I)) as SA.
      destruct (sh_decide _ _ SB SA) as [[Z|(p & P1 & P2)] _]; [left; exact Z|right]. intros Z. exact (sh_cl_out _ p SA (Z p (or_introl P1)) P2).
    + left. apply (multiregion_in_polygon_of rs pg VR NR V NH). intros _. exists r. auto.
    + right. pose proof (conj S Z : covered_together rs pg) as CT. split; [exact CT|]. destruct (multiregion_together rs pg VR NR V NH CT) as (x & Ex & [[-> A]|[-> A]]); [left|right]; auto.
Qed.

(** * Two polygons *)
Definition loose_overlap (A B : area) : Prop := meets (a_cl A) (a_cl B) /\ ~ subset (a_cl A) (a_cl B) /\ ~ subset (a_cl B) (a_cl A).
Lemma loose_swap A B : loose_overlap A B -> loose_overlap B A.
Proof. intros (M & N1 & N2). split; [apply meets_sym, M|auto]. Qed.
Lemma contour_hits c r : simple_contour c -> simple_contour r -> meets (on_contour c) (inside r) -> (exists p, on_contour c p /\ ~ inside r p) -> meets (on_contour c) (on_contour r).
Proof.
  intros C R (p & P1 & P2) (q & Q1 & Q2). destruct (sh_decide _ _ (shaped_region c C) (shaped_region r R)) as (_ & _ & [M|N] & _); [exact M|exfalso].
  apply Q2. apply (contour_spread c (inside r) p q); [|exact P1|exact Q1|exact P2]. intros a b Z K.
  assert (O : forall z, on_segment a b z -> ~ on_contour r z) by (intros z Hz O; apply N; exists z; split; [exact (Z z Hz)|exact O]).
  pose proof (point_in_region_constant_l r a b O) as E. destruct (point_in_region_exact_l a r) as (I1 & _). destruct (point_in_region_exact_l b r) as (I2 & _). apply I2. rewrite <- E. apply I1. exact K.
Qed.
Lemma overlap_hits c r : simple_contour c -> simple_contour r -> areal_spec (region_area c) (region_area r) OVERLAP -> meets (on_contour c) (on_contour r).
Proof.
  intros C R (M & N1 & N2). apply (contour_hits c r C R).
  - destruct (contour_sides c r C R) as [[Y|Y] _]; [exact Y|]. destruct N2. apply (inner_part r c R C Y). apply meets_sym. exact M.
  - destruct (contour_sides c r C R) as [_ [(p & P1 & P2)|N]]; [exists p; split; [exact P1|]; intros Z; exact (inside_not_outside _ p R Z P2)|]. destruct N1. exact (enclosed_sub c r C R N).
Qed.
(* A contour inside the regions is inside one of them. *)
Lemma in_one c rs : simple_contour c -> valid_multiregion rs -> subset (on_contour c) (a_in (multiregion_area rs)) -> exists h, In h rs /\ subset (on_contour c) (inside h).
Proof.
  intros C V S. destruct (sh_some _ (shaped_region c C)) as (p & Hp). cbn in Hp. destruct (S p Hp) as (h & I & K). exists h. split; [exact I|].
  intros q Hq. apply (contour_spread c (inside h) p q); [|exact Hp|exact Hq|exact K]. intros a b Z Ha.
  assert (O : forall z, on_segment a b z -> ~ on_contour h z).
  { intros z Hz O. destruct (S z (Z z Hz)) as (g & J & G). apply (sh_in_on (multiregion_area rs) z (shaped_multiregion rs V ltac:(intros E; rewrite E in I; destruct I))); [exists g; auto|exists h; auto]. }
  pose proof (point_in_region_constant_l h a b O) as E. destruct (point_in_region_exact_l a h) as (I1 & _). destruct (point_in_region_exact_l b h) as (I2 & _). apply I2. rewrite <- E. apply I1. exact Ha.
Qed.
Section Inner.
  Variable (pt pg : polygon) (br : relation).
  Hypothesis (VT : valid_polygon pt) (VG : valid_polygon pg).
  Let Bt : area := region_area (border pt).
  Let Bg : area := region_area (border pg).
  Let T : area := polygon_area pt.
  Let G : area := polygon_area pg.
  Hypothesis (Sbr : areal_spec Bt Bg br) (Hbr : br = WITHIN \/ br = ENCLOSED).
  Local Notation rel := (rel_of (border pt)).
  Lemma lo_overlap h : In h (holes pg) -> rel h = OVERLAP -> loose_overlap T G.
  Proof using VT VG Sbr Hbr.
    intros I E. pose proof (pp_S pt pg VT VG h I) as S. rewrite E in S. pose proof (pp_h pg VG h I) as R. pose proof (pg_border pt VT) as B.
    destruct (overlap_hits h (border pt) R B S) as (p & P1 & P2). split; [exists p; split; right; [left; exact P2|right; exists h; auto]|].
    split; [|exact (pp_uncovered pt pg br VT VG Sbr Hbr)]. destruct S as (M & N1 & N2).
    intros Z. destruct (contour_sides (border pt) h B R) as [[(q & Q1 & Q2)|Y] _]; [exact (pp_hole_out pg VG h q I Q2 (Z q (or_intror (or_introl Q1))))|]. exact (N1 (inner_part h (border pt) R B Y M)).
  Qed.
  Hypothesis (Hall : forall h, In h (holes pg) -> kept (rel h) = true \/ aside (rel h) = true).
  Let subs : multiregion := filter (fun h => kept (rel h)) (holes pg).
  Let K : area := multiregion_area subs.
  Hypothesis NS : subs <> [].
  Lemma lo_subs : (exists p, a_in K p /\ a_in T p) -> loose_overlap T G.
  Proof using VT VG Sbr Hbr.
    intros (z & (k & I & L) & Z2). apply filter_In in I. destruct I as [I E]. split; [|split; [|exact (pp_uncovered pt pg br VT VG Sbr Hbr)]].
    2:{ intros Z. exact (pp_hole_out pg VG k z I L (Z z (or_introl Z2))). }
    pose proof (pp_h pg VG k I) as R. destruct (pp_kept pt pg VT VG k I E) as [S1 _].
    assert (OnG : forall p, on_contour k p -> a_cl G p) by (intros p Hp; right; right; exists k; auto).
    assert (InT : forall p, on_contour k p -> (forall h, In h (holes pt) -> outside h p) -> a_cl T p).
    { intros p Hp O. destruct (S1 p (or_intror Hp)) as [Q|Q]; [left; exact (conj Q O)|right; left; exact Q]. }
    destruct (sh_some _ (shaped_region k R)) as (p0 & Hp0). cbn in Hp0.
    assert (HD : holes pt = [] \/ holes pt <> []) by (destruct (holes pt); [left; reflexivity|right; discriminate]). destruct HD as [HD|HD].
    { exists p0. split; [apply (InT p0 Hp0); rewrite HD; intros h []|exact (OnG p0 Hp0)]. }
    pose proof (shaped_multiregion _ (pg_holes pt VT) HD) as SH. destruct (sh_decide _ _ (shaped_region k R) SH) as (_ & _ & [(p & P1 & P2)|N1] & _ & [(p' & P1' & P2')|N2]);
      [exists p; split; [right; right; exact P2|exact (OnG p P1)]|exists p; split; [right; right; exact P2|exact (OnG p P1)]|exists p'; split; [exact (InT p' P1' P2')|exact (OnG p' P1')]|exfalso].
    destruct (in_one k (holes pt) R (pg_holes pt VT)) as (h & J & Sh).
    { intros p Hp. destruct (sh_cases _ p SH) as [Q|[Q|Q]]; [exact Q|destruct N1; exists p; auto|destruct N2; exists p; auto]. }
    pose proof (pg_hole pt VT h J) as RH. assert (Sub : subset (a_cl (region_area k)) (a_cl (region_area h))).
    { apply (enclosed_sub k h R RH). intros (p & P1 & P2). exact (inside_not_outside h p RH (Sh p P1) P2). }
    apply (pa_H_in pt VT z); [exists h; split; [exact J|]|left; exact Z2]. exact (sh_in _ _ (shaped_region k R) (shaped_region h RH) z Sub L).
  Qed.
  Lemma lo_bare : holes pt = [] -> loose_overlap T G.
  Proof using VT VG Sbr Hbr NS.
    intros E. apply lo_subs. destruct (sh_inner K (pp_SK pt pg VG NS)) as (p & Hp). exists p. split; [exact Hp|]. split; [exact (pp_K_in pt pg VT VG NS p Hp)|]. rewrite E. intros h [].
  Qed.
  Hypothesis NT : holes pt <> [].
  Let H : area := multiregion_area (holes pt).
  Definition lo_spec (x : relation) : Prop := (x = OVERLAP /\ loose_overlap T G) \/ (parts_spec T G x /\ (no_touching_holes pt pg -> merged_both_spec T G x)).
  Lemma lo_answer h : areal_spec K H h -> lo_spec (holes_answer br h).
  Proof using VT VG Sbr Hbr Hall NS NT.
    intros S. pose proof (pp_SK pt pg VG NS : shaped K) as SK. pose proof (pp_SH pt VT NT : shaped H) as SH.
    assert (OV : ~ subset (a_cl K) (a_cl H) -> lo_spec OVERLAP).
    { intros N. left. split; [reflexivity|]. apply lo_subs. destruct (sh_not_sub K H SK SH N) as (p & P1 & P2). exists p. split; [exact P1|]. split; [exact (pp_K_in pt pg VT VG NS p P1)|exact P2]. }
    assert (PI : subset (a_cl K) (a_cl H) -> proper_part T G) by exact (pp_in_holes pt pg br VT VG Sbr Hbr Hall NS NT).
    assert (EN : subset (a_cl K) (a_cl H) -> meets (a_on K) (a_on H) -> lo_spec ENCLOSED).
    { intros S1 M. right. split; [exact (PI S1)|intros _; exact (pp_enclosed pt pg VT VG (PI S1) (pp_meets pt pg M))]. }
    unfold holes_answer. destruct h; cbn [relation_eqb orb]; cbn [areal_spec] in S; try (destruct S; fail).
    - apply OV. intros Z. apply S. destruct (sh_some K SK) as (p & Hp). exists p. split; [right; exact Hp|exact (Z p (or_intror Hp))].
    - apply OV. intros Z. exact (proj1 S (sh_sub_in K H SK SH Z)).
    - apply OV. apply S.
    - apply OV. apply S.
    - apply OV. apply S.
    - apply OV. apply S.
    - destruct (sh_some K SK) as (p & Hp). assert (Q : (if relation_eqb br WITHIN then ENCLOSED else br) = ENCLOSED) by (destruct Hbr as [-> | ->]; reflexivity). rewrite Q.
      apply EN; [intros q; apply S|exists p; split; [exact Hp|exact (sh_equal_on K H SK SH S p Hp)]].
    - destruct (sh_some K SK) as (p & Hp). apply EN; [apply S|exists p; split; [exact Hp|exact (proj2 S p Hp)]].
    - apply EN; apply S.
    - right. destruct S as [[S1 _] S3]. pose proof (PI S1) as PP. split; [destruct Hbr as [E|E]; rewrite E; exact PP|]. intros NTH.
      destruct Hbr as [W|W]; [|rewrite W; exact (pp_enclosed pt pg VT VG PP (pp_encloses pt pg br Sbr W))]. rewrite W. split; [exact PP|]. intros (p & P1 & P2). pose proof (pa_sub pt VT p (or_intror P1)) as L.
      destruct P2 as [P2|(h & I & P2)]; [exact (pp_within pt pg br VT VG Sbr Hbr p W L P2)|]. destruct (kept (rel h)) eqn:E.
      + assert (O : a_on K p) by (exists h; split; [apply filter_In; auto|exact P2]). destruct (S1 p (or_intror O)) as [Q|Q]; [|apply S3; exists p; auto]. exact (pa_H_in pt VT p Q (or_intror P1)).
      + pose proof (pp_S pt pg VT VG h I) as Sh. destruct (pp_aside pt pg VT VG Hall h I E) as [[Z|Z] _]; rewrite Z in Sh; [exact (NTH h I Sh)|]. apply Sh. exists p. split; [right; exact P2|exact L].
  Qed.
End Inner.
Lemma inner_always pt pg br tb : valid_polygon pt -> valid_polygon pg -> areal_spec (region_area (border pt)) (region_area (border pg)) br -> br = WITHIN \/ br = ENCLOSED ->
  contour_box (border pt) = Ok tb ->
  exists x, polygon_holes_result br WITHIN ENCLOSED (border pt) tb (holes pg) (holes pt) = Ok x /\ lo_spec pt pg x.
Proof.
  intros VT VG S Hbr Eb. unfold polygon_holes_result.
  destruct (holes_loop (border pt) tb (holes pg) (pg_border pt VT) Eb (proj1 (pg_holes pg VG)) true []) as [(h & x & I & -> & Hx)|[-> Hall]]; cbn [bind andb app].
  - exists x. split; [reflexivity|]. destruct Hx as [[E ->]|[[E ->]|[E ->]]].
    + left. split; [reflexivity|]. exact (lo_overlap pt pg br VT VG S Hbr h I E).
    + right. pose proof (pp_disjoint pt pg VT VG h I E) as A. split; [exact A|intros _; exact A].
    + right. pose proof (pp_touch pt pg VT VG h I E) as A. split; [exact A|intros _; exact A].
  - set (subs := filter (fun h => kept (rel_of (border pt) h)) (holes pg)). assert (SD : subs = [] \/ subs <> []) by (destruct subs; [left; reflexivity|right; discriminate]). destruct SD as [SD|SD].
    + pose proof (pp_no_subs pt pg br VT VG S Hbr Hall SD) as A. rewrite SD. eexists. split; [reflexivity|]. right. split; [exact (merged_both_parts _ _ _ A)|intros _; exact A].
    + assert (EQ : (if Nat.eqb (length subs) (length (holes pg)) then holes pg else subs) = subs).
      { destruct (Nat.eqb_spec (length subs) (length (holes pg))) as [L|L]; [|reflexivity]. symmetry. exact (proj1 (filter_length_all _ (holes pg) L)). }
      assert (TD : holes pt = [] \/ holes pt <> []) by (destruct (holes pt); [left; reflexivity|right; discriminate]). destruct TD as [TD|TD].
      * pose proof (lo_bare pt pg br VT VG S Hbr SD TD) as A. rewrite TD. destruct subs as [|s subs'] eqn:Es; [congruence|]. cbv beta iota zeta. cbn [nonempty bind relation_eqb orb].
        exists OVERLAP. split; [reflexivity|]. left. auto.
      * pose proof (multiregion_in_multiregion_exact_l subs (holes pt) (mr_filter _ _ (pg_holes pg VG)) (pg_holes pt VT) SD TD) as (h & Eh & Sh & _). unfold multiregion_in_multiregion in Eh.
        pose proof (lo_answer pt pg br VT VG S Hbr Hall SD TD h Sh) as A. replace (nonempty (holes pt)) with true by (destruct (holes pt); [congruence|reflexivity]).
        destruct subs as [|s subs'] eqn:Es; [congruence|]. cbv beta iota zeta.
        match goal with |- context [multiregion_relate_multiregion (holes pt) ?x] => replace (multiregion_relate_multiregion (holes pt) x) with (Ok h) by (symmetry; exact (eq_trans (f_equal (multiregion_relate_multiregion (holes pt)) EQ) Eh)) end. cbn [bind].
        exists (holes_answer br h). split; [reflexivity|exact A].
Qed.
Lemma two_loose pt pg : valid_polygon pt -> valid_polygon pg -> areal_spec (region_area (border pt)) (region_area (border pg)) OVERLAP -> loose_overlap (polygon_area pt) (polygon_area pg).
Proof.
  intros VT VG S. pose proof (pg_border pt VT) as BT. pose proof (pg_border pg VG) as BG. destruct (overlap_hits _ _ BT BG S) as (p & P1 & P2). split; [exists p; split; right; left; assumption|].
  destruct S as (_ & N1 & N2). split; intros Z.
  - apply N1. apply (ra_border pt VT (border pg) BG). intros q Hq. exact (pa_sub pg VG q (Z q Hq)).
  - apply N2. apply (ra_border pg VG (border pt) BT). intros q Hq. exact (pa_sub pt VT q (Z q Hq)).
Qed.
Lemma polygon_in_polygon_loose pt pg : valid_polygon pt -> valid_polygon pg ->
  exists x, polygon_in_polygon pt pg = Ok x /\ ((x = OVERLAP /\ loose_overlap (polygon_area pt) (polygon_area pg))
    \/ (parts_spec (polygon_area pt) (polygon_area pg) x /\ (no_touching_holes pt pg -> no_touching_holes pg pt -> merged_both_spec (polygon_area pt) (polygon_area pg) x))).
Proof.
  intros VT VG. pose proof (pg_border pt VT) as BT. pose proof (pg_border pg VG) as BG.
  destruct (box_of _ BT) as (tb & Et). destruct (box_of _ BG) as (gb & Eg).
  unfold polygon_in_polygon, polygon_relate_polygon. unfold polygon_box. rewrite Et, Eg. cbn [bind].
  destruct (region_relate (border pt) (border pg) tb gb BT BG Et Eg) as (br & -> & S & _). cbn [bind].
  assert (Fin : forall x, merged_both_spec (polygon_area pt) (polygon_area pg) x -> exists y, Ok x = Ok y /\ ((y = OVERLAP /\ loose_overlap (polygon_area pt) (polygon_area pg))
    \/ (parts_spec (polygon_area pt) (polygon_area pg) y /\ (no_touching_holes pt pg -> no_touching_holes pg pt -> merged_both_spec (polygon_area pt) (polygon_area pg) y)))).
  { intros x Sx. exists x. split; [reflexivity|]. right. split; [exact (merged_both_parts _ _ x Sx)|intros _ _; exact Sx]. }
  assert (DT : holes pt = [] \/ holes pt <> []) by (destruct (holes pt); [left; reflexivity|right; discriminate]).
  assert (DG : holes pg = [] \/ holes pg <> []) by (destruct (holes pg); [left; reflexivity|right; discriminate]).
  assert (InT : br = WITHIN \/ br = ENCLOSED -> exists x, (if nonempty (holes pg) then polygon_holes_result br WITHIN ENCLOSED (border pt) tb (holes pg) (holes pt)
      else Ok (if nonempty (holes pt) && relation_eqb br COMPONENT then ENCLOSED else br)) = Ok x /\ ((x = OVERLAP /\ loose_overlap (polygon_area pt) (polygon_area pg))
      \/ (parts_spec (polygon_area pt) (polygon_area pg) x /\ (no_touching_holes pt pg -> no_touching_holes pg pt -> merged_both_spec (polygon_area pt) (polygon_area pg) x)))).
  { intros Hbr. destruct DG as [DG|DG].
    - rewrite DG. cbn [nonempty]. replace (if nonempty (holes pt) && relation_eqb br COMPONENT then ENCLOSED else br) with br by (destruct Hbr as [-> | ->]; rewrite andb_false_r; reflexivity).
      apply Fin. exact (inner_bare pt pg br VT VG S Hbr DG).
    - replace (nonempty (holes pg)) with true by (destruct (holes pg); [congruence|reflexivity]).
      destruct (inner_always pt pg br tb VT VG S Hbr Et) as (x & Ex & [P|[P1 P2]]); exists x; (split; [exact Ex|]); [left; exact P|right]. split; [exact P1|]. intros N _. exact (P2 N). }
  assert (InG : br = COVER \/ br = ENCLOSES -> exists x, (if nonempty (holes pt) then polygon_holes_result br COVER ENCLOSES (border pg) gb (holes pt) (holes pg)
      else Ok (if nonempty (holes pg) && relation_eqb br COMPOSITE then ENCLOSES else br)) = Ok x /\ ((x = OVERLAP /\ loose_overlap (polygon_area pt) (polygon_area pg))
      \/ (parts_spec (polygon_area pt) (polygon_area pg) x /\ (no_touching_holes pt pg -> no_touching_holes pg pt -> merged_both_spec (polygon_area pt) (polygon_area pg) x)))).
  { intros Hbr. pose proof (areal_spec_swap _ _ _ S) as S'. assert (Hbr' : complement br = WITHIN \/ complement br = ENCLOSED) by (destruct Hbr as [-> | ->]; auto).
    destruct DT as [DT|DT].
    - rewrite DT. cbn [nonempty]. replace (if nonempty (holes pg) && relation_eqb br COMPOSITE then ENCLOSES else br) with br by (destruct Hbr as [-> | ->]; rewrite andb_false_r; reflexivity).
      apply Fin. rewrite <- (complement_involutive br). apply merged_both_swap. exact (inner_bare pg pt _ VG VT S' Hbr' DT).
    - replace (nonempty (holes pt)) with true by (destruct (holes pt); [congruence|reflexivity]).
      destruct (inner_always pg pt _ gb VG VT S' Hbr' Eg) as (x & Ex & P). exists (complement x). rewrite <- (complement_involutive br) at 1. rewrite (holes_result_swap _ _ _ _ _ Hbr'), Ex. cbn [bind].
      split; [reflexivity|]. destruct P as [[-> P]|[P1 P2]]; [left; split; [reflexivity|exact (loose_swap _ _ P)]|right]. split; [exact (parts_swap _ _ _ P1)|]. intros _ N. exact (merged_both_swap _ _ _ (P2 N)). }
  destruct br; cbn [rel_in existsb relation_eqb orb]; try (destruct S; fail).
  - apply Fin. exact (two_apart pt pg VT VG DISJOINT (or_introl eq_refl) S).
  - apply Fin. exact (two_apart pt pg VT VG TOUCH (or_intror eq_refl) S).
  - exists OVERLAP. split; [reflexivity|]. left. split; [reflexivity|exact (two_loose pt pg VT VG S)].
  - apply InG. auto.
  - apply InG. auto.
  - exfalso. exact (no_proper_composite _ _ BT BG S).
  - destruct (equal_result pt pg VT VG S) as (x & Ex & Sx). exists x. split; [exact Ex|]. right. split; [exact (merged_both_parts _ _ x Sx)|intros _ _; exact Sx].
  - exfalso. exact (no_proper_component _ _ BT BG S).
  - apply InT. auto.
  - apply InT. auto.
Qed.
Lemma loose_cases A B : shaped A -> shaped B -> loose_overlap A B -> areal_spec A B OVERLAP \/ areal_spec A B TOUCH.
Proof.
  intros SA SB ((p & P1 & P2) & N). destruct (sh_decide A B SA SB) as (_ & [M|M] & _); [left; exact (conj M N)|right]. split; [exact M|]. exists p.
  destruct P1 as [P1|P1], P2 as [P2|P2]; [destruct M; exists p; auto| | |auto]; destruct M.
  - destruct (sh_beside B A SB SA p true true P2 P1) as (q & Q1 & Q2). exists q. auto.
  - destruct (sh_beside A B SA SB p true true P1 P2) as (q & Q1 & Q2). exists q. auto.
Qed.
Lemma polygon_in_polygon_always_l pt pg : valid_polygon pt -> valid_polygon pg ->
  exists rel, polygon_in_polygon pt pg = Ok rel
    /\ (parts_spec (polygon_area pt) (polygon_area pg) rel /\ (no_touching_holes pt pg -> no_touching_holes pg pt -> merged_both_spec (polygon_area pt) (polygon_area pg) rel)
        \/ (rel = OVERLAP /\ areal_spec (polygon_area pt) (polygon_area pg) TOUCH
            /\ ~ (clear_border (polygon_boundary pt) pg /\ clear_border (polygon_boundary pg) pt))).
Proof.
  intros VT VG. destruct (polygon_in_polygon_loose pt pg VT VG) as (x & E & [[-> L]|H]); [|exists x; auto].
  pose proof (shaped_polygon pt VT) as ST. pose proof (shaped_polygon pg VG) as SG. exists OVERLAP. split; [exact E|]. destruct (loose_cases _ _ ST SG L) as [O|O]; [left; split; [exact O|intros _ _; exact O]|right].
  split; [reflexivity|]. split; [exact O|]. intros [C1 C2]. destruct (polygon_in_polygon_l pt pg VT VG C1 C2) as (y & Ey & P & _). rewrite E in Ey. injection Ey as <-. exact (proj1 O (proj1 P)).
Qed.
(** * What the answers say in any case *)
Lemma parts_of A B x y : shaped A -> shaped B -> parts_spec A B x -> areal_spec A B y -> (x <> WITHIN -> x <> ENCLOSED -> x <> COVER -> x <> ENCLOSES -> x = y)
  /\ (x = WITHIN \/ x = ENCLOSED -> proper_part A B) /\ (x = COVER \/ x = ENCLOSES -> proper_part B A).
Proof.
  intros SA SB Px Sy. split; [|split; [intros [-> | ->]; exact Px|intros [-> | ->]; exact Px]]. intros N1 N2 N3 N4.
  assert (Sx : areal_spec A B x) by (destruct x; cbn [parts_spec merged_both_spec merged_spec] in Px; try congruence; try exact Px; destruct Px).
  destruct (sh_of A B SA SB x Sx) as (z & Ez & _ & U). injection Ez as ->. symmetry. exact (U y Sy).
Qed.
Lemma polygon_in_polygon_facts_l pt pg : valid_polygon pt -> valid_polygon pg ->
  let T := polygon_area pt in let G := polygon_area pg in
  (polygon_in_polygon pt pg = Ok DISJOINT <-> areal_spec T G DISJOINT)
  /\ (polygon_in_polygon pt pg = Ok EQUAL <-> areal_spec T G EQUAL)
  /\ (polygon_in_polygon pt pg = Ok WITHIN \/ polygon_in_polygon pt pg = Ok ENCLOSED <-> proper_part T G)
  /\ (polygon_in_polygon pt pg = Ok COVER \/ polygon_in_polygon pt pg = Ok ENCLOSES <-> proper_part G T)
  /\ (polygon_in_polygon pt pg = Ok TOUCH -> areal_spec T G TOUCH)
  /\ (areal_spec T G OVERLAP -> polygon_in_polygon pt pg = Ok OVERLAP).
Proof.
  intros VT VG T G. pose proof (shaped_polygon pt VT : shaped T) as ST. pose proof (shaped_polygon pg VG : shaped G) as SG.
  destruct (sh_total T G ST SG) as (y & Sy). destruct (sh_of T G ST SG y Sy) as (z & Ez & _ & U). injection Ez as <-.
  assert (PT : proper_part T G -> y = WITHIN \/ y = ENCLOSED \/ y = COMPONENT).
  { intros Pp. destruct (sh_decide T G ST SG) as (_ & _ & [M|M] & _); [|left; symmetry; apply U; exact (conj Pp M)]. right. destruct (sh_on_sub T G ST SG) as [Z|Z]; [right|left]; symmetry; apply U; [exact (conj Pp Z)|exact (conj Pp (conj M Z))]. }
  assert (PG : proper_part G T -> y = COVER \/ y = ENCLOSES \/ y = COMPOSITE).
  { intros Pp. destruct (sh_decide G T SG ST) as (_ & _ & [M|M] & _); [|left; symmetry; apply U; exact (conj Pp M)]. right. destruct (sh_on_sub G T SG ST) as [Z|Z]; [right|left]; symmetry; apply U; [exact (conj Pp Z)|exact (conj Pp (conj M Z))]. }
  assert (Un : forall rel, areal_spec T G rel <-> y = rel) by (intros rel; split; [intros S; symmetry; exact (U rel S)|intros <-; exact Sy]).
  rewrite !Un. fold T G in PT, PG.
  destruct (polygon_in_polygon_always_l pt pg VT VG) as (x & -> & [[Px _]|(-> & O & _)]); [fold T G in Px|fold T G in O].
  - destruct (parts_of T G x y ST SG Px Sy) as (H1 & H2 & H3). 
    assert (Eq : forall r : relation, (Ok x = Ok r) <-> x = r) by (intros r; split; [intros Z; injection Z; auto|intros ->; reflexivity]). rewrite !Eq. clear Eq.
    assert (D : x = WITHIN \/ x = ENCLOSED \/ x = COVER \/ x = ENCLOSES \/ x = y) by (destruct x; try (right; right; right; right; apply H1; discriminate); auto 6).
    assert (E1 : proper_part T G -> proper_part G T -> False) by (intros [A _] [_ B]; exact (B A)).
    destruct D as [D|[D|[D|[D|D]]]]; rewrite D in *.
    1,2: pose proof (H2 ltac:(auto)) as Pp; specialize (PT Pp); (split; [|split; [|split; [|split; [|split]]]]); try (split; intros Z); try intros Z; try discriminate Z; auto; try (destruct PT as [PT|[PT|PT]]; congruence); try (destruct (E1 Pp Z)); destruct Z; discriminate.
    1,2: pose proof (H3 ltac:(auto)) as Pp; specialize (PG Pp); (split; [|split; [|split; [|split; [|split]]]]); try (split; intros Z); try intros Z; try discriminate Z; auto; try (destruct PG as [PG|[PG|PG]]; congruence); try (destruct (E1 Z Pp)); destruct Z; discriminate.
    clear D. split; [reflexivity|]. split; [reflexivity|]. split; [split; [exact H2|]|split; [split; [exact H3|]|split; auto]].
    + intros Z. destruct (PT Z) as [Q|[Q|Q]]; rewrite Q in *; auto. destruct Px.
    + intros Z. destruct (PG Z) as [Q|[Q|Q]]; rewrite Q in *; auto. destruct Px.
  - apply Un in O. rewrite O in *. split; [split; discriminate|]. split; [split; discriminate|]. split; [split; [intros [Z|Z]; discriminate|intros Z; destruct (PT Z) as [Q|[Q|Q]]; discriminate]|].
    split; [split; [intros [Z|Z]; discriminate|intros Z; destruct (PG Z) as [Q|[Q|Q]]; discriminate]|]. split; [reflexivity|discriminate].
Qed.
Lemma multiregion_in_polygon_facts_l rs pg rel : valid_multiregion rs -> rs <> [] -> valid_polygon pg -> In rel [DISJOINT; TOUCH; WITHIN; COVER] ->
  (multiregion_in_polygon rs pg = Ok rel <-> areal_spec (multiregion_area rs) (polygon_area pg) rel).
Proof.
  intros VR NR V I. pose proof (shaped_multiregion rs VR NR) as SR. pose proof (shaped_polygon pg V) as SP.
  assert (Ms : merged_spec (multiregion_area rs) (polygon_area pg) rel = areal_spec (multiregion_area rs) (polygon_area pg) rel) by (destruct I as [<-|[<-|[<-|[<-|[]]]]]; reflexivity).
  destruct (multiregion_in_polygon_always_l rs pg VR NR V) as [(x & -> & Sx & U)|[CT H]].
  - rewrite <- Ms. split; [intros Z; injection Z as <-; exact Sx|intros Z; rewrite (U rel Z); reflexivity].
  - pose proof (tg_meets pg rs V VR NR CT) as M. split.
    + destruct H as [[-> _]|[-> _]]; intros Z; injection Z as <-; destruct I as [I|[I|[I|[I|[]]]]]; discriminate.
    + intros Z. exfalso. destruct CT as [C1 C2]. destruct M as (m & M1 & M2). destruct I as [<-|[<-|[<-|[<-|[]]]]].
      * apply Z. exists m. split; left; assumption.
      * apply (proj1 Z). exists m. auto.
      * apply (proj2 (proj1 Z) C1).
      * destruct Z as [_ N]. pose proof (pg_border pg V) as B.
        destruct (in_one (border pg) rs B VR) as (r & I & S).
        { intros p Hp. destruct (C1 p (or_intror (or_introl Hp))) as [K|K]; [exact K|]. destruct N. exists p. split; [left; exact Hp|exact K]. }
        apply (C2 r I). pose proof (mr_simple rs r VR I) as R. apply (enclosed_sub (border pg) r B R). intros (p & P1 & P2). exact (inside_not_outside r p R (S p P1) P2).
Qed.
