(* Multiregions and a polygon. *)
From Coq Require Import QArith Qcanon List Bool ZArith Lia Permutation.
From Verif Require Import Scalar Base Ground MLinear MSweep MCompound Planar Spec SpecAreas Geom RayParity SegProofs BoxProofs PointProofs EqualProofs
  NoFail OpenProofs Orient Area AreaAnswer Drawn Gather Cover Sector AreaQueries ClosedProofs Polygons Inner PolyQueries Areas PolyArea Pieces PolyLine.
Import ListNotations.
Open Scope Qc_scope.

(* The relation of a region to a border, as a function. *)
Definition rel_of (b r : contour) : relation := match region_in_region r b with Ok x => x | Raise _ => CROSS end.
Lemma rel_of_spec b r : simple_contour b -> simple_contour r -> areal_spec (region_area r) (region_area b) (rel_of b r).
Proof. intros B R. destruct (region_in_region_exact_l r b R B) as (x & E & S & _). unfold rel_of. rewrite E. exact S. Qed.
Lemma rel_of_run b r bb rb : simple_contour b -> simple_contour r -> contour_box b = Ok bb -> contour_box r = Ok rb -> region_relate_region_ b r bb rb = Ok (rel_of b r).
Proof.
  intros B R Eb Er. destruct (region_in_region_exact_l r b R B) as (x & E & _). unfold rel_of. rewrite E. unfold region_in_region, region_relate_region in E. rewrite Eb, Er in E. exact E.
Qed.
Definition kept (rel : relation) : bool := rel_in rel [ENCLOSED; COMPONENT; WITHIN].
Definition aside (rel : relation) : bool := relation_eqb rel TOUCH || relation_eqb rel DISJOINT.
Definition contacts (rel : relation) : bool := rel_in rel [TOUCH; ENCLOSED; COMPONENT].
Lemma box_of r : simple_contour r -> exists rb, contour_box r = Ok rb.
Proof. intros R. destruct (contour_box_tight _ (simple_nonempty r R)) as (rb & Er & _). exists rb. exact Er. Qed.
Lemma multiregion_loop b bb rs : simple_contour b -> contour_box b = Ok bb -> Forall simple_contour rs -> forall nt subs,
  (exists r rel, In r rs /\ polygon_multiregion_loop b bb rs nt subs = Ok (inl rel)
    /\ ((rel = rel_of b r /\ rel_in rel [OVERLAP; COVER; ENCLOSES] = true) \/ (rel = ENCLOSES /\ rel_in (rel_of b r) [COMPOSITE; EQUAL] = true)))
  \/ (polygon_multiregion_loop b bb rs nt subs = Ok (inr (nt && forallb (fun r => negb (contacts (rel_of b r))) rs, subs ++ filter (fun r => kept (rel_of b r)) rs))
    /\ forall r, In r rs -> kept (rel_of b r) = true \/ aside (rel_of b r) = true).
Proof.
  intros B Eb. induction rs as [|r rs IH]; intros F nt subs; cbn [polygon_multiregion_loop].
  - right. cbn. rewrite andb_true_r, app_nil_r. split; [reflexivity|intros r []].
  - inversion F as [|x y R Fs]; subst. specialize (IH Fs). destruct (box_of r R) as (rb & Er). rewrite Er. cbn [bind]. rewrite (rel_of_run b r bb rb B R Eb Er). cbn [bind].
    pose proof (rel_of_spec b r B R) as S. cbn [forallb filter].
    assert (Next : forall nt' subs', polygon_multiregion_loop b bb (r :: rs) nt subs = polygon_multiregion_loop b bb rs nt' subs' -> kept (rel_of b r) = true \/ aside (rel_of b r) = true ->
      nt' = nt && negb (contacts (rel_of b r)) -> subs' = subs ++ (if kept (rel_of b r) then [r] else []) ->
      (exists r0 rel, In r0 (r :: rs) /\ polygon_multiregion_loop b bb rs nt' subs' = Ok (inl rel)
        /\ ((rel = rel_of b r0 /\ rel_in rel [OVERLAP; COVER; ENCLOSES] = true) \/ (rel = ENCLOSES /\ rel_in (rel_of b r0) [COMPOSITE; EQUAL] = true)))
      \/ (polygon_multiregion_loop b bb rs nt' subs' = Ok (inr (nt && (negb (contacts (rel_of b r)) && forallb (fun r => negb (contacts (rel_of b r))) rs),
            subs ++ (if kept (rel_of b r) then r :: filter (fun r => kept (rel_of b r)) rs else filter (fun r => kept (rel_of b r)) rs)))
        /\ forall r0, In r0 (r :: rs) -> kept (rel_of b r0) = true \/ aside (rel_of b r0) = true)).
    { intros nt' subs' _ K Hn Hs. destruct (IH nt' subs') as [(r0 & rel & I & E & H)|[E H]]; [left; exists r0, rel; split; [right; exact I|auto]|right].
      split; [|intros r0 [<-|I]; [exact K|exact (H r0 I)]]. rewrite E, Hn, Hs, andb_assoc. rewrite <- app_assoc. destruct (kept (rel_of b r)); reflexivity. }
    clear IH. revert Next. cbn [polygon_multiregion_loop]. rewrite Er. cbn [bind]. rewrite (rel_of_run b r bb rb B R Eb Er). cbn [bind]. intros Next.
    destruct (rel_of b r) eqn:Q; try (destruct S; fail); cbn [relation_eqb rel_in existsb orb andb negb kept aside contacts] in *;
      try (left; exists r; eexists; split; [left; reflexivity|]; split; [reflexivity|rewrite Q; cbn; auto]; fail);
      (apply Next; [reflexivity|cbn; auto|cbn; rewrite ?andb_true_r, ?andb_false_r; reflexivity|cbn; rewrite ?app_nil_r; reflexivity]).
Qed.
Lemma filter_le {A} (f : A -> bool) l : (length (filter f l) <= length l)%nat.
Proof. induction l as [|x l IH]; cbn [filter length]; [lia|]. destruct (f x); cbn [length]; lia. Qed.
Lemma filter_length_all {A} (f : A -> bool) l : length (filter f l) = length l -> filter f l = l /\ forall x, In x l -> f x = true.
Proof.
  induction l as [|x l IH]; [split; [reflexivity|intros x []]|]. cbn [filter]. destruct (f x) eqn:E; cbn [length].
  - intros H. injection H as H. destruct (IH H) as [H1 H2]. split; [rewrite H1; reflexivity|intros y [<-|I]; auto].
  - intros H. pose proof (filter_le f l). lia.
Qed.
Lemma filter_short {A} (f : A -> bool) l : length (filter f l) <> length l -> exists x, In x l /\ f x = false.
Proof.
  induction l as [|x l IH]; cbn [filter length]; [congruence|]. destruct (f x) eqn:E; [|exists x; cbn; auto]. cbn [length]. intros H. destruct IH as (y & I & Y); [lia|]. exists y. cbn. auto.
Qed.
Lemma filter_empty {A} (f : A -> bool) l : filter f l = [] -> forall x, In x l -> f x = false.
Proof. intros E x I. destruct (f x) eqn:K; [|reflexivity]. assert (Z : In x (filter f l)) by (apply filter_In; auto). rewrite E in Z. destruct Z. Qed.

Lemma list_meets (B : area) (f : contour -> bool) rs : shaped B -> Forall simple_contour rs ->
  (exists r, In r rs /\ f r = true /\ meets (inside r) (a_in B)) \/ ~ (exists r, In r rs /\ f r = true /\ meets (inside r) (a_in B)).
Proof.
  intros SB. induction rs as [|r rs IH]; intros F; [right; intros (r & [] & _)|]. inversion F as [|x y R Fs]; subst. destruct (IH Fs) as [(r' & I & H)|N]; [left; exists r'; cbn; auto|].
  destruct (f r) eqn:E; [|right; intros (r' & [<-|I] & E' & H); [congruence|apply N; exists r'; auto]].
  destruct (sh_decide (region_area r) B (shaped_region r R) SB) as (_ & [D|D] & _); [left; exists r; cbn; auto|right]. intros (r' & [<-|I] & E' & H); [exact (D H)|apply N; exists r'; auto].
Qed.
Section Cov.
  Variable (pg : polygon) (rs : multiregion).
  Hypothesis (V : valid_polygon pg) (VR : valid_multiregion rs) (NR : rs <> []) (Cl : clear_border (on_contours rs) pg).
  Let B : area := region_area (border pg).
  Let P : area := polygon_area pg.
  Let RS : area := multiregion_area rs.
  (* If the polygon is covered, then by one of the regions. *)
  Lemma covered_by_one : subset (a_cl P) (a_cl RS) -> exists r, In r rs /\ subset (a_cl B) (a_cl (region_area r)).
  Proof using V VR NR Cl.
    intros S. pose proof (shaped_polygon pg V) as SP. pose proof (shaped_multiregion rs VR NR) as SR. pose proof (shaped_region _ (pg_border pg V)) as SB.
    assert (N0 : forall p, a_on RS p -> a_in P p -> False).
    { intros p P1 P2. destruct (sh_beside RS P SR SP p true false P1 P2) as (q & Q1 & Q2). exact (sh_cl_out RS q SR (S q (or_introl Q2)) Q1). }
    set (f := fun r => match contour_in_region r (border pg) with Ok WITHIN => true | _ => false end).
    assert (Ft : forall r, In r rs -> f r = true -> subset (on_contour r) (inside (border pg))).
    { intros r I. destruct (contour_in_region_exact_l r (border pg) (mr_simple rs r VR I) (pg_border pg V)) as (x & E & X & _). unfold f. rewrite E. destruct x; try discriminate. intros _. exact X. }
    assert (Ff : forall r, In r rs -> f r = false -> exists p, on_contour r p /\ ~ inside (border pg) p).
    { intros r I. destruct (sh_some _ (shaped_region r (mr_simple rs r VR I))) as (p & Hp).
      destruct (contour_in_region_exact_l r (border pg) (mr_simple rs r VR I) (pg_border pg V)) as (x & E & X & _). unfold f. rewrite E. destruct x; try discriminate; try (destruct X; fail); intros _.
      - exists p. split; [exact Hp|]. intros Z. exact (sh_in_out B p SB Z (X p Hp)).
      - destruct X as (_ & (q & Q1 & Q2) & _). exists q. split; [exact Q1|]. intros Z. exact (sh_in_on B q SB Z Q2).
      - destruct X as (_ & (q & Q1 & Q2)). exists q. split; [exact Q1|]. intros Z. exact (sh_in_out B q SB Z Q2).
      - exists p. split; [exact Hp|]. intros Z. exact (sh_in_on B p SB Z (X p Hp)).
      - destruct X as (_ & _ & (q & Q1 & Q2)). exists q. split; [exact Q1|]. intros Z. exact (sh_in_on B q SB Z Q2). }
    assert (G : exists r, In r rs /\ f r = false /\ meets (inside r) (a_in P)).
    { destruct (list_meets P (fun r => negb (f r)) rs SP (proj1 VR)) as [(r & I & E & M)|N]; [exists r; split; [exact I|]; split; [destruct (f r); [discriminate|reflexivity]|exact M]|exfalso].
      assert (Q : exists q, a_in P q /\ forall r, In r rs -> f r = true -> outside r q).
      { set (G := filter f rs). assert (GD : G = [] \/ G <> []) by (destruct G; [left; reflexivity|right; discriminate]). destruct GD as [GD|GD].
        - destruct (sh_inner P SP) as (q & Hq). exists q. split; [exact Hq|]. intros r I E. rewrite (filter_empty f rs GD r I) in E. discriminate.
        - pose proof (shaped_multiregion G (mr_filter rs f VR) GD) as SG. destruct (sh_some B SB) as (b & Hb).
          assert (O : a_out (multiregion_area G) b).
          { intros r I. apply filter_In in I. destruct I as [I E]. pose proof (mr_simple rs r VR I) as R. specialize (Ft r I E).
            assert (RB : subset (a_cl (region_area r)) (a_cl B)) by (apply enclosed_sub; [exact R|exact (pg_border pg V)|]; intros (p & P1 & P2); exact (sh_in_out B p SB (Ft p P1) P2)).
            destruct (in_cases r b) as [K|[K|K]]; [exfalso|exfalso|exact K].
            - exact (sh_in_on B b SB (sh_in _ B (shaped_region r R) SB b RB K) Hb).
            - exact (sh_in_on B b SB (Ft b K) Hb). }
          destruct (sh_beside P (multiregion_area G) SP SG b false true (or_introl Hb) O) as (q & Q1 & Q2). exists q. split; [exact Q1|]. intros r I E. apply Q2. apply filter_In. auto. }
      destruct Q as (q & Q1 & Q2). destruct (S q (or_introl Q1)) as [(r & I & K)|K]; [|exact (N0 q K Q1)].
      destruct (f r) eqn:E; [exact (inside_not_outside r q (mr_simple rs r VR I) K (Q2 r I E))|]. apply N. exists r. split; [exact I|]. rewrite E. split; [reflexivity|]. exists q. auto. }
    destruct G as (r & I & E & (q & Q1 & Q2)). pose proof (mr_simple rs r VR I) as R. exists r. split; [exact I|].
    apply (inner_part (border pg) r (pg_border pg V) R); [|exists q; split; [exact (proj1 Q2)|exact Q1]].
    intros M. destruct (contour_through pg V r) as (p & P1 & P2); [|exact M|exact (Ff r I E)|apply (N0 p); [exists r; auto|exact P2]].
    intros h p J Hp. apply (Cl h p J). exists r. auto.
  Qed.
End Cov.

Section Multi.
  Variable (pg : polygon) (rs : multiregion).
  Hypothesis (V : valid_polygon pg) (VR : valid_multiregion rs) (NR : rs <> []) (NH : holes pg <> []).
  Let B : area := region_area (border pg).
  Let H : area := multiregion_area (holes pg).
  Let P : area := polygon_area pg.
  Let RS : area := multiregion_area rs.
  Local Notation rel := (rel_of (border pg)).
  Lemma mp_SB : shaped B. Proof using V. exact (shaped_region _ (pg_border pg V)). Qed.
  Lemma mp_SP : shaped P. Proof using V. exact (shaped_polygon pg V). Qed.
  Lemma mp_SH : shaped H. Proof using V NH. exact (shaped_multiregion _ (pg_holes pg V) NH). Qed.
  Lemma mp_SR : shaped RS. Proof using VR NR. exact (shaped_multiregion rs VR NR). Qed.
  Lemma mp_r r : In r rs -> simple_contour r. Proof using VR. exact (mr_simple rs r VR). Qed.
  Lemma mp_S r : In r rs -> areal_spec (region_area r) B (rel r).
  Proof using V VR. intros I. exact (rel_of_spec _ r (pg_border pg V) (mp_r r I)). Qed.
  Lemma mp_in r p : In r rs -> inside r p -> a_in RS p. Proof using Type. intros I K. exists r. auto. Qed.
  Lemma mp_cl r p : In r rs -> a_cl (region_area r) p -> a_cl RS p.
  Proof using Type. intros I [K|K]; [left|right]; exists r; auto. Qed.
  (* Points in a region are not on another one. *)
  Lemma mp_apart r p : In r rs -> inside r p -> on_contours rs p -> False.
  Proof using VR NR. intros I K O. exact (sh_in_on RS p mp_SR (mp_in r p I K) O). Qed.
  Lemma mp_found r x : In r rs -> ((x = rel r /\ rel_in x [OVERLAP; COVER; ENCLOSES] = true) \/ (x = ENCLOSES /\ rel_in (rel r) [COMPOSITE; EQUAL] = true)) ->
    (subset (a_cl P) (a_cl RS) -> exists r, In r rs /\ subset (a_cl B) (a_cl (region_area r))) -> areal_spec RS P x.
  Proof using V VR NR NH.
    intros I Hx Cov. pose proof (mp_S r I) as S. pose proof (mp_r r I) as R. pose proof (shaped_region r R) as SA.
    assert (SA' : areal_spec (region_area r) P x).
    { destruct Hx as [[-> K]|[-> K]].
      - apply (ra_outer pg V r R (rel r) S). destruct (rel r); try discriminate; reflexivity.
      - destruct (rel r) eqn:E; try discriminate; [exfalso; exact (no_proper_composite _ _ R (pg_border pg V) S)|]. exact (ra_equal pg V NH r R S). }
    assert (Kx : rel_in x [OVERLAP; COVER; ENCLOSES] = true) by (destruct Hx as [[_ K]|[-> _]]; [exact K|reflexivity]).
    assert (NRP : ~ subset (a_cl (region_area r)) (a_cl P) -> ~ subset (a_cl RS) (a_cl P)) by (intros N Z; apply N; intros p Hp; apply Z, (mp_cl r p I Hp)).
    assert (PRS : subset (a_cl P) (a_cl (region_area r)) -> subset (a_cl P) (a_cl RS)) by (intros Z p Hp; apply (mp_cl r p I), Z, Hp).
    destruct x; try discriminate; cbn [areal_spec] in *.
    - destruct SA' as ((p & P1 & P2) & N1 & N2). split; [exists p; split; [exact (mp_in r p I P1)|exact P2]|]. split; [exact (NRP N1)|]. intros Z.
      destruct (Cov Z) as (r' & I' & Q). destruct (mr_two rs r r' VR I I') as [E|[A _]].
      + subst r'. apply N2. intros q Hq. exact (Q q (pa_sub pg V q Hq)).
      + apply (A p P1). apply (sh_in B _ mp_SB (shaped_region r' (mp_r r' I')) p Q). exact (proj1 P2).
    - destruct SA' as ((S1 & S2) & S3). split; [exact (conj (PRS S1) (NRP S2))|]. intros (p & P1 & P2). destruct (S1 p (or_intror P1)) as [K|K]; [exact (mp_apart r p I K P2)|apply S3; exists p; auto].
    - destruct SA' as ((S1 & S2) & (p & P1 & P2) & S4). split; [exact (conj (PRS S1) (NRP S2))|]. split; [exists p; split; [exact P1|exists r; auto]|].
      intros Z. apply S4. intros q Hq. destruct (S1 q (or_intror Hq)) as [K|K]; [exfalso; exact (mp_apart r q I K (Z q Hq))|exact K].
  Qed.
  (* Hall of the regions are parts of the border or aside. *)
  Hypothesis (Hall : forall r, In r rs -> kept (rel r) = true \/ aside (rel r) = true).
  Let subs : multiregion := filter (fun r => kept (rel r)) rs.
  Let K : area := multiregion_area subs.
  Lemma mp_kept r : In r rs -> kept (rel r) = true -> (rel r = WITHIN \/ rel r = ENCLOSED) /\ proper_part (region_area r) B.
  Proof using V VR.
    intros I E. pose proof (mp_S r I) as S. destruct (rel r) eqn:Q; try discriminate; [exfalso; exact (no_proper_component _ _ (mp_r r I) (pg_border pg V) S)|split; [auto|apply S]|split; [auto|apply S]].
  Qed.
  Lemma mp_aside r : In r rs -> kept (rel r) = false -> (rel r = TOUCH \/ rel r = DISJOINT) /\ ~ meets (inside r) (inside (border pg)).
  Proof using V VR Hall.
    intros I E. pose proof (mp_S r I) as S. destruct (Hall r I) as [Z|Z]; [congruence|]. destruct (rel r) eqn:Q; try discriminate.
    - split; [auto|]. intros (p & P1 & P2). apply S. exists p. split; left; assumption.
    - split; [auto|apply S].
  Qed.
  Lemma mp_off r p : In r rs -> kept (rel r) = false -> a_cl (region_area r) p -> inside (border pg) p -> False.
  Proof using V VR Hall.
    intros I E Hp Hb. destruct (mp_aside r I E) as [_ N]. apply N. destruct Hp as [Hp|Hp]; [exists p; auto|].
    destruct (sh_beside (region_area r) B (shaped_region r (mp_r r I)) mp_SB p true true Hp Hb) as (q & Q1 & Q2). exists q. auto.
  Qed.
  Lemma mp_sub_RS p : a_cl K p -> a_cl RS p.
  Proof using Type. intros [(r & I & L)|(r & I & L)]; apply filter_In in I; [left|right]; exists r; (split; [apply I|exact L]). Qed.
  Lemma mp_KB : subset (a_cl K) (a_cl B).
  Proof using V VR. intros p [(r & I & L)|(r & I & L)]; apply filter_In in I; destruct I as [I E]; apply (proj1 (proj2 (mp_kept r I E)) p); [left|right]; exact L. Qed.
  Lemma mp_RK p : a_cl RS p -> inside (border pg) p -> a_cl K p.
  Proof using V VR Hall.
    intros Hp Hb. assert (G : exists r, In r rs /\ a_cl (region_area r) p) by (destruct Hp as [(r & I & L)|(r & I & L)]; exists r; (split; [exact I|]); [left|right]; exact L).
    destruct G as (r & I & L). destruct (kept (rel r)) eqn:E; [|destruct (mp_off r p I E L Hb)]. assert (J : In r subs) by (apply filter_In; auto). destruct L as [L|L]; [left|right]; exists r; auto.
  Qed.
  Lemma mp_RK_in p : a_in RS p -> inside (border pg) p -> a_in K p.
  Proof using V VR Hall NR.
    intros Hp Hb. destruct (mp_RK p (or_introl Hp) Hb) as [L|(r & I & L)]; [exact L|exfalso]. apply filter_In in I. apply (sh_in_on RS p mp_SR Hp). exists r. split; [apply I|exact L].
  Qed.
  Hypothesis (Cov : subset (a_cl P) (a_cl RS) -> exists r, In r rs /\ subset (a_cl B) (a_cl (region_area r))).
  Lemma mp_not_covered : ~ subset (a_cl P) (a_cl RS).
  Proof using V VR Hall Cov.
    intros Z. destruct (Cov Z) as (r & I & Q). destruct (kept (rel r)) eqn:E; [exact (proj2 (proj2 (mp_kept r I E)) Q)|].
    destruct (mp_aside r I E) as [_ N]. exact (N (sh_sub_in' _ B (shaped_region r (mp_r r I)) mp_SB Q)).
  Qed.
  Lemma mp_beyond : length subs <> length rs -> ~ subset (a_cl RS) (a_cl P).
  Proof using V VR Hall.
    intros L Z. destruct (filter_short _ rs L) as (r & I & E). destruct (mp_aside r I E) as [_ N]. apply N. apply (sh_sub_in _ B (shaped_region r (mp_r r I)) mp_SB).
    intros p Hp. apply (pa_sub pg V), Z, (mp_cl r p I Hp).
  Qed.
  Local Notation nt := (forallb (fun r => negb (contacts (rel r))) rs).
  Lemma mp_no_contact r : nt = true -> In r rs -> rel r = WITHIN \/ rel r = DISJOINT.
  Proof using V VR Hall.
    intros E I. rewrite forallb_forall in E. specialize (E r I). destruct (kept (rel r)) eqn:Q; [destruct (mp_kept r I Q) as [[Z|Z] _]|destruct (mp_aside r I Q) as [[Z|Z] _]]; rewrite Z in *; auto; discriminate.
  Qed.
  Lemma mp_contact : nt = false -> exists r, In r rs /\ (rel r = TOUCH \/ rel r = ENCLOSED) /\ meets (on_contour r) (on_contour (border pg)).
  Proof using V VR Hall.
    intros E. assert (G : exists r, In r rs /\ contacts (rel r) = true).
    { clear - E. induction rs as [|r l IH]; [discriminate|]. cbn [forallb] in E. destruct (contacts (rel r)) eqn:Q; [exists r; cbn; auto|]. destruct (IH E) as (x & I & X). exists x. cbn. auto. }
    destruct G as (r & I & C). exists r. split; [exact I|]. pose proof (mp_S r I) as S. destruct (kept (rel r)) eqn:Q; [destruct (mp_kept r I Q) as [[Z|Z] _]|destruct (mp_aside r I Q) as [[Z|Z] _]]; rewrite Z in *; try discriminate; (split; [auto|apply S]).
  Qed.
  Lemma mp_aside_all : subs = [] -> areal_spec RS P (if nt then DISJOINT else TOUCH).
  Proof using V VR Hall.
    intros E. pose proof (filter_empty _ rs E) as N. destruct nt eqn:Q.
    - intros (p & P1 & P2). assert (G : exists r, In r rs /\ a_cl (region_area r) p) by (destruct P1 as [(r & I & L)|(r & I & L)]; exists r; (split; [exact I|]); [left|right]; exact L).
      destruct G as (r & I & L). pose proof (mp_S r I) as S. specialize (N r I). cbn beta in N. destruct (mp_no_contact r Q I) as [Z|Z]; rewrite Z in *; [discriminate N|]. apply S. exists p. split; [exact L|exact (pa_sub pg V p P2)].
    - destruct (mp_contact Q) as (r & I & _ & (p & P1 & P2)). split; [|exists p; split; [exists r; auto|left; exact P2]].
      intros (q & (r' & I' & Q1) & Q2). destruct (mp_aside r' I' (N r' I')) as [_ D]. apply D. exists q. split; [exact Q1|exact (proj1 Q2)].
  Qed.
  Hypothesis NS : subs <> [].
  Lemma mp_SK : shaped K. Proof using VR NS. exact (shaped_multiregion subs (mr_filter rs _ VR) NS). Qed.
  Lemma mp_overlap : ~ subset (a_cl K) (a_cl H) -> ~ subset (a_cl RS) (a_cl P) -> areal_spec RS P OVERLAP.
  Proof using V VR Hall Cov NS NH.
    intros N1 N2. split; [|exact (conj N2 mp_not_covered)]. destruct (part_meets pg V NH K mp_SK mp_KB N1) as (p & (r & I & P1) & P2). apply filter_In in I. exists p. split; [exists r; split; [apply I|exact P1]|exact P2].
  Qed.
  Lemma mp_hits : meets (a_in K) (a_in H) -> ~ subset (a_cl RS) (a_cl P).
  Proof using V NH. intros M Z. apply (part_not_sub pg V K M). intros p Hp. apply Z, mp_sub_RS, Hp. Qed.
  Lemma mp_enclosed : length subs = length rs -> ~ meets (a_in K) (a_in H) -> meets (a_on RS) (a_on P) -> merged_spec RS P ENCLOSED.
  Proof using V VR Hall Cov NS NH NR.
    intros L N M. destruct (filter_length_all _ rs L) as [E _]. assert (S : subset (a_cl RS) (a_cl P)) by (intros p Hp; apply (part_sub pg V NH K mp_SK mp_KB N); exact (eq_ind_r (fun l => a_cl (multiregion_area l) p) Hp E)).
    destruct (sh_on_sub RS P mp_SR mp_SP) as [Z|Z]; [right; exact (conj (conj S mp_not_covered) Z)|left; exact (conj (conj S mp_not_covered) (conj M Z))].
  Qed.
  Lemma mp_on_B p : a_on RS p -> on_contour (border pg) p -> a_on P p. Proof using Type. intros _ L. left. exact L. Qed.
  (* Inside the holes. *)
  Lemma mp_in_holes : subset (a_cl K) (a_cl H) -> ~ meets (a_in RS) (a_in P).
  Proof using V VR Hall NH NS NR.
    intros S (p & P1 & P2). apply (part_apart pg V NH K mp_SK S). exists p. split; [exact (mp_RK_in p P1 (proj1 P2))|exact P2].
  Qed.
  Lemma mp_touch : subset (a_cl K) (a_cl H) -> meets (a_on K) (a_on H) -> areal_spec RS P TOUCH.
  Proof using V VR Hall NH NS NR.
    intros S (p & (r & I & P1) & P2). split; [exact (mp_in_holes S)|]. apply filter_In in I. exists p. split; [exists r; split; [apply I|exact P1]|right; exact P2].
  Qed.
  Lemma mp_kept_in r : In r rs -> kept (rel r) = true -> subset (a_cl K) (a_cl H) -> ~ meets (a_on K) (a_on H) -> subset (a_cl (region_area r)) (a_in H).
  Proof using V VR NH NS.
    intros I E S N p Hp. assert (J : In r subs) by (apply filter_In; auto). assert (L : a_cl K p) by (destruct Hp as [L|L]; [left|right]; exists r; auto).
    destruct L as [L|L]; [exact (sh_in K H mp_SK mp_SH p S L)|]. destruct (S p (or_intror L)) as [Z|Z]; [exact Z|exfalso]. apply N. exists p. auto.
  Qed.
  Lemma mp_disjoint : subset (a_cl K) (a_cl H) -> ~ meets (a_on K) (a_on H) -> areal_spec RS P (if nt then DISJOINT else TOUCH).
  Proof using V VR Hall NH NS NR.
    intros S N. destruct nt eqn:Q.
    - intros (p & P1 & P2). assert (G : exists r, In r rs /\ a_cl (region_area r) p) by (destruct P1 as [(r & I & L)|(r & I & L)]; exists r; (split; [exact I|]); [left|right]; exact L).
      destruct G as (r & I & L). pose proof (mp_S r I) as Sr. destruct (kept (rel r)) eqn:E.
      + exact (pa_H_in pg V p (mp_kept_in r I E S N p L) P2).
      + destruct (mp_no_contact r Q I) as [Z|Z]; rewrite Z in *; [discriminate E|]. apply Sr. exists p. split; [exact L|exact (pa_sub pg V p P2)].
    - destruct (mp_contact Q) as (r & I & [Z|Z] & (p & P1 & P2)).
      + split; [exact (mp_in_holes S)|]. exists p. split; [exists r; auto|left; exact P2].
      + exfalso. assert (E : kept (rel r) = true) by (rewrite Z; reflexivity). exact (pa_on_in pg V p P2 (mp_kept_in r I E S N p (or_intror P1))).
  Qed.
  Lemma mp_answer h : areal_spec K H h ->
    merged_spec RS P (if relation_eqb h DISJOINT then
              if Nat.eqb (length subs) (length rs) then (if nt then WITHIN else ENCLOSED) else OVERLAP
            else if relation_eqb h TOUCH then
              if Nat.eqb (length subs) (length rs) then ENCLOSED else OVERLAP
            else if relation_eqb h OVERLAP then OVERLAP
            else if rel_in h [COVER; ENCLOSES; COMPOSITE] then OVERLAP
            else if relation_eqb h WITHIN then (if nt then DISJOINT else TOUCH)
            else TOUCH).
  Proof using V VR Hall Cov NH NS NR.
    intros S. pose proof mp_SK as SK. pose proof mp_SH as SH.
    assert (LE : {length subs = length rs} + {length subs <> length rs}) by apply Nat.eq_dec.
    destruct h; cbn [relation_eqb rel_in existsb orb]; cbn [areal_spec] in S; try (destruct S; fail).
    - assert (NM : ~ meets (a_in K) (a_in H)) by (intros (p & P1 & P2); apply S; exists p; split; left; assumption).
      assert (NKH : ~ subset (a_cl K) (a_cl H)) by (intros Z; exact (NM (sh_sub_in K H SK SH Z))).
      destruct LE as [L|L]; [rewrite (proj2 (Nat.eqb_eq _ _) L)|rewrite (proj2 (Nat.eqb_neq _ _) L); exact (mp_overlap NKH (mp_beyond L))].
      destruct (filter_length_all _ rs L) as [E _].
      destruct nt eqn:Q.
      + split; [split; [|exact mp_not_covered]|].
        * intros p Hp. apply (part_sub pg V NH K SK mp_KB NM). exact (eq_ind_r (fun l => a_cl (multiregion_area l) p) Hp E).
        * intros (p & (r & I & P1) & [P2|P2]).
          -- pose proof (mp_S r I) as Sr. destruct (mp_no_contact r Q I) as [Z|Z]; rewrite Z in Sr; [apply (proj2 Sr); exists p; auto|apply Sr; exists p; split; right; assumption].
          -- apply S. exists p. split; [right; exists r; split; [exact (eq_ind_r (fun l => In r l) I E)|exact P1]|right; exact P2].
      + destruct (mp_contact Q) as (r & I & _ & (p & P1 & P2)). apply (mp_enclosed L NM). exists p. split; [exists r; auto|left; exact P2].
    - destruct S as [NM (p & P1 & P2)]. assert (NKH : ~ subset (a_cl K) (a_cl H)) by (intros Z; exact (NM (sh_sub_in K H SK SH Z))).
      destruct LE as [L|L]; [rewrite (proj2 (Nat.eqb_eq _ _) L)|rewrite (proj2 (Nat.eqb_neq _ _) L); exact (mp_overlap NKH (mp_beyond L))].
      apply (mp_enclosed L NM). destruct P1 as (r & I & P1). apply filter_In in I. exists p. split; [exists r; split; [apply I|exact P1]|right; exact P2].
    - destruct S as (S1 & S2 & _). exact (mp_overlap S2 (mp_hits S1)).
    - destruct S as ((S1 & S2) & _). exact (mp_overlap S2 (mp_hits (sh_sub_in' K H SK SH S1))).
    - destruct S as ((S1 & S2) & _). exact (mp_overlap S2 (mp_hits (sh_sub_in' K H SK SH S1))).
    - destruct S as ((S1 & S2) & _). exact (mp_overlap S2 (mp_hits (sh_sub_in' K H SK SH S1))).
    - destruct (sh_some K SK) as (p & Hp). apply mp_touch; [intros q; apply S|exists p; split; [exact Hp|exact (sh_equal_on K H SK SH S p Hp)]].
    - destruct (sh_some K SK) as (p & Hp). apply mp_touch; [apply S|exists p; split; [exact Hp|exact (proj2 S p Hp)]].
    - apply mp_touch; apply S.
    - apply merged_of; [destruct nt; discriminate|]. apply mp_disjoint; apply S.
  Qed.
End Multi.
Lemma complement_involutive rel : complement (complement rel) = rel.
Proof. destruct rel; reflexivity. Qed.
(* Without holes. *)
Lemma multiregion_in_bare_l rs pg : valid_multiregion rs -> rs <> [] -> valid_polygon pg -> holes pg = [] ->
  answer_is (areal_spec (multiregion_area rs) (polygon_area pg)) (multiregion_in_polygon rs pg).
Proof.
  intros VR NR V E. destruct (box_of _ (pg_border pg V)) as (bb & Eb). unfold multiregion_in_polygon, polygon_relate_multiregion. rewrite Eb, E. cbn [bind nonempty negb].
  destruct (multiregion_relate _ rs bb (pg_border pg V) VR NR Eb) as (h & -> & Sh & _). cbn [bind].
  apply (sh_of _ _ (shaped_multiregion rs VR NR) (shaped_polygon pg V)).
  apply (areal_spec_ext _ _ _ _ (fun p => conj (iff_refl _) (conj (iff_refl _) (iff_refl _))) (bare_area pg E)). apply areal_spec_swap, Sh.
Qed.
Lemma multiregion_in_polygon_of rs pg : valid_multiregion rs -> rs <> [] -> valid_polygon pg -> holes pg <> [] ->
  (subset (a_cl (polygon_area pg)) (a_cl (multiregion_area rs)) -> exists r, In r rs /\ subset (a_cl (region_area (border pg))) (a_cl (region_area r))) ->
  answer_is (merged_spec (multiregion_area rs) (polygon_area pg)) (multiregion_in_polygon rs pg).
Proof.
  intros VR NR V NH Cov. pose proof (pg_border pg V) as B. destruct (box_of _ B) as (bb & Eb). unfold multiregion_in_polygon, polygon_relate_multiregion. rewrite Eb. cbn [bind].
  replace (nonempty (holes pg)) with true by (destruct (holes pg); [congruence|reflexivity]). cbn [negb].
  pose proof (shaped_multiregion rs VR NR) as SA. pose proof (shaped_polygon pg V) as SP.
  destruct (multiregion_loop (border pg) bb rs B Eb (proj1 VR) true []) as [(r & x & I & -> & H)|[-> Hall]]; cbn [bind andb app].
  - apply (merged_answer _ _ x SA SP). apply merged_of; [destruct H as [[_ H]|[-> _]]; [intros ->; discriminate|discriminate]|]. exact (mp_found pg rs V VR NR NH r x I H Cov).
  - set (subs := filter (fun r => kept (rel_of (border pg) r)) rs). assert (SD : subs = [] \/ subs <> []) by (destruct subs; [left; reflexivity|right; discriminate]). destruct SD as [SD|SD].
    + pose proof (mp_aside_all pg rs V VR Hall SD) as A. rewrite SD. apply (merged_answer _ _ _ SA SP). apply merged_of; [|exact A]. match goal with |- (if ?b then _ else _) <> _ => destruct b; discriminate end.
    + pose proof (multiregion_in_multiregion_exact_l subs (holes pg) (mr_filter rs _ VR) (pg_holes pg V) SD NH) as (h & Eh & Sh & _). unfold multiregion_in_multiregion in Eh.
      pose proof (mp_answer pg rs V VR NR NH Hall Cov SD h Sh) as A. fold subs in A.
      assert (EQ : (if Nat.eqb (length subs) (length rs) then rs else subs) = subs).
      { destruct (Nat.eqb_spec (length subs) (length rs)) as [L|L]; [|reflexivity]. symmetry. exact (proj1 (filter_length_all _ rs L)). }
      destruct subs as [|s subs'] eqn:Es; [congruence|]. cbv beta iota zeta. match goal with |- context [if ?b then rs else ?x] => replace (if b then rs else x) with (s :: subs') by (symmetry; exact EQ) end. rewrite Eh. cbn [bind]. apply (merged_answer _ _ _ SA SP). exact A.
Qed.
Lemma multiregion_in_polygon_merged_l rs pg : valid_multiregion rs -> rs <> [] -> valid_polygon pg -> clear_border (on_contours rs) pg ->
  answer_is (merged_spec (multiregion_area rs) (polygon_area pg)) (multiregion_in_polygon rs pg).
Proof.
  intros VR NR V Cl. assert (HD : holes pg = [] \/ holes pg <> []) by (destruct (holes pg); [left; reflexivity|right; discriminate]). destruct HD as [E|NH].
  - destruct (multiregion_in_bare_l rs pg VR NR V E) as (rel & -> & S & _). apply (merged_answer _ _ rel (shaped_multiregion rs VR NR) (shaped_polygon pg V)). apply merged_of; [|exact S].
    intros ->. destruct S as [[_ N] O]. apply N. assert (X : exists r, In r rs) by (destruct rs as [|r ?]; [congruence|exists r; left; reflexivity]). destruct X as (r & I).
    intros p Hp. apply (mp_cl rs r p I). apply (ra_same' pg V r (mr_simple rs r VR I)); [|exact (pa_sub pg V p Hp)].
    intros q Hq. destruct (O q (ex_intro _ r (conj I Hq))) as [K|(h & J & _)]; [exact K|]. rewrite E in J. destruct J.
  - apply (multiregion_in_polygon_of rs pg VR NR V NH). exact (covered_by_one pg rs V VR NR Cl).
Qed.
