(* Lines told by their segments. *)
From Coq Require Import QArith Qcanon List Bool ZArith Lia.
From Verif Require Import Scalar Base Ground MLinear MSweep MCompound Planar Spec SpecMore SpecAreas SpecContact SpecRings SpecAround SpecSelf SpecEdges Geom RayParity SegProofs PointProofs
  NoFail OpenProofs ClosedProofs Orient Area SegRegion AreaAnswer AreaQueries Polygons PolyQueries Areas Pieces ContactProofs AroundProofs SegMulti SegAnswer SegContour SegStraight PolyLine PolyAlways JoinLines SelfProofs Rings Borders.
Import ListNotations.
Open Scope Qc_scope.

Definition united (l : list segment) (X : point -> Prop) : Prop := forall p, X p <-> exists s, In s l /\ in_segment s p.
Lemma united_ms m : united (segments m) (in_multisegment m).
Proof. intros p. reflexivity. Qed.
Lemma united_contour c : united (edge_segments c) (on_contour c).
Proof.
  intros p. split.
  - intros (a & b & I & H). exists (Seg a b). split; [apply in_map_iff; exists (a, b); auto|exact H].
  - intros (s & I & H). apply in_map_iff in I. destruct I as ([a b] & <- & I). exists a, b. auto.
Qed.
Lemma united_sub l X s : united l X -> In s l -> subset (in_segment s) X.
Proof. intros U I p H. apply U. exists s. auto. Qed.
Lemma united_meets l X P : united l X -> (meets X P <-> exists s, In s l /\ meets (in_segment s) P).
Proof.
  intros U. split.
  - intros (p & H & K). apply U in H. destruct H as (s & I & H). exists s. split; [exact I|exists p; auto].
  - intros (s & I & p & H & K). exists p. split; [apply U; exists s; auto|exact K].
Qed.
Lemma united_subset l X P : united l X -> (subset X P <-> forall s, In s l -> subset (in_segment s) P).
Proof.
  intros U. split.
  - intros H s I p K. apply H, U. exists s. auto.
  - intros H p K. apply U in K. destruct K as (s & I & K). exact (H s I p K).
Qed.
Lemma seg_some s : exists p, in_segment s p.
Proof. exists (s_start s). apply on_segment_start. Qed.
Lemma edge_segments_ok c : simple_contour c -> Forall nondegenerate (edge_segments c).
Proof. intros C. apply Forall_forall. intros s I. apply in_map_iff in I. destruct I as ([a b] & <- & I). exact (edge_nondegenerate c a b C I). Qed.
Lemma edge_segments_some c : simple_contour c -> edge_segments c <> [].
Proof. intros C E. apply (f_equal (@length segment)) in E. unfold edge_segments in E. rewrite map_length in E. pose proof (cyc_length c C). cbn in E. lia. Qed.
Lemma contour_point c : simple_contour c -> exists p, on_contour c p.
Proof.
  intros C. destruct (edge_segments c) as [|s l] eqn:E; [destruct (edge_segments_some c C E)|]. destruct (seg_some s) as (p & P). exists p. apply united_contour. exists s. rewrite E. split; [left; reflexivity|exact P].
Qed.
Lemma ms_segments_some m : valid_multisegment m -> segments m <> [].
Proof. intros (L & _) E. rewrite E in L. cbn in L. lia. Qed.

(** * Lines and areas *)
Lemma existsb_told (f : relation -> bool) (P : point -> Prop) (g : segment -> res relation) l rels :
  map g l = map (@Ok relation) rels -> (forall s rel, In s l -> g s = Ok rel -> (f rel = true <-> meets (in_segment s) P)) ->
  (existsb f rels = true <-> exists s, In s l /\ meets (in_segment s) P).
Proof.
  revert rels. induction l as [|s l IH]; intros rels E H; destruct rels as [|r rels]; try discriminate.
  - cbn. split; [discriminate|intros (s & [] & _)].
  - cbn in E. injection E as E1 E2. cbn [existsb]. rewrite orb_true_iff. rewrite (IH rels E2 (fun t rel I => H t rel (or_intror I))). rewrite (H s r (or_introl eq_refl) E1).
    split; [intros [K|(t & I & K)]; [exists s|exists t]; cbn; auto|]. intros (t & [<-|I] & K); [auto|right; exists t; auto].
Qed.
Lemma answers_list (g : segment -> res relation) l : (forall s, In s l -> exists rel, g s = Ok rel) -> exists rels, map g l = map (@Ok relation) rels.
Proof.
  induction l as [|s l IH]; intros H; [exists []; reflexivity|]. destruct (H s (or_introl eq_refl)) as (r & E). destruct (IH (fun t I => H t (or_intror I))) as (rs & K).
  exists (r :: rs). cbn. rewrite E, K. reflexivity.
Qed.
Lemma pieced l X A g u : shaped A -> l <> [] -> united l X -> (forall s, In s l -> answer_is (linear_areal_spec (in_segment s) A) (g s)) ->
  answer_is (linear_areal_spec X A) u -> pieced_together g l u.
Proof.
  intros SA NL U H HU. destruct (answers_list g l) as (rels & E).
  { intros s I. destruct (H s I) as (r & K & _). exists r. exact K. }
  exists rels. split; [exact E|]. apply (la_answer X A u); [exact HU|].
  assert (T : forall s rel, In s l -> g s = Ok rel -> line_told (meets (in_segment s) (a_in A)) (meets (in_segment s) (a_on A)) (meets (in_segment s) (a_out A)) rel).
  { intros s rel I K. apply line_facts; [exact SA|apply seg_some|exact (spec_of (H s I) K)]. }
  assert (SX : exists s, In s l) by (destruct l as [|s l']; [contradiction|exists s; left; reflexivity]). destruct SX as (s0 & I0).
  assert (SX : exists p, X p) by (destruct (seg_some s0) as (p & P); exists p; apply U; exists s0; auto). destruct SX as (x & Hx).
  assert (TI : existsb goes_in rels = true <-> meets X (a_in A)).
  { rewrite (united_meets l X _ U). apply (existsb_told goes_in (a_in A) g l rels E). intros s rel I K. pose proof (T s rel I K) as Q. destruct rel; cbn in Q |- *; intuition discriminate. }
  assert (TO : existsb goes_out rels = true <-> meets X (a_out A)).
  { rewrite (united_meets l X _ U). apply (existsb_told goes_out (a_out A) g l rels E). intros s rel I K. pose proof (T s rel I K) as Q. destruct rel; cbn in Q |- *; intuition discriminate. }
  assert (Sub : forall P Q R : point -> Prop, (forall p, P p \/ Q p \/ R p) -> ~ meets X Q -> ~ meets X R -> subset X P).
  { intros P Q R Cs N1 N2 p Hp. destruct (Cs p) as [K|[K|K]]; [exact K|destruct N1|destruct N2]; exists p; auto. }
  assert (Cs := fun p => sh_cases A p SA).
  (* On the boundary only what is counted matters if nothing is on both sides. *)
  assert (TN : ~ (meets X (a_in A) /\ meets X (a_out A)) -> (existsb goes_along rels = true <-> meets X (a_on A))).
  { intros NN. rewrite (united_meets l X _ U). apply (existsb_told goes_along (a_on A) g l rels E). intros s rel I K. pose proof (T s rel I K) as Q.
    destruct rel; cbn in Q |- *; try (clear - Q; intuition discriminate). exfalso. apply NN. destruct Q as (Q1 & Q2). split; apply (united_meets l X _ U); exists s; auto. }
  unfold joined_all. destruct (existsb goes_in rels), (existsb goes_out rels).
  - cbn. tauto.
  - assert (NO : ~ meets X (a_out A)) by (intros K; apply TO in K; discriminate). destruct (existsb goes_along rels) eqn:EA; cbn.
    + split; [exact NO|]. split; [tauto|]. apply TN; tauto.
    + apply (Sub _ (a_on A) (a_out A)); [exact Cs| |exact NO]. intros K. apply TN in K; [discriminate|tauto].
  - assert (NI : ~ meets X (a_in A)) by (intros K; apply TI in K; discriminate). destruct (existsb goes_along rels) eqn:EA; cbn.
    + split; [exact NI|]. split; [apply TN; tauto|tauto].
    + apply (Sub _ (a_in A) (a_on A)); [intros p; destruct (Cs p) as [K|[K|K]]; auto|exact NI|]. intros K. apply TN in K; [discriminate|tauto].
  - assert (NO : ~ meets X (a_out A)) by (intros K; apply TO in K; discriminate). assert (NI : ~ meets X (a_in A)) by (intros K; apply TI in K; discriminate).
    cbn. apply (Sub _ (a_in A) (a_out A)); [intros p; destruct (Cs p) as [K|[K|K]]; auto|exact NI|exact NO].
Qed.
(* One answer for all segments. *)
Lemma uniform l X (P : point -> Prop) (g : segment -> res relation) u rel : united l X -> (u = Ok rel <-> subset X P) -> (forall s, In s l -> (g s = Ok rel <-> subset (in_segment s) P)) ->
  (u = Ok rel <-> forall s, In s l -> g s = Ok rel).
Proof.
  intros U H K. rewrite H, (united_subset l X P U). split; intros Q s I; [apply K; [exact I|exact (Q s I)]|apply K; [exact I|exact (Q s I)]].
Qed.
Lemma exact_one X A u : answer_is (linear_areal_spec X A) u ->
  (u = Ok DISJOINT <-> subset X (a_out A)) /\ (u = Ok WITHIN <-> subset X (a_in A)) /\ (u = Ok COMPONENT <-> subset X (a_on A)).
Proof.
  intros H. split; [|split]; (split; intros K; [exact (spec_of H K)|]); [exact (la_answer X A u DISJOINT H K)|exact (la_answer X A u WITHIN H K)|exact (la_answer X A u COMPONENT H K)].
Qed.
Lemma contact_point l l' : contact_cut l l' -> exists e e' p, In e l /\ In e' l' /\ on_segment (fst e) (snd e) p /\ on_segment (fst e') (snd e') p.
Proof. intros (e & e' & p & I & J & (H & K & _) & _). exists e, e', p. auto. Qed.
Lemma contours_edges_on cs e p : In e (contours_edges cs) -> on_segment (fst e) (snd e) p -> on_contours cs p.
Proof. intros I H. apply in_flat_map in I. destruct I as (c & Ic & I). exists c. split; [exact Ic|]. exists (fst e), (snd e). destruct e. auto. Qed.
Lemma polygon_edges_on mp e p : In e (multipolygon_edges mp) -> on_segment (fst e) (snd e) p -> a_on (multipolygon_area mp) p.
Proof.
  intros I H. apply in_flat_map in I. destruct I as (pg & Ip & I). exists pg. split; [exact Ip|]. destruct (contours_edges_on _ e p I H) as (c & [<-|Ic] & K); [left; exact K|right; exists c; auto].
Qed.
(* Loose answers are exact away from the boundary. *)
Lemma loose_one X A (C : Prop) u : shaped A -> (C -> meets X (a_on A)) -> answer_or (linear_areal_spec X A) CROSS C u ->
  (u = Ok DISJOINT <-> subset X (a_out A)) /\ (u = Ok WITHIN <-> subset X (a_in A)).
Proof.
  intros SA Q [H|(E & H)]; [pose proof (exact_one X A u H); tauto|]. apply Q in H. destruct H as (p & H1 & H2). split; (split; intros K; [congruence|exfalso]).
  - exact (sh_on_out A p SA H2 (K p H1)).
  - exact (sh_in_on A p SA (K p H1) H2).
Qed.
Lemma segment_in_multiregion_one s rs : nondegenerate s -> valid_multiregion rs -> rs <> [] ->
  (segment_in_multiregion s rs = Ok DISJOINT <-> subset (in_segment s) (a_out (multiregion_area rs)))
  /\ (segment_in_multiregion s rs = Ok WITHIN <-> subset (in_segment s) (a_in (multiregion_area rs)))
  /\ (segment_in_multiregion s rs = Ok COMPONENT <-> subset (in_segment s) (a_on (multiregion_area rs))).
Proof.
  intros N V NE. pose proof (shaped_multiregion rs V NE) as SA. destruct (segment_in_multiregion_or_l s rs N V NE) as [H|(E & _ & (NO & (p & P1 & P2) & (q & Q1 & Q2)))]; [exact (exact_one _ _ _ H)|].
  split; [|split]; (split; intros K; [congruence|exfalso]).
  - exact (sh_in_out _ p SA P2 (K p P1)).
  - exact (sh_in_on _ q SA (K q Q1) Q2).
  - exact (sh_in_on _ p SA P2 (K p P1)).
Qed.
Lemma contour_in_multiregion_one c rs : simple_contour c -> valid_multiregion rs -> rs <> [] ->
  (contour_in_multiregion c rs = Ok DISJOINT <-> subset (on_contour c) (a_out (multiregion_area rs)))
  /\ (contour_in_multiregion c rs = Ok WITHIN <-> subset (on_contour c) (a_in (multiregion_area rs)))
  /\ (contour_in_multiregion c rs = Ok COMPONENT <-> subset (on_contour c) (a_on (multiregion_area rs))).
Proof.
  intros N V NE. pose proof (shaped_multiregion rs V NE) as SA. destruct (contour_in_multiregion_loose_l c rs N V NE) as [H|(E & _ & (NO & (p & P1 & P2) & (q & Q1 & Q2)))]; [exact (exact_one _ _ _ H)|].
  split; [|split]; (split; intros K; [congruence|exfalso]).
  - exact (sh_in_out _ p SA P2 (K p P1)).
  - exact (sh_in_on _ q SA (K q Q1) Q2).
  - exact (sh_in_on _ p SA P2 (K p P1)).
Qed.
Lemma segment_in_multipolygon_one s mp : nondegenerate s -> valid_multipolygon mp -> polygons mp <> [] ->
  (segment_in_multipolygon s mp = Ok DISJOINT <-> subset (in_segment s) (a_out (multipolygon_area mp)))
  /\ (segment_in_multipolygon s mp = Ok WITHIN <-> subset (in_segment s) (a_in (multipolygon_area mp))).
Proof.
  intros N V NE. refine (loose_one _ _ _ _ (shaped_multipolygon mp V NE) _ (segment_in_multipolygon_or_l s mp N V NE)). intros (H & _).
  destruct (contact_point _ _ H) as (e & e' & p & [<-|[]] & J & H1 & H2). exists p. split; [exact H1|exact (polygon_edges_on mp e' p J H2)].
Qed.
Lemma contour_in_multipolygon_one c mp : simple_contour c -> valid_multipolygon mp -> polygons mp <> [] ->
  (contour_in_multipolygon c mp = Ok DISJOINT <-> subset (on_contour c) (a_out (multipolygon_area mp)))
  /\ (contour_in_multipolygon c mp = Ok WITHIN <-> subset (on_contour c) (a_in (multipolygon_area mp))).
Proof.
  intros N V NE. refine (loose_one _ _ _ _ (shaped_multipolygon mp V NE) _ (contour_in_multipolygon_loose_l c mp N V NE)). intros (H & _).
  destruct (contact_point _ _ H) as (e & e' & p & I & J & H1 & H2). exists p. split; [|exact (polygon_edges_on mp e' p J H2)].
  destruct (contours_edges_on _ e p I H1) as (c' & [<-|[]] & K). exact K.
Qed.
Lemma contour_in_polygon_one c pg : simple_contour c -> valid_polygon pg ->
  (contour_in_polygon c pg = Ok DISJOINT <-> subset (on_contour c) (a_out (polygon_area pg)))
  /\ (contour_in_polygon c pg = Ok WITHIN <-> subset (on_contour c) (polygon_interior pg)).
Proof.
  intros C V. pose proof (shaped_polygon pg V) as SA.
  assert (Z : answer_is (linear_areal_spec (on_contour c) (polygon_area pg)) (contour_in_polygon c pg)
    \/ (contour_in_polygon c pg <> Ok DISJOINT /\ contour_in_polygon c pg <> Ok WITHIN /\ meets (on_contour c) (polygon_boundary pg))).
  { destruct (contour_in_polygon_always_l pg V c C) as [H|[(E & (_ & M & _) & _)|(E & M & _)]]; [left; exact H|right|right]; rewrite E; (split; [discriminate|]; split; [discriminate|]).
    - exact M.
    - destruct (contour_point c C) as (p & P). exists p. split; [exact P|exact (M p P)]. }
  destruct Z as [H|(N1 & N2 & (p & P1 & P2))]; [pose proof (exact_one _ _ _ H) as K; split; apply K|]. split; (split; intros K; [contradiction|exfalso]).
  - exact (sh_on_out _ p SA P2 (K p P1)).
  - exact (sh_in_on _ p SA (K p P1) P2).
Qed.
Lemma segment_in_polygon_one s pg : nondegenerate s -> valid_polygon pg ->
  (segment_in_polygon s pg = Ok DISJOINT <-> subset (in_segment s) (a_out (polygon_area pg)))
  /\ (segment_in_polygon s pg = Ok WITHIN <-> subset (in_segment s) (polygon_interior pg)).
Proof.
  intros N V. pose proof (shaped_polygon pg V) as SA. pose proof (pg_border pg V) as Bd. pose proof (shaped_region _ Bd) as SB.
  destruct (segment_in_region_plain_l s (border pg) N (simple_nondegenerate _ Bd)) as (B1 & B2 & B3).
  assert (Out : subset (in_segment s) (a_out (polygon_area pg)) -> subset (in_segment s) (outside (border pg)) \/ subset (in_segment s) (a_in (multiregion_area (holes pg)))).
  { intros H. assert (Off : ~ meets (in_segment s) (on_contour (border pg))).
    { intros (p & P & Q). exact (sh_on_out _ p SA (or_introl Q) (H p P)). }
    destruct (seg_some s) as (x & Hx). destruct (H x Hx) as [Hc|Hc].
    - left. intros p P. pose proof (apart_same s (border pg) x p Off Hx P) as E. destruct (point_in_region_exact_l x (border pg)) as (_ & A & _). destruct (point_in_region_exact_l p (border pg)) as (_ & B & _). rewrite E in A. tauto.
    - right. intros p P. destruct (H p P) as [K|K]; [exfalso|exact K]. destruct Hc as (h & Ih & Hc). pose proof (hole_in pg V h x Ih Hc) as Hin.
      pose proof (apart_same s (border pg) x p Off Hx P) as E. destruct (point_in_region_exact_l x (border pg)) as (A1 & A2 & _). destruct (point_in_region_exact_l p (border pg)) as (C1 & C2 & _). rewrite E in A1.
      apply A1 in Hin. apply C2 in K. congruence. }
  assert (In1 : forall p, polygon_interior pg p -> inside (border pg) p) by (intros p K; exact (proj1 K)).
  assert (NB : subset (in_segment s) (inside (border pg)) -> ~ subset (in_segment s) (outside (border pg))).
  { intros H K. destruct (seg_some s) as (x & Hx). exact (sh_in_out _ x SB (H x Hx) (K x Hx)). }
  unfold segment_in_polygon, polygon_relate_segment. change (region_relate_segment (border pg) s) with (segment_in_region s (border pg)).
  destruct (segment_in_region s (border pg)) as [r|e] eqn:ER; cbn [bind].
  2:{ split; (split; intros K; [discriminate|exfalso]).
      - destruct (Out K) as [Q|Q]; [apply B1 in Q; discriminate|]. assert (W : subset (in_segment s) (inside (border pg))) by (intros p P; destruct (Q p P) as (h & I & J); exact (hole_in pg V h p I J)). apply B2 in W. discriminate.
      - assert (W : subset (in_segment s) (inside (border pg))) by (intros p P; exact (In1 p (K p P))). apply B2 in W. discriminate. }
  destruct (nonempty (holes pg)) eqn:NE; cbn [andb].
  2:{ assert (E : holes pg = []) by (destruct (holes pg); [reflexivity|discriminate]). split; (split; intros K).
      - intros p P. left. apply (proj1 B1 K p P).
      - apply B1. destruct (Out K) as [Q|Q]; [exact Q|]. exfalso. destruct (seg_some s) as (x & Hx). destruct (Q x Hx) as (h & I & _). rewrite E in I. destruct I.
      - intros p P. split; [apply (proj1 B2 K p P)|]. rewrite E. intros h [].
      - apply B2. intros p P. exact (In1 p (K p P)). }
  assert (NH : holes pg <> []) by (intros E; rewrite E in NE; discriminate).
  destruct (segment_in_multiregion_one s (holes pg) N (pg_holes pg V) NH) as (M1 & M2 & M3). change (multiregion_relate_segment (holes pg) s) with (segment_in_multiregion s (holes pg)).
  assert (HD : subset (in_segment s) (a_in (multiregion_area (holes pg))) -> r = WITHIN /\ segment_in_multiregion s (holes pg) = Ok WITHIN).
  { intros Q. split; [|apply M2, Q]. assert (W : subset (in_segment s) (inside (border pg))) by (intros p P; destruct (Q p P) as (h & I & J); exact (hole_in pg V h p I J)). apply B2 in W. injection W as ->. reflexivity. }
  assert (HW : subset (in_segment s) (polygon_interior pg) -> r = WITHIN /\ segment_in_multiregion s (holes pg) = Ok DISJOINT).
  { intros Q. split; [|apply M1; intros p P; exact (proj2 (Q p P))]. assert (W : subset (in_segment s) (inside (border pg))) by (intros p P; exact (In1 p (Q p P))). apply B2 in W. injection W as ->. reflexivity. }
  assert (DO : r = DISJOINT -> subset (in_segment s) (a_out (polygon_area pg))) by (intros -> p P; left; apply (proj1 B1 eq_refl p P)).
  assert (WD : segment_in_multiregion s (holes pg) = Ok WITHIN -> subset (in_segment s) (a_out (polygon_area pg))) by (intros K p P; right; exact (proj1 M2 K p P)).
  assert (WW : r = WITHIN -> segment_in_multiregion s (holes pg) = Ok DISJOINT -> subset (in_segment s) (polygon_interior pg)).
  { intros -> K p P. split; [exact (proj1 B2 eq_refl p P)|exact (proj1 M1 K p P)]. }
  assert (OD : subset (in_segment s) (a_out (polygon_area pg)) -> r = DISJOINT \/ (r = WITHIN /\ segment_in_multiregion s (holes pg) = Ok WITHIN)).
  { intros K. destruct (Out K) as [Q|Q]; [left; apply B1 in Q; injection Q as ->; reflexivity|right; exact (HD Q)]. }
  clear - DO WD WW OD HW. destruct (segment_in_multiregion s (holes pg)) as [h|e]; destruct r; cbn [relation_eqb orb bind]; try destruct h; (split; split; intros K);
    first [discriminate|reflexivity|exact (DO eq_refl)|exact (WD eq_refl)|exact (WW eq_refl eq_refl)|destruct (HW K); discriminate|destruct (OD K) as [Z|(Z & Z')]; discriminate].
Qed.

(* Edge by edge. *)
Lemma contour_in_region_uniform_l c r : simple_contour c -> simple_contour r -> forall rel, In rel [DISJOINT; WITHIN] ->
  (contour_in_region c r = Ok rel <-> forall s, In s (edge_segments c) -> segment_in_region s r = Ok rel).
Proof.
  intros C R rel I. pose proof (exact_one _ _ _ (contour_in_region_exact_l c r C R)) as (H1 & H2 & _). pose proof (proj1 (Forall_forall _ _) (edge_segments_ok c C)) as ND.
  destruct I as [<-|[<-|[]]]; [apply (uniform _ _ (outside r) _ _ _ (united_contour c) H1)|apply (uniform _ _ (inside r) _ _ _ (united_contour c) H2)];
    intros s J; apply (segment_in_region_plain_l s r (ND s J) (simple_nondegenerate _ R)).
Qed.
Lemma contour_in_multiregion_uniform_l c rs : simple_contour c -> valid_multiregion rs -> rs <> [] -> forall rel, In rel [DISJOINT; WITHIN; COMPONENT] ->
  (contour_in_multiregion c rs = Ok rel <-> forall s, In s (edge_segments c) -> segment_in_multiregion s rs = Ok rel).
Proof.
  intros C V NE rel I. destruct (contour_in_multiregion_one c rs C V NE) as (H1 & H2 & H3). pose proof (proj1 (Forall_forall _ _) (edge_segments_ok c C)) as ND.
  destruct I as [<-|[<-|[<-|[]]]]; [apply (uniform _ _ _ _ _ _ (united_contour c) H1)|apply (uniform _ _ _ _ _ _ (united_contour c) H2)|apply (uniform _ _ _ _ _ _ (united_contour c) H3)];
    intros s J; apply (segment_in_multiregion_one s rs (ND s J) V NE).
Qed.
Lemma contour_in_polygon_uniform_l c pg : simple_contour c -> valid_polygon pg -> forall rel, In rel [DISJOINT; WITHIN] ->
  (contour_in_polygon c pg = Ok rel <-> forall s, In s (edge_segments c) -> segment_in_polygon s pg = Ok rel).
Proof.
  intros C V rel I. destruct (contour_in_polygon_one c pg C V) as (H1 & H2). pose proof (proj1 (Forall_forall _ _) (edge_segments_ok c C)) as ND.
  destruct I as [<-|[<-|[]]]; [apply (uniform _ _ _ _ _ _ (united_contour c) H1)|apply (uniform _ _ _ _ _ _ (united_contour c) H2)];
    intros s J; apply (segment_in_polygon_one s pg (ND s J) V).
Qed.
Lemma contour_in_multipolygon_uniform_l c mp : simple_contour c -> valid_multipolygon mp -> polygons mp <> [] -> forall rel, In rel [DISJOINT; WITHIN] ->
  (contour_in_multipolygon c mp = Ok rel <-> forall s, In s (edge_segments c) -> segment_in_multipolygon s mp = Ok rel).
Proof.
  intros C V NE rel I. destruct (contour_in_multipolygon_one c mp C V NE) as (H1 & H2). pose proof (proj1 (Forall_forall _ _) (edge_segments_ok c C)) as ND.
  destruct I as [<-|[<-|[]]]; [apply (uniform _ _ _ _ _ _ (united_contour c) H1)|apply (uniform _ _ _ _ _ _ (united_contour c) H2)];
    intros s J; apply (segment_in_multipolygon_one s mp (ND s J) V NE).
Qed.

Lemma contour_in_region_pieced_l c r : simple_contour c -> simple_contour r ->
  (forall s, In s (edge_segments c) -> ~ share_segment (in_segment s) (on_contour r) /\ ends_settled s r) ->
  pieced_together (fun s => segment_in_region s r) (edge_segments c) (contour_in_region c r).
Proof.
  intros C R H. apply (pieced _ (on_contour c) (region_area r)); [exact (shaped_region r R)|exact (edge_segments_some c C)|apply united_contour| |exact (contour_in_region_exact_l c r C R)].
  intros s I. destruct (H s I) as (H1 & H2). exact (segment_in_region_exact_l s r (proj1 (Forall_forall _ _) (edge_segments_ok c C) s I) R H1 H2).
Qed.
Lemma contour_in_multiregion_pieced_l c rs : simple_contour c -> valid_multiregion rs -> rs <> [] -> meet_at_ends (on_contour c) (contours_edges rs) ->
  pieced_together (fun s => segment_in_multiregion s rs) (edge_segments c) (contour_in_multiregion c rs).
Proof.
  intros C V NE M. apply (pieced _ (on_contour c) (multiregion_area rs)); [exact (shaped_multiregion rs V NE)|exact (edge_segments_some c C)|apply united_contour| |exact (contour_in_multiregion_exact_l c rs C V NE M)].
  intros s I. apply (segment_in_multiregion_exact_l s rs (proj1 (Forall_forall _ _) (edge_segments_ok c C) s I) V NE). exact (meet_sub _ _ _ (united_sub _ _ s (united_contour c) I) M).
Qed.
Lemma contour_in_polygon_pieced_l c pg : simple_contour c -> valid_polygon pg -> meet_at_ends (on_contour c) (contours_edges (holes pg)) -> clear_border (on_contour c) pg ->
  (forall s, In s (edge_segments c) -> ~ share_segment (in_segment s) (on_contour (border pg)) /\ ends_settled s (border pg)) ->
  pieced_together (fun s => segment_in_polygon s pg) (edge_segments c) (contour_in_polygon c pg).
Proof.
  intros C V M CB H. apply (pieced _ (on_contour c) (polygon_area pg)); [exact (shaped_polygon pg V)|exact (edge_segments_some c C)|apply united_contour| |exact (contour_in_polygon_exact_l pg V c C M CB)].
  intros s I. destruct (H s I) as (H1 & H2). pose proof (united_sub _ _ s (united_contour c) I) as Sb.
  apply (segment_in_polygon_exact_l s pg (proj1 (Forall_forall _ _) (edge_segments_ok c C) s I) V H1 H2); [exact (meet_sub _ _ _ Sb M)|].
  intros h p Ih P Q. exact (CB h p Ih (Sb p P) Q).
Qed.
Lemma contour_in_multipolygon_pieced_l c mp : simple_contour c -> valid_multipolygon mp -> polygons mp <> [] -> meet_at_ends (on_contour c) (multipolygon_edges mp) ->
  pieced_together (fun s => segment_in_multipolygon s mp) (edge_segments c) (contour_in_multipolygon c mp).
Proof.
  intros C V NE M. apply (pieced _ (on_contour c) (multipolygon_area mp)); [exact (shaped_multipolygon mp V NE)|exact (edge_segments_some c C)|apply united_contour| |exact (contour_in_multipolygon_exact_l c mp C V NE M)].
  intros s I. apply (segment_in_multipolygon_exact_l s mp (proj1 (Forall_forall _ _) (edge_segments_ok c C) s I) V NE). exact (meet_sub _ _ _ (united_sub _ _ s (united_contour c) I) M).
Qed.
Lemma multisegment_in_region_pieced_l m r : valid_multisegment m -> simple_contour r -> ~ runs_around (in_multisegment m) (region_area r) ->
  (forall s, In s (segments m) -> ~ share_segment (in_segment s) (on_contour r) /\ ends_settled s r) ->
  pieced_together (fun s => segment_in_region s r) (segments m) (multisegment_in_region m r).
Proof.
  intros V R A H. apply (pieced _ (in_multisegment m) (region_area r)); [exact (shaped_region r R)|exact (ms_segments_some m V)|apply united_ms| |exact (multisegment_in_region_exact_l m r V R A)].
  intros s I. destruct (H s I) as (H1 & H2). exact (segment_in_region_exact_l s r (proj1 (Forall_forall _ _) (proj1 (proj2 V)) s I) R H1 H2).
Qed.
Lemma multisegment_in_multiregion_pieced_l m rs : valid_multisegment m -> valid_multiregion rs -> rs <> [] -> meet_at_ends (in_multisegment m) (contours_edges rs) ->
  (forall r, In r rs -> ~ runs_around (in_multisegment m) (region_area r)) ->
  pieced_together (fun s => segment_in_multiregion s rs) (segments m) (multisegment_in_multiregion m rs).
Proof.
  intros V R NE M A. apply (pieced _ (in_multisegment m) (multiregion_area rs)); [exact (shaped_multiregion rs R NE)|exact (ms_segments_some m V)|apply united_ms| |exact (multisegment_in_multiregion_exact_l m rs V R NE M A)].
  intros s I. apply (segment_in_multiregion_exact_l s rs (proj1 (Forall_forall _ _) (proj1 (proj2 V)) s I) R NE). exact (meet_sub _ _ _ (united_sub _ _ s (united_ms m) I) M).
Qed.
Lemma multisegment_in_polygon_pieced_l m pg : valid_multisegment m -> valid_polygon pg -> meet_at_ends (in_multisegment m) (polygon_edges pg) -> clear_border (in_multisegment m) pg ->
  ~ runs_around (in_multisegment m) (polygon_area pg) ->
  (forall s, In s (segments m) -> ~ share_segment (in_segment s) (on_contour (border pg)) /\ ends_settled s (border pg)) ->
  pieced_together (fun s => segment_in_polygon s pg) (segments m) (multisegment_in_polygon m pg).
Proof.
  intros V R M CB A H. apply (pieced _ (in_multisegment m) (polygon_area pg)); [exact (shaped_polygon pg R)|exact (ms_segments_some m V)|apply united_ms| |exact (multisegment_in_polygon_exact_l m pg V R M A)].
  intros s I. destruct (H s I) as (H1 & H2). pose proof (united_sub _ _ s (united_ms m) I) as Sb.
  apply (segment_in_polygon_exact_l s pg (proj1 (Forall_forall _ _) (proj1 (proj2 V)) s I) R H1 H2).
  - intros e e' p I1 I2 N P. apply (M e e' p); [apply in_or_app; right; exact I1|apply in_or_app; right; exact I2|exact N|exact (Sb p P)].
  - intros h p Ih P Q. exact (CB h p Ih (Sb p P) Q).
Qed.
Lemma multisegment_in_multipolygon_pieced_l m mp : valid_multisegment m -> valid_multipolygon mp -> polygons mp <> [] -> meet_at_ends (in_multisegment m) (multipolygon_edges mp) ->
  (forall pg, In pg (polygons mp) -> ~ runs_around (in_multisegment m) (polygon_area pg)) ->
  pieced_together (fun s => segment_in_multipolygon s mp) (segments m) (multisegment_in_multipolygon m mp).
Proof.
  intros V R NE M A. apply (pieced _ (in_multisegment m) (multipolygon_area mp)); [exact (shaped_multipolygon mp R NE)|exact (ms_segments_some m V)|apply united_ms| |exact (multisegment_in_multipolygon_exact_l m mp V R NE M A)].
  intros s I. apply (segment_in_multipolygon_exact_l s mp (proj1 (Forall_forall _ _) (proj1 (proj2 V)) s I) R NE). exact (meet_sub _ _ _ (united_sub _ _ s (united_ms m) I) M).
Qed.

(* Multisegments: whatever runs around the boundary is neither within nor apart. *)
Lemma round_one X A (R C : Prop) u : shaped A -> (R -> meets X (a_in A) /\ meets X (a_out A)) -> (C -> meets X (a_on A)) ->
  (~ R -> answer_or (linear_areal_spec X A) CROSS C u) -> (R -> u = Ok CROSS \/ u = Ok TOUCH) ->
  (u = Ok DISJOINT <-> subset X (a_out A)) /\ (u = Ok WITHIN <-> subset X (a_in A)).
Proof.
  intros SA HR HC N Y. assert (N' := fun K => loose_one X A C u SA HC (N K)).
  split; split; intros K.
  - apply N'; [|exact K]. intros Q. destruct (Y Q); congruence.
  - apply N'; [|exact K]. intros Q. destruct (HR Q) as ((p & P1 & P2) & _). exact (sh_in_out A p SA P2 (K p P1)).
  - apply N'; [|exact K]. intros Q. destruct (Y Q); congruence.
  - apply N'; [|exact K]. intros Q. destruct (HR Q) as (_ & (p & P1 & P2)). exact (sh_in_out A p SA (K p P1) P2).
Qed.
Lemma ms_edges_on m e p : In e (multisegment_edges m) -> on_segment (fst e) (snd e) p -> in_multisegment m p.
Proof. intros I H. apply in_map_iff in I. destruct I as (s & <- & I). exists s. auto. Qed.
Lemma multisegment_in_region_uniform_l m r : valid_multisegment m -> simple_contour r -> forall rel, In rel [DISJOINT; WITHIN] ->
  (multisegment_in_region m r = Ok rel <-> forall s, In s (segments m) -> segment_in_region s r = Ok rel).
Proof.
  intros V R rel I. pose proof (proj1 (Forall_forall _ _) (proj1 (proj2 V))) as ND.
  assert (H : (multisegment_in_region m r = Ok DISJOINT <-> subset (in_multisegment m) (outside r)) /\ (multisegment_in_region m r = Ok WITHIN <-> subset (in_multisegment m) (inside r))).
  { apply (round_one _ (region_area r) (runs_around (in_multisegment m) (region_area r)) False); [exact (shaped_region r R)|intros K; exact (proj2 K)|intros []|intros K; left; exact (multisegment_in_region_exact_l m r V R K)|].
    intros K. destruct (multisegment_in_region_around_l m r V R K) as [(E & _)|(E & _)]; auto. }
  destruct I as [<-|[<-|[]]]; [apply (uniform _ _ (outside r) _ _ _ (united_ms m) (proj1 H))|apply (uniform _ _ (inside r) _ _ _ (united_ms m) (proj2 H))];
    intros s J; apply (segment_in_region_plain_l s r (ND s J) (simple_nondegenerate _ R)).
Qed.
Lemma multisegment_in_polygon_uniform_l m pg : valid_multisegment m -> valid_polygon pg -> forall rel, In rel [DISJOINT; WITHIN] ->
  (multisegment_in_polygon m pg = Ok rel <-> forall s, In s (segments m) -> segment_in_polygon s pg = Ok rel).
Proof.
  intros V R rel I. pose proof (proj1 (Forall_forall _ _) (proj1 (proj2 V))) as ND. destruct (multisegment_in_polygon_or_l m pg V R) as (A1 & A2).
  assert (H : (multisegment_in_polygon m pg = Ok DISJOINT <-> subset (in_multisegment m) (a_out (polygon_area pg))) /\ (multisegment_in_polygon m pg = Ok WITHIN <-> subset (in_multisegment m) (a_in (polygon_area pg)))).
  { refine (round_one _ (polygon_area pg) (runs_around (in_multisegment m) (polygon_area pg)) _ _ (shaped_polygon pg R) _ _ A1 _); [intros K; exact (proj2 K)|intros (_ & K); exact (proj1 (proj2 K))|].
    intros K. destruct (A2 K) as [(E & _)|(E & _)]; auto. }
  destruct I as [<-|[<-|[]]]; [apply (uniform _ _ _ _ _ _ (united_ms m) (proj1 H))|apply (uniform _ _ _ _ _ _ (united_ms m) (proj2 H))];
    intros s J; apply (segment_in_polygon_one s pg (ND s J) R).
Qed.
Lemma multisegment_in_multiregion_uniform_l m rs : valid_multisegment m -> valid_multiregion rs -> rs <> [] -> forall rel, In rel [DISJOINT; WITHIN] ->
  (multisegment_in_multiregion m rs = Ok rel <-> forall s, In s (segments m) -> segment_in_multiregion s rs = Ok rel).
Proof.
  intros V R NE rel I. pose proof (proj1 (Forall_forall _ _) (proj1 (proj2 V))) as ND. destruct (multisegment_in_multiregion_or_l m rs V R NE) as (A1 & A2).
  assert (H : (multisegment_in_multiregion m rs = Ok DISJOINT <-> subset (in_multisegment m) (a_out (multiregion_area rs))) /\ (multisegment_in_multiregion m rs = Ok WITHIN <-> subset (in_multisegment m) (a_in (multiregion_area rs)))).
  { refine (round_one _ (multiregion_area rs) _ _ _ (shaped_multiregion rs R NE) _ _ A1 _); [intros (K1 & K2 & _); auto|intros (_ & K); exact (proj2 (proj2 K))|].
    intros K. destruct (A2 K) as [(E & _)|(E & _)]; auto. }
  destruct I as [<-|[<-|[]]]; [apply (uniform _ _ _ _ _ _ (united_ms m) (proj1 H))|apply (uniform _ _ _ _ _ _ (united_ms m) (proj2 H))];
    intros s J; apply (segment_in_multiregion_one s rs (ND s J) R NE).
Qed.
Lemma multisegment_in_multipolygon_uniform_l m mp : valid_multisegment m -> valid_multipolygon mp -> polygons mp <> [] -> forall rel, In rel [DISJOINT; WITHIN] ->
  (multisegment_in_multipolygon m mp = Ok rel <-> forall s, In s (segments m) -> segment_in_multipolygon s mp = Ok rel).
Proof.
  intros V R NE rel I. pose proof (proj1 (Forall_forall _ _) (proj1 (proj2 V))) as ND. destruct (multisegment_in_multipolygon_or_l m mp V R NE) as (A1 & A2).
  assert (H : (multisegment_in_multipolygon m mp = Ok DISJOINT <-> subset (in_multisegment m) (a_out (multipolygon_area mp))) /\ (multisegment_in_multipolygon m mp = Ok WITHIN <-> subset (in_multisegment m) (a_in (multipolygon_area mp)))).
  { refine (round_one _ (multipolygon_area mp) _ _ _ (shaped_multipolygon mp R NE) _ _ A1 _); [intros (K1 & K2 & _); auto| |].
    - intros (K & _). destruct (contact_point _ _ K) as (e & e' & p & I1 & J1 & H1 & H2). exists p. split; [exact (ms_edges_on m e p I1 H1)|exact (polygon_edges_on mp e' p J1 H2)].
    - intros K. destruct (A2 K) as [(E & _)|(E & _)]; auto. }
  destruct I as [<-|[<-|[]]]; [apply (uniform _ _ _ _ _ _ (united_ms m) (proj1 H))|apply (uniform _ _ _ _ _ _ (united_ms m) (proj2 H))];
    intros s J; apply (segment_in_multipolygon_one s mp (ND s J) R NE).
Qed.

(** * Lines and lines *)
Definition line_facts_of (X Y : point -> Prop) (u : res relation) : Prop :=
  exists rel, u = Ok rel /\ (rel = DISJOINT <-> ~ meets X Y) /\ (In rel sharing_relations <-> share_segment X Y) /\ (~ In rel sharing_relations -> finitely_many X Y).
Definition lies (X Y : point -> Prop) (u : res relation) : Prop := one_of lying_relations u <-> subset X Y.
Lemma line_answer_facts X Y u : share_segment X X -> share_segment Y Y -> linear_answer X Y u -> line_facts_of X Y u /\ lies X Y u.
Proof.
  intros SX SY (rel & -> & H & _). apply (segments_facts X Y rel SX SY) in H. split.
  - exists rel. split; [reflexivity|]. destruct rel; cbn in H |- *; try contradiction; intuition (try discriminate).
  - unfold lies, one_of. destruct rel; cbn in H |- *; try contradiction; split; try (intros (x & [<-|[<-|[]]] & E); (discriminate E || tauto)); try tauto; intros _; eexists; (split; [|reflexivity]); cbn; auto.
Qed.
Lemma all_finite l X Y : united l X -> (forall s, In s l -> finitely_many (in_segment s) Y) -> finitely_many X Y.
Proof.
  intros U H. assert (K : forall l', incl l' l -> exists ps, forall s p, In s l' -> in_segment s p -> Y p -> In p ps).
  { induction l' as [|s l' IH]; intros Q; [exists []; intros s p []|]. destruct (IH (fun x I => Q x (or_intror I))) as (ps & F). destruct (H s (Q s (or_introl eq_refl))) as (ps' & F').
    exists (ps' ++ ps). intros t p [<-|I] P1 P2; apply in_or_app; [left; exact (F' p P1 P2)|right; exact (F t p I P1 P2)]. }
  destruct (K l (incl_refl l)) as (ps & F). exists ps. intros p P Q. apply U in P. destruct P as (s & I & P). exact (F s p I P Q).
Qed.
Lemma in_rels_dec (rel : relation) l : In rel l \/ ~ In rel l.
Proof. destruct (in_dec (fun a b : relation => ltac:(decide equality) : {a = b} + {a <> b}) rel l); auto. Qed.
Lemma lines_told l X Y g u : united l X -> line_facts_of X Y u -> (forall s, In s l -> line_facts_of (in_segment s) Y (g s)) ->
  (u = Ok DISJOINT <-> forall s, In s l -> g s = Ok DISJOINT)
  /\ (one_of sharing_relations u <-> exists s, In s l /\ one_of sharing_relations (g s)).
Proof.
  intros U (r & -> & D & Sh & Fi) H. split.
  - split.
    + intros E s I. injection E as ->. destruct (H s I) as (x & E & D' & _). rewrite E. f_equal. apply D'. intros (p & P & Q). apply (proj1 D eq_refl). exists p. split; [apply U; exists s; auto|exact Q].
    + intros K. f_equal. apply D. intros (p & P & Q). apply U in P. destruct P as (s & I & P). destruct (H s I) as (x & E & D' & _). rewrite (K s I) in E. injection E as <-. apply (proj1 D' eq_refl). exists p. auto.
  - split.
    + intros (x & I & E). injection E as <-. apply Sh in I.
      assert (K : forall l', incl l' l -> (exists s, In s l' /\ one_of sharing_relations (g s)) \/ forall s, In s l' -> finitely_many (in_segment s) Y).
      { induction l' as [|s l' IH]; intros Q; [right; intros s []|]. destruct (IH (fun x I' => Q x (or_intror I'))) as [(t & T1 & T2)|F]; [left; exists t; cbn; auto|].
        destruct (H s (Q s (or_introl eq_refl))) as (x & E & _ & _ & F'). destruct (in_rels_dec x sharing_relations) as [K|K]; [left; exists s; split; [left; reflexivity|exists x; auto]|right].
        intros t [<-|T]; [exact (F' K)|exact (F t T)]. }
      destruct (K l (incl_refl l)) as [K'|K']; [exact K'|]. destruct (finite_not X Y (all_finite l X Y U K') I).
    + intros (s & I & x & J & E). destruct (H s I) as (x' & E' & _ & Sh' & _). rewrite E in E'. injection E' as <-. exists r. split; [|reflexivity]. apply Sh. apply Sh' in J. destruct J as (a & b & N & J). exists a, b. split; [exact N|].
      intros p P. destruct (J p P). split; [apply U; exists s; auto|assumption].
Qed.
Lemma lines_lie l X Y g u : united l X -> lies X Y u -> (forall s, In s l -> lies (in_segment s) Y (g s)) ->
  (one_of lying_relations u <-> forall s, In s l -> one_of lying_relations (g s)).
Proof.
  unfold lies. intros U H K. rewrite H, (united_subset l X Y U). split; intros Q s I; apply K; auto.
Qed.
Lemma seg_shares s : nondegenerate s -> share_segment (in_segment s) (in_segment s).
Proof. intros N. exists (s_start s), (s_end s). split; [exact N|]. intros p P. auto. Qed.
Lemma united_shares l X : l <> [] -> (forall s, In s l -> nondegenerate s) -> united l X -> share_segment X X.
Proof.
  intros NE ND U. destruct l as [|s l]; [contradiction|]. exists (s_start s), (s_end s). split; [exact (ND s (or_introl eq_refl))|]. intros p P. assert (X p) by (apply U; exists s; split; [left; reflexivity|exact P]). auto.
Qed.
Lemma ms_shares m : valid_multisegment m -> share_segment (in_multisegment m) (in_multisegment m).
Proof. intros V. apply (united_shares (segments m)); [exact (ms_segments_some m V)|exact (proj1 (Forall_forall _ _) (proj1 (proj2 V)))|apply united_ms]. Qed.
Lemma contour_shares c : simple_contour c -> share_segment (on_contour c) (on_contour c).
Proof. intros C. apply (united_shares (edge_segments c)); [exact (edge_segments_some c C)|exact (proj1 (Forall_forall _ _) (edge_segments_ok c C))|apply united_contour]. Qed.
Lemma segment_in_multisegment_facts s m : nondegenerate s -> valid_multisegment m ->
  line_facts_of (in_segment s) (in_multisegment m) (Ok (segment_in_multisegment s m)) /\ lies (in_segment s) (in_multisegment m) (Ok (segment_in_multisegment s m)).
Proof. intros N V. apply line_answer_facts; [exact (seg_shares s N)|exact (ms_shares m V)|exact (proj1 (segment_in_multisegment_l s m N V))]. Qed.
Lemma segment_in_contour_facts s c : nondegenerate s -> simple_contour c -> line_facts_of (in_segment s) (on_contour c) (segment_in_contour s c).
Proof.
  intros N C. destruct (segment_in_contour_edges_l s c N C) as (rel & E & H & _). exists rel. split; [exact E|].
  assert (One : in_one_edge s c -> share_segment (in_segment s) (on_contour c)).
  { intros (a & b & I & K). exists (s_start s), (s_end s). split; [exact N|]. intros p P. split; [exact P|exists a, b; split; [exact I|exact (K p P)]]. }
  assert (M : share_segment (in_segment s) (on_contour c) -> meets (in_segment s) (on_contour c)) by (intros (a & b & _ & K); exists a; apply K, on_segment_start).
  assert (F : ~ share_segment (in_segment s) (on_contour c) -> finitely_many (in_segment s) (on_contour c)).
  { intros K. apply (all_short_finite s c N C). intros e I. destruct (rel_cases s e) as [R|[R|[R|[R|R]]]]; try exact R; exfalso; apply K.
    all: try (apply (long_share s c N C e I); auto; fail).
    all: apply One; exists (s_start e), (s_end e); split; [apply contour_segments_in, I|apply (inside_edge s c N C e I); auto]. }
  assert (M' : crossed_by s (cyc_pairs (vertices c)) -> meets (in_segment s) (on_contour c)).
  { intros (p & a & b & _ & _ & _ & _ & (Q & _) & I & K & _). exists p. split; [exact Q|exists a, b; auto]. }
  destruct rel; cbn in H |- *; try contradiction; intuition (try discriminate).
Qed.

Lemma component_on s c : nondegenerate s -> simple_contour c -> segment_in_contour s c = Ok COMPONENT -> subset (in_segment s) (on_contour c).
Proof.
  intros N C E. destruct (segment_in_contour_edges_l s c N C) as (rel & E' & H & _). rewrite E in E'. injection E' as <-. destruct H as (a & b & I & K). intros p P. exists a, b. split; [exact I|exact (K p P)].
Qed.
Lemma multisegment_in_multisegment_edges_l m m' : valid_multisegment m -> valid_multisegment m' ->
  let g s := segment_in_multisegment s m' in
  (multisegment_in_multisegment m m' = Ok DISJOINT <-> forall s, In s (segments m) -> g s = DISJOINT)
  /\ (one_of sharing_relations (multisegment_in_multisegment m m') <-> exists s, In s (segments m) /\ In (g s) sharing_relations)
  /\ (one_of lying_relations (multisegment_in_multisegment m m') <-> forall s, In s (segments m) -> In (g s) lying_relations).
Proof.
  intros V V' g. pose proof (proj1 (Forall_forall _ _) (proj1 (proj2 V))) as ND.
  destruct (line_answer_facts _ _ _ (ms_shares m V) (ms_shares m' V') (multisegment_in_multisegment_exact_l m m' V V')) as (F & L).
  assert (O : forall l s, one_of l (Ok (g s)) <-> In (g s) l). { intros l s. split; [intros (x & I & E); injection E as ->; exact I|intros I; exists (g s); auto]. }
  destruct (lines_told (segments m) _ _ (fun s => Ok (g s)) _ (united_ms m) F (fun s I => proj1 (segment_in_multisegment_facts s m' (ND s I) V'))) as (K1 & K2).
  pose proof (lines_lie (segments m) _ _ (fun s => Ok (g s)) _ (united_ms m) L (fun s I => proj2 (segment_in_multisegment_facts s m' (ND s I) V'))) as K3.
  split; [|split].
  - rewrite K1. split; intros H s I; [specialize (H s I); injection H as H; exact H|rewrite (H s I); reflexivity].
  - rewrite K2. split; intros (s & I & H); exists s; (split; [exact I|apply O, H]).
  - rewrite K3. split; intros H s I; apply O, (H s I).
Qed.
Lemma multisegment_in_contour_edges_l m c : valid_multisegment m -> simple_contour c ->
  (multisegment_in_contour m c = Ok DISJOINT <-> forall s, In s (segments m) -> segment_in_contour s c = Ok DISJOINT)
  /\ (one_of sharing_relations (multisegment_in_contour m c) <-> exists s, In s (segments m) /\ one_of sharing_relations (segment_in_contour s c))
  /\ ((forall s, In s (segments m) -> segment_in_contour s c = Ok COMPONENT) -> one_of lying_relations (multisegment_in_contour m c)).
Proof.
  intros V C. pose proof (proj1 (Forall_forall _ _) (proj1 (proj2 V))) as ND.
  destruct (line_answer_facts _ _ _ (ms_shares m V) (contour_shares c C) (multisegment_in_contour_exact_l m c V C)) as (F & L).
  destruct (lines_told (segments m) _ _ (fun s => segment_in_contour s c) _ (united_ms m) F (fun s I => segment_in_contour_facts s c (ND s I) C)) as (K1 & K2).
  split; [exact K1|]. split; [exact K2|]. intros H. apply L. apply (united_subset (segments m) _ _ (united_ms m)). intros s I. exact (component_on s c (ND s I) C (H s I)).
Qed.
Lemma contour_in_contour_edges_l c r : simple_contour c -> simple_contour r ->
  (contour_in_contour c r = Ok DISJOINT <-> forall s, In s (edge_segments c) -> segment_in_contour s r = Ok DISJOINT)
  /\ (one_of sharing_relations (contour_in_contour c r) <-> exists s, In s (edge_segments c) /\ one_of sharing_relations (segment_in_contour s r))
  /\ ((forall s, In s (edge_segments c) -> segment_in_contour s r = Ok COMPONENT) -> contour_in_contour c r = Ok EQUAL).
Proof.
  intros V C. pose proof (proj1 (Forall_forall _ _) (edge_segments_ok c V)) as ND.
  destruct (line_answer_facts _ _ _ (contour_shares c V) (contour_shares r C) (proj1 (contour_in_contour_exact_l c r V C))) as (F & L).
  destruct (lines_told (edge_segments c) _ _ (fun s => segment_in_contour s r) _ (united_contour c) F (fun s I => segment_in_contour_facts s r (ND s I) C)) as (K1 & K2).
  split; [exact K1|]. split; [exact K2|]. intros H.
  assert (O : one_of lying_relations (contour_in_contour c r)).
  { apply L. apply (united_subset (edge_segments c) _ _ (united_contour c)). intros s I. exact (component_on s r (ND s I) C (H s I)). }
  destruct O as (x & [<-|[<-|[]]] & E); [|exact E]. destruct (contour_in_contour_whole_l c r V C) as (W & _). contradiction.
Qed.
(* Contours without straight vertices. *)
Lemma cornered_lies s c : nondegenerate s -> simple_contour c -> cornered c -> (segment_in_contour s c = Ok COMPONENT <-> subset (in_segment s) (on_contour c)).
Proof.
  intros N C K. split; [exact (component_on s c N C)|]. intros H. destruct (line_answer_facts _ _ _ (seg_shares s N) (contour_shares c C) (proj1 (segment_in_contour_l s c N C K))) as (_ & L).
  apply L in H. destruct H as (x & [<-|[<-|[]]] & E); [exact E|]. exfalso. destruct (segment_in_contour_edges_l s c N C) as (rel & E' & H & _). rewrite E in E'. injection E' as <-. exact H.
Qed.
Lemma cornered_edges_l c m b : simple_contour c -> cornered c -> valid_multisegment m -> simple_contour b ->
  (one_of lying_relations (multisegment_in_contour m c) <-> forall s, In s (segments m) -> segment_in_contour s c = Ok COMPONENT)
  /\ (contour_in_contour b c = Ok EQUAL <-> forall s, In s (edge_segments b) -> segment_in_contour s c = Ok COMPONENT).
Proof.
  intros C K V B. split.
  - split; [|apply (multisegment_in_contour_edges_l m c V C)]. intros H s I. pose proof (proj1 (Forall_forall _ _) (proj1 (proj2 V)) s I) as N. apply (cornered_lies s c N C K).
    apply (proj1 (united_subset (segments m) _ _ (united_ms m))); [|exact I]. apply (line_answer_facts _ _ _ (ms_shares m V) (contour_shares c C) (multisegment_in_contour_exact_l m c V C)). exact H.
  - split; [|apply (contour_in_contour_edges_l b c B C)]. intros H s I. pose proof (proj1 (Forall_forall _ _) (edge_segments_ok b B) s I) as N. apply (cornered_lies s c N C K).
    apply (proj1 (united_subset (edge_segments b) _ _ (united_contour b))); [|exact I]. apply (line_answer_facts _ _ _ (contour_shares b B) (contour_shares c C) (proj1 (contour_in_contour_exact_l b c B C))). exists EQUAL. cbn. auto.
Qed.
