(* When the queries about two linear geometries answer CROSS. *)
From Coq Require Import QArith Qcanon List Bool ZArith Lia Permutation.
From Verif Require Import Scalar Base Ground MLinear MSweep MCompound Planar Spec Geom RayParity SegProofs BoxProofs
  SweepStore SweepDetect SweepSteps Termination SweepSafe NoFail SweepTime SweepOrder SweepMoves SweepAdvance SweepLoop SweepEmit SweepRun SweepFound SweepCross
  OpenProofs Orient.
Import ListNotations.
Open Scope Qc_scope.

Lemma open_cross inp stop b : items_ok inp -> apart inp -> ends_by inp stop b -> has_segment (side_has inp true) -> has_segment (side_has inp false) ->
  let r := process_open_linear_queue (sweep_fuel (init_state inp)) (init_state inp) stop in
  (r = Ok CROSS -> through inp) /\ (items_cross inp -> ~ share_segment (side_has inp true) (side_has inp false) -> r = Ok CROSS).
Proof.
  intros IO AP EB HT HG r. destruct (open_answer inp stop b IO AP EB HT HG) as (rel & E & S & U). fold r in E. rewrite E. unfold r in E. clear r.
  unfold process_open_linear_queue, process in E.
  destruct (sweep true (sweep_fuel (init_state inp)) stop (init_state inp)) as [outs r] eqn:Sw.
  destruct (open_consume outs (OA true true true true true)) as (a & Ec & _ & _ & H3 & _ & H5). rewrite Ec in E.
  destruct r as [q|ex]; [|discriminate]. injection E as E. cbn [oa_no_overlap oa_no_cross andb] in H3, H5.
  destruct (sweep_finds inp IO AP true stop b _ outs q EB Sw) as (_ & Over & _).
  assert (NoF : forall f, forallb f outs = false -> exists o, In o outs /\ f o = false).
  { clear. intros f. induction outs as [|o l IH]; cbn; [discriminate|]. destruct (f o) eqn:Eo; cbn; [|exists o; auto].
    intros K. destruct (IH K) as (x & I & F). exists x. auto. }
  split.
  - intros K. injection K as ->.
    assert (Z : oa_no_cross a = false /\ oa_no_overlap a = true).
    { unfold open_finish in E. destruct (queue_rest q) as [[|]|], a as [ts gs nc nt no]; destruct ts, gs, nc, nt, no; cbn in E; try discriminate; cbn; auto. }
    destruct Z as [Z1 Z2]. rewrite (H5 Z2) in Z1. destruct (NoF _ Z1) as (o & I & F). apply (sweep_through inp true stop b _ outs q IO AP EB Sw o I).
    destruct (srel_eqb_spec (l_relation o) SCROSS); [assumption|discriminate].
  - intros X N.
    assert (Z2 : oa_no_overlap a = true).
    { destruct (oa_no_overlap a); [reflexivity|]. exfalso. apply N, Over. destruct (NoF _ (eq_sym H3)) as (o & I & F). exists o. split; [exact I|].
      unfold over in F. destruct (srel_eqb_spec (l_relation o) SOVERLAP); [assumption|discriminate]. }
    destruct (cross_found inp true stop b _ outs q IO AP EB Sw X) as (o & I & Eo).
    { intros o I Eo. rewrite Z2 in H3. symmetry in H3. rewrite forallb_forall in H3. specialize (H3 o I). unfold over in H3. rewrite Eo in H3. discriminate. }
    assert (Z1 : oa_no_cross a = false).
    { rewrite (H5 Z2). match goal with |- forallb ?g outs = false => destruct (forallb g outs) eqn:F end; [|reflexivity]. rewrite forallb_forall in F. specialize (F o I). rewrite Eo in F. discriminate. }
    f_equal. assert (M : linear_spec (side_has inp true) (side_has inp false) CROSS).
    { destruct X as (x & y & p & X1 & Y1 & X2 & Y2 & X3 & Y3 & _). split; [exists p; split; [exists x; auto|exists y; auto]|]. split; [exact N|].
      destruct (sweep_finds inp IO AP true stop b _ outs q EB Sw) as (_ & _ & _ & _ & Fin). apply Fin.
      intros o' I' Eo'. rewrite Z2 in H3. symmetry in H3. rewrite forallb_forall in H3. specialize (H3 o' I'). unfold over in H3. rewrite Eo' in H3. discriminate. }
    destruct (U CROSS M) as [K|[K _]]; [symmetry; exact K|]. destruct K as [K|[K|[]]]; [|symmetry; exact K]. exfalso. subst rel.
    unfold open_finish in K. destruct (queue_rest q) as [[|]|], a as [ts gs nc nt no]; cbn in Z1, Z2; subst; destruct ts, gs, nt; cbn in K; discriminate.
Qed.
(** * Lists of segments *)
Lemma two_in g t x : In x (two_items g t) -> exists e, x = item_of (it_ft x) e /\ In e (if it_ft x then t else g).
Proof.
  intros I. apply in_app_iff in I. destruct I as [I|I]; apply in_map_iff in I; destruct I as (e & <- & I); exists e; rewrite item_of_ft; auto.
Qed.
Lemma item_inner b e p : on_item (item_of b e) p /\ p <> it_lo (item_of b e) /\ p <> it_hi (item_of b e) <-> strictly_between (fst e) (snd e) p.
Proof. unfold strictly_between. rewrite (on_item_of b e p). destruct (item_ends b e) as [(-> & -> & _)|(-> & -> & _)]; tauto. Qed.
Lemma items_edges g t : items_cross (two_items g t) <-> edges_cross t g.
Proof.
  split.
  - intros (x & y & p & X1 & Y1 & X2 & Y2 & X3 & Y3 & D1 & D2 & D3 & D4).
    destruct (two_in g t x X1) as ([a b] & Ex & Ix). destruct (two_in g t y Y1) as ([c d] & Ey & Iy). rewrite X2 in Ex, Ix. rewrite Y2 in Ey, Iy.
    exists a, b, c, d, p. split; [exact Ix|]. split; [exact Iy|]. subst x y. split; [apply (item_inner true (a, b)); auto|apply (item_inner false (c, d)); auto].
  - intros (a & b & c & d & p & I & I' & B & B'). apply (item_inner true (a, b)) in B. apply (item_inner false (c, d)) in B'.
    exists (item_of true (a, b)), (item_of false (c, d)), p. split; [apply in_app_iff; right; apply in_map; exact I|]. split; [apply in_app_iff; left; apply in_map; exact I'|].
    rewrite !item_of_ft. tauto.
Qed.
Lemma passes_through g t (b : bool) p : SweepCross.passes (two_items g t) b p -> goes_through (if b then t else g) p.
Proof.
  intros (x & I & <- & Ox & H). destruct (two_in g t x I) as ([a c] & Ex & Ix). exists a, c. split; [exact Ix|].
  rewrite Ex in Ox. split; [apply on_item_of in Ox; exact Ox|]. destruct H as [[H1 H2]|(y & Iy & Fy & Ny & Oy)].
  - left. rewrite Ex in H1, H2. destruct (proj1 (item_inner (it_ft x) (a, c) p)) as (_ & B1 & B2); auto.
  - right. destruct (two_in g t y Iy) as ([d e] & Ey & Jy). rewrite Fy in Ey, Jy. exists d, e. split; [exact Jy|]. split; [|rewrite Ey in Oy; apply on_item_of in Oy; exact Oy].
    intros K. apply Ny. rewrite Ey, K. symmetry. exact Ex.
Qed.
Lemma two_cross g t gb tb : tidy g -> tidy t -> g <> [] -> t <> [] -> tight gb (ends_set g) -> tight tb (ends_set t) ->
  let r := if disjoint_with gb tb then Ok DISJOINT
     else run_open (register (register q_empty g false) t true) (qmin (max_x gb) (max_x tb)) in
  (r = Ok CROSS -> exists p, goes_through t p /\ goes_through g p) /\ (edges_cross t g -> ~ share_segment (ends_set t) (ends_set g) -> r = Ok CROSS).
Proof.
  intros Tg Tt Ng Nt Bg Bt r. unfold r. clear r. pose proof (tidy_segment t Tt Nt) as St. pose proof (tidy_segment g Tg Ng) as Sg.
  destruct (disjoint_with gb tb) eqn:D.
  - split; [discriminate|]. intros (a & b & c & d & p & I & I' & (B & _) & (B' & _)). exfalso.
    apply (disjoint_with_iff _ _ _ _ Bg Bt) in D. apply axis_separated_sym, separated_not_meets in D. apply D. exists p. split; [exists (a, b); auto|exists (c, d); auto].
  - destruct (two_ok g t Tg Tt) as [IO AP]. destruct (two_ends g t gb tb Ng Nt Bg Bt) as [b EB].
    unfold run_open. rewrite registered. fold (two_items g t).
    destruct (open_cross (two_items g t) (qmin (max_x gb) (max_x tb)) b IO AP EB) as [A B].
    + destruct St as (u & v & N & H). exists u, v. split; [exact N|]. intros p Hp. apply (two_sides g t p), H, Hp.
    + destruct Sg as (u & v & N & H). exists u, v. split; [exact N|]. intros p Hp. apply (two_sides g t p), H, Hp.
    + split.
      * intros K. destruct (A K) as (p & P1 & P2). exists p. split; [exact (passes_through g t true p P1)|exact (passes_through g t false p P2)].
      * intros X N. apply B; [apply items_edges, X|]. intros (u & v & Nu & H). apply N. exists u, v. split; [exact Nu|]. intros p Hp. destruct (H p Hp) as [H1 H2].
        split; [apply (proj2 (two_sides g t p)), H1|apply (proj1 (two_sides g t p)), H2].
Qed.
Lemma share_ext X X' Y Y' : (forall p, X p <-> X' p) -> (forall p, Y p <-> Y' p) -> (share_segment X Y <-> share_segment X' Y').
Proof. intros EX EY. split; intros (u & v & N & H); exists u, v; (split; [exact N|]); intros p Hp; destruct (H p Hp); split; (apply EX; assumption) || (apply EY; assumption). Qed.
Lemma multisegments_cross_l m m' : valid_multisegment m -> valid_multisegment m' ->
  (edges_cross (segment_list m) (segment_list m') -> ~ share_segment (in_multisegment m) (in_multisegment m') -> multisegment_in_multisegment m m' = Ok CROSS)
  /\ (multisegment_in_multisegment m m' = Ok CROSS -> exists p, goes_through (segment_list m) p /\ goes_through (segment_list m') p).
Proof.
  intros V V'. destruct (ms_good m V) as [N T], (ms_good m' V') as [N' T'].
  destruct (segments_box_tight _ N) as (b & E & B). destruct (segments_box_tight _ N') as (b' & E' & B').
  unfold multisegment_in_multisegment, multisegment_relate_multisegment. rewrite E', E. cbn [bind].
  assert (Z : forall x, segments x <> [] -> to_segments_endpoints x <> []).
  { intros x K. unfold to_segments_endpoints. destruct (segments x); [congruence|discriminate]. }
  rewrite <- (share_ext _ _ _ _ (ms_ends m) (ms_ends m')).
  destruct (two_cross (to_segments_endpoints m') (to_segments_endpoints m) b' b T' T (Z m' N') (Z m N)) as [A1 A2].
  - eapply tight_ext; [|exact B']. intros p. symmetry. destruct m'. apply ms_ends.
  - eapply tight_ext; [|exact B]. intros p. symmetry. destruct m. apply ms_ends.
  - split; [exact A2|exact A1].
Qed.
Lemma edges_cross_perm l k k' : Permutation k k' -> edges_cross l k -> edges_cross l k'.
Proof. intros P (a & b & c & d & p & I & I' & H). exists a, b, c, d, p. split; [exact I|]. split; [exact (Permutation_in _ P I')|exact H]. Qed.
Lemma goes_through_perm k k' p : Permutation k k' -> goes_through k p -> goes_through k' p.
Proof.
  intros P (a & b & I & O & H). exists a, b. split; [exact (Permutation_in _ P I)|]. split; [exact O|]. destruct H as [H|(c & d & J & H)]; [left; exact H|right].
  exists c, d. split; [exact (Permutation_in _ P J)|exact H].
Qed.
Lemma multisegment_contour_cross_l m c : valid_multisegment m -> simple_contour c ->
  (edges_cross (segment_list m) (cyc_pairs (vertices c)) -> ~ share_segment (in_multisegment m) (on_contour c) -> multisegment_in_contour m c = Ok CROSS)
  /\ (multisegment_in_contour m c = Ok CROSS -> exists p, goes_through (segment_list m) p /\ on_contour c p).
Proof.
  intros V C. destruct (ms_good m V) as [N T].
  destruct (segments_box_tight _ N) as (b & E & B). destruct (contour_box_tight _ (simple_nonempty c C)) as (b' & E' & B').
  unfold multisegment_in_contour, contour_relate_multisegment. rewrite E', E. cbn [bind].
  rewrite <- (share_ext _ _ _ _ (ms_ends m) (contour_ends c)). pose proof (edges_endpoints_perm c) as Pm.
  destruct (two_cross (edges_endpoints c) (to_segments_endpoints m) b' b) as [A1 A2].
  - apply edges_tidy, C.
  - exact T.
  - apply edges_nonempty, C.
  - unfold to_segments_endpoints. destruct (segments m); [congruence|discriminate].
  - eapply tight_ext; [|exact B']. intros p. symmetry. apply contour_ends.
  - eapply tight_ext; [|exact B]. intros p. symmetry. destruct m. apply ms_ends.
  - split.
    + intros X. apply A2. exact (edges_cross_perm _ _ _ (Permutation_sym Pm) X).
    + intros K. destruct (A1 K) as (p & P1 & a & d & P2 & P3 & _). exists p. split; [exact P1|]. apply contour_ends. exists (a, d). auto.
Qed.
