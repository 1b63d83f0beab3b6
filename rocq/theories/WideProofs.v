(* When multisegment_in_multisegment answers CROSS, with any number of branches. *)
From Coq Require Import QArith Qcanon Lqa List Bool ZArith Lia Permutation.
From Verif Require Import Scalar Base Ground MLinear MSweep MCompound Planar Spec SpecAreas SpecMore SpecSides SpecWide Geom RayParity SegProofs BoxProofs PointProofs EqualProofs RefuteProofs
  SweepStore SweepDetect SweepSteps Termination SweepSafe NoFail SweepTime SweepOrder SweepMoves SweepAdvance SweepLoop SweepEmit SweepRun SweepFound SweepCross
  OpenProofs LeftSide Orient CrossProofs Corner SegContour SegEdges SegStraight SegRegion SegTold Rewritten SweepAngles SweepSides AreaAnswer AreaQueries SidesProofs WideAngles SweepWide.
Import ListNotations.
Open Scope Qc_scope.

Lemma open_wide inp stop b : items_ok inp -> apart inp -> ends_by inp stop b -> has_segment (side_has inp true) -> has_segment (side_has inp false) ->
  (process_open_linear_queue (sweep_fuel (init_state inp)) (init_state inp) stop = Ok CROSS
   -> ~ share_segment (side_has inp true) (side_has inp false) /\ exists p, may inp p)
  /\ (~ share_segment (side_has inp true) (side_has inp false) -> (exists p, must inp p) ->
      process_open_linear_queue (sweep_fuel (init_state inp)) (init_state inp) stop = Ok CROSS).
Proof.
  intros IO AP EB HT HG. destruct (open_answer inp stop b IO AP EB HT HG) as (rel & E & S & U). rewrite E.
  unfold process_open_linear_queue, process in E.
  destruct (sweep true (sweep_fuel (init_state inp)) stop (init_state inp)) as [outs r] eqn:Sw.
  destruct (open_consume outs (OA true true true true true)) as (a & Ec & _ & _ & H3 & _ & H5). rewrite Ec in E.
  destruct r as [q|ex]; [|discriminate]. injection E as E. cbn [oa_no_overlap oa_no_cross andb] in H3, H5.
  assert (NoF : forall f, forallb f outs = false -> exists o, In o outs /\ f o = false).
  { clear. intros f. induction outs as [|o l IH]; cbn; [discriminate|]. destruct (f o) eqn:Eo; cbn; [|exists o; auto].
    intros K. destruct (IH K) as (x & I & F). exists x. auto. }
  split.
  - intros K. injection K as ->. destruct S as (_ & N & _). split; [exact N|].
    apply (sweep_wide inp stop b _ outs q IO AP EB (fun H => N (shared_segment inp H)) Sw).
    assert (Z : oa_no_cross a = false /\ oa_no_overlap a = true).
    { unfold open_finish in E. destruct (queue_rest q) as [[|]|], a as [ts gs nc nt no]; destruct ts, gs, nc, nt, no; cbn in E; try discriminate; cbn; auto. }
    destruct Z as [Z1 Z2]. rewrite (H5 Z2) in Z1. destruct (NoF _ Z1) as (o & I & F). exists o. split; [exact I|].
    destruct (srel_eqb_spec (l_relation o) SCROSS); [assumption|discriminate].
  - intros N X.
    destruct (sweep_finds inp IO AP true stop b _ outs q EB Sw) as (_ & Over & _).
    assert (Z2 : oa_no_overlap a = true).
    { destruct (oa_no_overlap a); [reflexivity|]. exfalso. apply N, Over. destruct (NoF _ (eq_sym H3)) as (o & I & F). exists o. split; [exact I|].
      unfold over in F. destruct (srel_eqb_spec (l_relation o) SOVERLAP); [assumption|discriminate]. }
    assert (Cm : meets (side_has inp true) (side_has inp false)).
    { destruct X as (p & X). exists p. exact (must_common inp p X). }
    apply (sweep_wide inp stop b _ outs q IO AP EB (fun H => N (shared_segment inp H)) Sw) in X. destruct X as (o & I & Eo).
    assert (Z1 : oa_no_cross a = false).
    { rewrite (H5 Z2). match goal with |- forallb ?g outs = false => destruct (forallb g outs) eqn:F end; [|reflexivity]. rewrite forallb_forall in F. specialize (F o I). rewrite Eo in F. discriminate. }
    f_equal. assert (M : linear_spec (side_has inp true) (side_has inp false) CROSS).
    { split; [exact Cm|]. split; [exact N|].
      destruct (sweep_finds inp IO AP true stop b _ outs q EB Sw) as (_ & _ & _ & _ & Fin). apply Fin.
      intros o' I' Eo'. rewrite Z2 in H3. symmetry in H3. rewrite forallb_forall in H3. specialize (H3 o' I'). unfold over in H3. rewrite Eo' in H3. discriminate. }
    destruct (U CROSS M) as [K|[K _]]; [symmetry; exact K|]. destruct K as [K|[K|[]]]; [|symmetry; exact K]. exfalso. subst rel.
    unfold open_finish in K. destruct (queue_rest q) as [[|]|], a as [ts gs nc nt no]; cbn in Z1, Z2; subst; destruct ts, gs, nt; cbn in K; discriminate.
Qed.

(** * Lists of segments *)
Lemma ifar_two g t p u w : ifar (two_items g t) p u w <-> farthest g p u w.
Proof.
  unfold ifar, farthest. rewrite branch_two. split; intros [H F]; (split; [exact H|]); intros v B; apply F; apply (branch_two g t false), B.
Qed.
Lemma iwide_two g t p u w : iwide (two_items g t) p u w <-> wide_pair g p u w.
Proof.
  unfold iwide, wide_pair. rewrite ifar_two. split; intros (N & F & u0 & B & F0); (split; [exact N|]; split; [exact F|]; exists u0).
  - split; [apply (branch_two g t false), B|apply (ifar_two g t), F0].
  - split; [apply (branch_two g t false), B|apply (ifar_two g t), F0].
Qed.
Lemma iboth_two g t p u w : iboth (two_items g t) p u w <-> branches_both t p u w.
Proof.
  split.
  - intros (q & r & B3 & B4 & D). rewrite branch_two in B3, B4. destruct (angle_in p u w q) eqn:E1.
    + exists q, r. rewrite !in_angle_iff. repeat (split; [assumption|]). congruence.
    + exists r, q. rewrite !in_angle_iff. repeat (split; [assumption|]). destruct (angle_in p u w r); [split; congruence|congruence].
  - intros (q & r & B3 & B4 & W1 & W2). exists q, r. rewrite !branch_two. repeat (split; [assumption|]). rewrite in_angle_iff in W1, W2. congruence.
Qed.
Lemma imid_two g t p : imid (two_items g t) p <-> pass_through t g p.
Proof.
  split.
  - intros (x & y & X1 & Y1 & X2 & Y2 & X3 & Y3 & D1 & D2 & D3 & D4).
    destruct (two_in g t x X1) as ([a b] & Ex & Ix). destruct (two_in g t y Y1) as ([a' b'] & Ey & Iy). rewrite X2 in Ix. rewrite Y2 in Iy.
    exists a, b, a', b'. rewrite Ex in X3, D1, D2. rewrite Ey in Y3, D3, D4. apply on_item_of in X3, Y3. cbn [fst snd] in X3, Y3.
    destruct (item_ends (it_ft x) (a, b)) as [(H1 & H2 & _)|(H1 & H2 & _)], (item_ends (it_ft y) (a', b')) as [(K1 & K2 & _)|(K1 & K2 & _)]; rewrite H1 in D1; rewrite H2 in D2; rewrite K1 in D3; rewrite K2 in D4; cbn in D1, D2, D3, D4; auto 10.
  - intros (a & b & a' & b' & I & O & D1 & D2 & I' & O' & D3 & D4).
    exists (item_of true (a, b)), (item_of false (a', b')). rewrite !item_of_ft, !on_item_of.
    split; [apply in_app_iff; right; apply in_map, I|]. split; [apply in_app_iff; left; apply in_map, I'|]. repeat (split; [reflexivity || assumption|]).
    destruct (item_ends true (a, b)) as [(H1 & H2 & _)|(H1 & H2 & _)], (item_ends false (a', b')) as [(K1 & K2 & _)|(K1 & K2 & _)]; rewrite H1, H2, K1, K2; auto.
Qed.
Lemma may_two g t : (exists p, may (two_items g t) p) <-> crosses_somehow t g.
Proof.
  split; intros (p & H); exists p; (destruct H as [H|(u & w & H1 & H2)]; [left; apply imid_two, H|right; exists u, w]).
  - split; [apply (iwide_two g t), H1|apply (iboth_two g t), H2].
  - split; [apply (iwide_two g t), H1|apply (iboth_two g t), H2].
Qed.
Lemma must_two g t : (exists p, must (two_items g t) p) <-> crosses_anyhow t g.
Proof.
  split; intros (p & H); exists p; (destruct H as [H|(H0 & (u & w & B1 & B2 & N) & H2)]; [left; apply imid_two, H|right]).
  - split; [apply (two_sides g t p) in H0; destruct H0 as ([a b] & I & O); exists a, b; auto|].
    split; [exists u, w; split; [apply (branch_two g t false), B1|split; [apply (branch_two g t false), B2|exact N]]|]. intros u' w' K. apply (iboth_two g t), H2. apply (iwide_two g t), K.
  - split; [destruct H0 as (a & b & I & O); apply (two_sides g t p); exists (a, b); auto|].
    split; [exists u, w; split; [apply (branch_two g t false), B1|split; [apply (branch_two g t false), B2|exact N]]|]. intros u' w' K. apply (iboth_two g t), H2, (iwide_two g t), K.
Qed.
Lemma two_wide g t gb tb : tidy g -> tidy t -> g <> [] -> t <> [] -> tight gb (ends_set g) -> tight tb (ends_set t) ->
  ((if disjoint_with gb tb then Ok DISJOINT
    else run_open (register (register q_empty g false) t true) (qmin (max_x gb) (max_x tb))) = Ok CROSS
   -> ~ share_segment (ends_set t) (ends_set g) /\ crosses_somehow t g)
  /\ (~ share_segment (ends_set t) (ends_set g) -> crosses_anyhow t g ->
   (if disjoint_with gb tb then Ok DISJOINT
    else run_open (register (register q_empty g false) t true) (qmin (max_x gb) (max_x tb))) = Ok CROSS).
Proof.
  intros Tg Tt Ng Nt Bg Bt. pose proof (tidy_segment t Tt Nt) as St. pose proof (tidy_segment g Tg Ng) as Sg.
  destruct (disjoint_with gb tb) eqn:D.
  - split; [discriminate|]. intros _ H. exfalso. apply must_two in H. destruct H as (p & H). apply must_common in H. destruct H as [H1 H2].
    apply (disjoint_with_iff _ _ _ _ Bg Bt) in D. apply axis_separated_sym, separated_not_meets in D. apply D. exists p. split; apply (two_sides g t p); assumption.
  - destruct (two_ok g t Tg Tt) as [IO AP]. destruct (two_ends g t gb tb Ng Nt Bg Bt) as [b EB].
    unfold run_open. rewrite registered. fold (two_items g t).
    rewrite <- (share_ext _ _ _ _ (fun p => proj2 (two_sides g t p)) (fun p => proj1 (two_sides g t p))). rewrite <- may_two, <- must_two. apply (open_wide (two_items g t) _ b IO AP EB).
    + destruct St as (u & v & N & H). exists u, v. split; [exact N|]. intros p Hp. apply (two_sides g t p), H, Hp.
    + destruct Sg as (u & v & N & H). exists u, v. split; [exact N|]. intros p Hp. apply (two_sides g t p), H, Hp.
Qed.
Lemma multisegments_wide_l m m' : valid_multisegment m -> valid_multisegment m' ->
  (multisegment_in_multisegment m m' = Ok CROSS -> ~ share_segment (in_multisegment m) (in_multisegment m') /\ crosses_somehow (segment_list m) (segment_list m'))
  /\ (~ share_segment (in_multisegment m) (in_multisegment m') -> crosses_anyhow (segment_list m) (segment_list m') -> multisegment_in_multisegment m m' = Ok CROSS).
Proof.
  intros V V'. destruct (ms_good m V) as [N T], (ms_good m' V') as [N' T'].
  destruct (segments_box_tight _ N) as (b & E & B). destruct (segments_box_tight _ N') as (b' & E' & B').
  unfold multisegment_in_multisegment, multisegment_relate_multisegment. rewrite E', E. cbn [bind].
  assert (Z : forall x, segments x <> [] -> to_segments_endpoints x <> []).
  { intros x K. unfold to_segments_endpoints. destruct (segments x); [congruence|discriminate]. }
  rewrite <- (share_ext _ _ _ _ (ms_ends m) (ms_ends m')).
  apply (two_wide (to_segments_endpoints m') (to_segments_endpoints m) b' b T' T (Z m' N') (Z m N)).
  - eapply tight_ext; [|exact B']. intros p. symmetry. destruct m'. apply ms_ends.
  - eapply tight_ext; [|exact B]. intros p. symmetry. destruct m. apply ms_ends.
Qed.
Lemma bounded_answer X Y (C C' : Prop) r : linear_answer X Y r -> (r = Ok CROSS -> ~ share_segment X Y /\ C') -> (~ share_segment X Y -> C -> r = Ok CROSS) ->
  exists rel, r = Ok rel /\ bounded_spec X Y C C' rel.
Proof.
  intros (rel & E & S & _) I J. rewrite E in *. exists rel. split; [reflexivity|]. split; [exact S|]. split; [intros ->; apply I; reflexivity|].
  intros -> K. destruct S as (_ & N & _). specialize (J N K). discriminate.
Qed.
Lemma multisegment_in_multisegment_wide_l m m' : valid_multisegment m -> valid_multisegment m' ->
  exists rel, multisegment_in_multisegment m m' = Ok rel
    /\ bounded_spec (in_multisegment m) (in_multisegment m') (crosses_anyhow (segment_list m) (segment_list m')) (crosses_somehow (segment_list m) (segment_list m')) rel.
Proof.
  intros V V'. destruct (multisegments_wide_l m m' V V') as [H K]. apply bounded_answer; [apply multisegment_in_multisegment_exact_l; assumption|exact H|exact K].
Qed.
(** * In plainer words *)
Lemma may_sides inp : items_ok inp -> apart inp -> ~ shared inp -> forall p, may inp p -> sides inp p.
Proof.
  intros IO AP NS p [(x & y & X1 & Y1 & X2 & Y2 & X3 & Y3 & D1 & D2 & D3 & D4)|(u & w & (N & (BW & _) & u0 & _ & BU & _) & q & r & BQ & BR & D)].
  - exact (mid_sides inp IO AP NS p x y X1 Y1 X2 Y2 X3 Y3 D1 D2 D3 D4).
  - exists u, w, q, r. auto 10.
Qed.
Lemma multisegments_cross_parted_l m m' : valid_multisegment m -> valid_multisegment m' -> multisegment_in_multisegment m m' = Ok CROSS ->
  ~ share_segment (in_multisegment m) (in_multisegment m') /\ parted (segment_list m) (segment_list m').
Proof.
  intros V V' H. destruct (multisegments_wide_l m m' V V') as [K _]. destruct (K H) as [N C]. split; [exact N|].
  destruct (ms_good m V) as [_ T], (ms_good m' V') as [_ T']. destruct (two_ok _ _ T' T) as [IO AP].
  apply parted_iff. apply may_two in C. destruct C as (p & C). exists p. apply may_sides; [exact IO|exact AP| |exact C].
  intros Q. apply N. apply (share_ext _ _ _ _ (ms_ends m) (ms_ends m')).
  apply shared_segment in Q. revert Q. apply (share_ext _ _ _ _ (fun p => proj2 (two_sides (to_segments_endpoints m') (to_segments_endpoints m) p)) (fun p => proj1 (two_sides (to_segments_endpoints m') (to_segments_endpoints m) p))).
Qed.
Lemma multisegments_all_parted_l m m' p : valid_multisegment m -> valid_multisegment m' -> ~ share_segment (in_multisegment m) (in_multisegment m') ->
  in_multisegment m p -> (exists u w, branch_at (segment_list m') p u /\ branch_at (segment_list m') p w /\ u <> w) ->
  (forall u w, branch_at (segment_list m') p u -> branch_at (segment_list m') p w -> u <> w -> branches_both (segment_list m) p u w) ->
  multisegment_in_multisegment m m' = Ok CROSS.
Proof.
  intros V V' N I B F. destruct (multisegments_wide_l m m' V V') as [_ K]. apply (K N). exists p. right.
  split; [destruct I as (s & I & O); exists (s_start s), (s_end s); split; [apply in_map_iff; exists s; auto|exact O]|]. split; [exact B|].
  intros u w (D & (BW & _) & u0 & _ & BU & _). exact (F u w BU BW D).
Qed.
