(* process_open_linear_queue: multisegments in multisegments and contours. *)
From Coq Require Import QArith Qcanon List Bool ZArith Lia.
From Verif Require Import Scalar Base Ground MLinear MSweep MCompound Planar Spec Geom RayParity SegProofs BoxProofs
  SweepStore SweepDetect SweepSteps Termination SweepSafe NoFail SweepTime SweepOrder SweepMoves SweepAdvance SweepLoop SweepEmit SweepRun SweepFound.
Import ListNotations.
Open Scope Qc_scope.

(** * Two registered lists of end points *)
Definition ends_set (l : list (point * point)) (p : point) : Prop := exists e, In e l /\ on_segment (fst e) (snd e) p.
Definition two_items (g t : list (point * point)) : list item := map (item_of false) g ++ map (item_of true) t.
Lemma two_sides g t p : (side_has (two_items g t) false p <-> ends_set g p) /\ (side_has (two_items g t) true p <-> ends_set t p).
Proof.
  unfold side_has, two_items, ends_set. split; split.
  - intros (x & I & F & H). apply in_app_iff in I. destruct I as [I|I]; apply in_map_iff in I; destruct I as (e & <- & I).
    + exists e. split; [exact I|]. apply on_item_of in H. exact H.
    + rewrite item_of_ft in F. discriminate.
  - intros (e & I & H). exists (item_of false e). split; [apply in_app_iff; left; apply in_map; exact I|]. split; [apply item_of_ft|]. apply on_item_of, H.
  - intros (x & I & F & H). apply in_app_iff in I. destruct I as [I|I]; apply in_map_iff in I; destruct I as (e & <- & I).
    + rewrite item_of_ft in F. discriminate.
    + exists e. split; [exact I|]. apply on_item_of in H. exact H.
  - intros (e & I & H). exists (item_of true e). split; [apply in_app_iff; right; apply in_map; exact I|]. split; [apply item_of_ft|]. apply on_item_of, H.
Qed.
Lemma two_ok g t : tidy g -> tidy t -> items_ok (two_items g t) /\ apart (two_items g t).
Proof.
  intros [Ng Cg] [Nt Ct]. split; [apply items_ok_app; apply items_ok_of; assumption|apply apart_two; assumption].
Qed.
Lemma two_ends g t gb tb : g <> [] -> t <> [] -> tight gb (ends_set g) -> tight tb (ends_set t) ->
  exists b, ends_by (two_items g t) (qmin (max_x gb) (max_x tb)) b.
Proof.
  intros Ng Nt Tg Tt.
  assert (HI : forall b x, In x (two_items g t) -> it_ft x = b -> side_has (two_items g t) b (it_hi x)).
  { intros b x I F. exists x. split; [exact I|]. split; [exact F|apply on_segment_end]. }
  unfold qmin. destruct (qltb_spec (max_x tb) (max_x gb)) as [L|L].
  - exists true. split.
    + destruct t as [|e t]; [congruence|]. exists (item_of true e). split; [apply in_app_iff; right; left; reflexivity|apply item_of_ft].
    + intros x I F. apply (HI true x I), (proj2 (two_sides g t _)) in F. apply (proj1 Tt) in F. unfold in_box in F. tauto.
  - exists false. split.
    + destruct g as [|e g]; [congruence|]. exists (item_of false e). split; [left; reflexivity|apply item_of_ft].
    + intros x I F. apply (HI false x I), (proj1 (two_sides g t _)) in F. apply (proj1 Tg) in F. unfold in_box in F. tauto.
Qed.

(** * The loop of process_open_linear_queue *)
Definition over (o : levent) : bool := srel_eqb (l_relation o) SOVERLAP.
Lemma srel_eqb_spec a b : reflect (a = b) (srel_eqb a b).
Proof. destruct a, b; constructor; congruence. Qed.
Lemma open_consume outs : forall a, exists a', consume open_step a outs = inr a'
  /\ oa_test_subset a' = oa_test_subset a && forallb (fun o => negb (l_from_test o) || over o) outs
  /\ oa_goal_subset a' = oa_goal_subset a && forallb (fun o => l_from_test o || over o) outs
  /\ oa_no_overlap a' = oa_no_overlap a && forallb (fun o => negb (over o)) outs
  /\ (oa_no_overlap a' = true ->
      oa_no_cross a' && oa_no_touch a' = oa_no_cross a && oa_no_touch a && forallb (fun o => srel_eqb (l_relation o) SDISJOINT) outs)
  /\ (oa_no_overlap a' = true -> oa_no_cross a' = oa_no_cross a && forallb (fun o => negb (srel_eqb (l_relation o) SCROSS)) outs).
Proof.
  induction outs as [|o outs IH]; intros a.
  - exists a. cbn. rewrite !andb_true_r. auto 10.
  - cbn [consume]. unfold open_step at 1. unfold over. cbn [forallb].
    set (a1 := if srel_eqb (l_relation o) SOVERLAP then _ else _).
    destruct (IH a1) as (a' & E & H1 & H2 & H3 & H4 & H5). exists a'. split; [exact E|]. rewrite H1, H2, H3.
    unfold over in *. unfold a1 in *. clear a1 E. rewrite H3 in H4. rewrite H3 in H5. clear H1 H2 H3 IH.
    destruct a as [ts gs nc nt no], (l_relation o), (l_from_test o); cbn [srel_eqb oa_test_subset oa_goal_subset oa_no_cross oa_no_touch oa_no_overlap negb orb andb] in *;
      destruct no; cbn [oa_test_subset oa_goal_subset oa_no_cross oa_no_touch oa_no_overlap negb orb andb] in *;
      rewrite ?andb_true_r, ?andb_false_r, ?andb_true_l, ?andb_false_l in *; repeat apply conj; try reflexivity; try discriminate;
      try (intros K; rewrite (H4 K), ?andb_true_r, ?andb_false_r, ?andb_true_l, ?andb_false_l; reflexivity);
      try (intros K; rewrite (H5 K), ?andb_true_r, ?andb_false_r, ?andb_true_l, ?andb_false_l; reflexivity).
Qed.

Definition has_segment (X : point -> Prop) : Prop := exists a b, a <> b /\ forall p, on_segment a b p -> X p.
Lemma linear_spec_unique X Y rel rel' : has_segment X -> has_segment Y -> linear_spec X Y rel -> linear_spec X Y rel' ->
  rel' = rel \/ In rel [TOUCH; CROSS] /\ In rel' [TOUCH; CROSS].
Proof.
  intros (a & b & N & HX) (c & d & N' & HY).
  assert (SX : subset X Y -> share_segment X Y) by (intros S; exists a, b; auto).
  assert (SY : subset Y X -> share_segment X Y) by (intros S; exists c, d; auto).
  assert (SM : share_segment X Y -> meets X Y).
  { intros (u & v & _ & H). exists u. apply H, on_segment_start. }
  assert (EQ : same_set X Y -> subset X Y /\ subset Y X) by (intros E; split; intros p; apply E).
  destruct rel, rel'; cbn [linear_spec]; intros A B; try (left; reflexivity);
    try (right; split; cbn; tauto); exfalso; try tauto; try exact A; try exact B.
Qed.

(* Segments of the two sides meet between their ends. *)
Definition items_cross (inp : list item) : Prop :=
  exists x y p, In x inp /\ In y inp /\ it_ft x = true /\ it_ft y = false /\ on_item x p /\ on_item y p
    /\ p <> it_lo x /\ p <> it_hi x /\ p <> it_lo y /\ p <> it_hi y.
Lemma cross_found inp linear stop b fuel outs q : items_ok inp -> apart inp -> ends_by inp stop b ->
  sweep linear fuel stop (init_state inp) = (outs, Ok q) -> items_cross inp -> (forall o, In o outs -> l_relation o <> SOVERLAP) ->
  exists o, In o outs /\ l_relation o = SCROSS.
Proof.
  intros IO AP EB Sw (x & y & p & X1 & Y1 & X2 & Y2 & X3 & Y3 & D1 & D2 & D3 & D4) N.
  destruct (sweep_crosses inp IO AP linear stop b fuel outs q EB Sw x y p X1 Y1 ltac:(congruence) X3 Y3 D1 D2 D3 D4) as (o & I & [E|E]); [exists o; auto|].
  exfalso. exact (N o I E).
Qed.

Theorem open_answer inp stop b : items_ok inp -> apart inp -> ends_by inp stop b -> has_segment (side_has inp true) -> has_segment (side_has inp false) ->
  linear_answer (side_has inp true) (side_has inp false)
    (process_open_linear_queue (sweep_fuel (init_state inp)) (init_state inp) stop).
Proof.
  intros IO AP EB HT HG. unfold process_open_linear_queue, process.
  pose proof (sweep_returns inp true stop IO AP) as R.
  destruct (sweep true (sweep_fuel (init_state inp)) stop (init_state inp)) as [outs r] eqn:Sw. cbn [snd] in R. destruct R as [q ->].
  destruct (sweep_finds inp IO AP true stop b _ outs q EB Sw) as (Meet & Over & Free & Sub & Fin).
  destruct (open_consume outs (OA true true true true true)) as (a & -> & H1 & H2 & H3 & H4 & _). cbn [bind]. cbn [oa_test_subset oa_goal_subset oa_no_overlap oa_no_cross oa_no_touch andb] in *.
  set (rest := queue_rest q) in *.
  set (T := negb match rest with Some true => true | _ => false end && oa_test_subset a).
  set (G := negb match rest with Some false => true | _ => false end && oa_goal_subset a).
  assert (FT : free inp true -> ~ subset (side_has inp true) (side_has inp false)) by (intros (p & P1 & P2) S; exact (P2 (S p P1))).
  assert (FG : free inp false -> ~ subset (side_has inp false) (side_has inp true)) by (intros (p & P1 & P2) S; exact (P2 (S p P1))).
  assert (AllO : forall f, forallb f outs = false -> exists o, In o outs /\ f o = false).
  { clear. intros f. induction outs as [|o l IH]; cbn; [discriminate|]. destruct (f o) eqn:E; cbn; [|exists o; auto].
    intros K. destruct (IH K) as (x & I & F). exists x. auto. }
  assert (ST : if T then subset (side_has inp true) (side_has inp false) else ~ subset (side_has inp true) (side_has inp false)).
  { unfold T. destruct rest as [[|]|] eqn:Er; cbn [negb andb].
    - apply FT, Free. right. reflexivity.
    - destruct (oa_test_subset a).
      + symmetry in H1. rewrite forallb_forall in H1. intros p. apply (Sub true); [|discriminate].
        intros o I F. specialize (H1 o I). rewrite F in H1. unfold over in H1. destruct (srel_eqb_spec (l_relation o) SOVERLAP); [assumption|discriminate].
      + apply FT, Free. left. destruct (AllO _ (eq_sym H1)) as (o & I & F). exists o. split; [exact I|].
        unfold over in F. destruct (l_from_test o); [|discriminate]. split; [reflexivity|]. destruct (srel_eqb_spec (l_relation o) SOVERLAP); [discriminate|assumption].
    - destruct (oa_test_subset a).
      + symmetry in H1. rewrite forallb_forall in H1. intros p. apply (Sub true); [|discriminate].
        intros o I F. specialize (H1 o I). rewrite F in H1. unfold over in H1. destruct (srel_eqb_spec (l_relation o) SOVERLAP); [assumption|discriminate].
      + apply FT, Free. left. destruct (AllO _ (eq_sym H1)) as (o & I & F). exists o. split; [exact I|].
        unfold over in F. destruct (l_from_test o); [|discriminate]. split; [reflexivity|]. destruct (srel_eqb_spec (l_relation o) SOVERLAP); [discriminate|assumption]. }
  assert (SG : if G then subset (side_has inp false) (side_has inp true) else ~ subset (side_has inp false) (side_has inp true)).
  { unfold G. destruct rest as [[|]|] eqn:Er; cbn [negb andb].
    - destruct (oa_goal_subset a).
      + symmetry in H2. rewrite forallb_forall in H2. intros p. apply (Sub false); [|discriminate].
        intros o I F. specialize (H2 o I). rewrite F in H2. unfold over in H2. destruct (srel_eqb_spec (l_relation o) SOVERLAP); [assumption|discriminate].
      + apply FG, Free. left. destruct (AllO _ (eq_sym H2)) as (o & I & F). exists o. split; [exact I|].
        unfold over in F. destruct (l_from_test o); [discriminate|]. split; [reflexivity|]. destruct (srel_eqb_spec (l_relation o) SOVERLAP); [discriminate|assumption].
    - apply FG, Free. right. reflexivity.
    - destruct (oa_goal_subset a).
      + symmetry in H2. rewrite forallb_forall in H2. intros p. apply (Sub false); [|discriminate].
        intros o I F. specialize (H2 o I). rewrite F in H2. unfold over in H2. destruct (srel_eqb_spec (l_relation o) SOVERLAP); [assumption|discriminate].
      + apply FG, Free. left. destruct (AllO _ (eq_sym H2)) as (o & I & F). exists o. split; [exact I|].
        unfold over in F. destruct (l_from_test o); [discriminate|]. split; [reflexivity|]. destruct (srel_eqb_spec (l_relation o) SOVERLAP); [discriminate|assumption]. }
  assert (SO : if oa_no_overlap a then ~ share_segment (side_has inp true) (side_has inp false) else share_segment (side_has inp true) (side_has inp false)).
  { destruct (oa_no_overlap a).
    - intros K. apply Over in K. destruct K as (o & I & E). symmetry in H3. rewrite forallb_forall in H3. specialize (H3 o I). unfold over in H3. rewrite E in H3. discriminate.
    - apply Over. destruct (AllO _ (eq_sym H3)) as (o & I & F). exists o. split; [exact I|]. unfold over in F. destruct (srel_eqb_spec (l_relation o) SOVERLAP); [assumption|discriminate]. }
  assert (SM : oa_no_overlap a = true -> if oa_no_cross a && oa_no_touch a then ~ meets (side_has inp true) (side_has inp false) else meets (side_has inp true) (side_has inp false)).
  { intros K. rewrite (H4 K). match goal with |- context [forallb ?f outs] => destruct (forallb f outs) eqn:Fa end.
    - intros (p & P1 & P2). destruct (proj2 Meet (ex_intro _ p (conj P1 P2))) as (o & I & N). rewrite forallb_forall in Fa. specialize (Fa o I).
      destruct (srel_eqb_spec (l_relation o) SDISJOINT); [contradiction|discriminate].
    - destruct (AllO _ Fa) as (o & I & F). destruct (proj1 Meet) as (p & P1 & P2); [|exists p; auto]. exists o. split; [exact I|].
      destruct (srel_eqb_spec (l_relation o) SDISJOINT); [discriminate|assumption]. }
  assert (SF : oa_no_overlap a = true -> finitely_many (side_has inp true) (side_has inp false)).
  { intros K. apply Fin. intros o I E. rewrite H3, forallb_forall in K. specialize (K o I). unfold over in K. rewrite E in K. discriminate. }
  set (rel := open_finish a rest).
  assert (Sp : linear_spec (side_has inp true) (side_has inp false) rel).
  { assert (Er : rel = if G then (if T then EQUAL else COMPOSITE) else if T then COMPONENT
       else if oa_no_overlap a then (if oa_no_cross a then (if oa_no_touch a then DISJOINT else TOUCH) else CROSS) else OVERLAP).
    { unfold rel, G, T, open_finish. destruct rest as [[|]|], a as [ts gs nc nt no]; cbn; destruct ts, gs; reflexivity. }
    rewrite Er. destruct G, T; cbn [linear_spec].
    - intros p. split; [apply ST|apply SG].
    - split; assumption.
    - split; assumption.
    - destruct (oa_no_overlap a); [|split; [exact SO|split; assumption]]. specialize (SM eq_refl). specialize (SF eq_refl).
      destruct (oa_no_cross a); [destruct (oa_no_touch a)|]; cbn [linear_spec andb] in *; auto. }
  exists rel. split; [reflexivity|]. split; [exact Sp|]. intros rel'. apply linear_spec_unique; assumption.
Qed.

(** * The queries *)
Lemma linear_answer_ext X X' Y Y' r : (forall p, X p <-> X' p) -> (forall p, Y p <-> Y' p) -> linear_answer X Y r -> linear_answer X' Y' r.
Proof.
  intros EX EY.
  assert (E : forall rel, linear_spec X Y rel <-> linear_spec X' Y' rel).
  { assert (M : meets X Y <-> meets X' Y') by (split; intros (p & A & B); exists p; split; (apply EX; exact A) || (apply EY; exact B)).
    assert (S : share_segment X Y <-> share_segment X' Y').
    { split; intros (a & b & N & H); exists a, b; (split; [exact N|]); intros p Hp; destruct (H p Hp); split; (apply EX; assumption) || (apply EY; assumption). }
    assert (F : finitely_many X Y <-> finitely_many X' Y').
    { split; intros (l & H); exists l; intros p A B; apply H; (apply EX; exact A) || (apply EY; exact B). }
    assert (U : subset X Y <-> subset X' Y') by (split; intros H p A; apply EY, H, EX, A).
    assert (V : subset Y X <-> subset Y' X') by (split; intros H p A; apply EX, H, EY, A).
    assert (W : same_set X Y <-> same_set X' Y').
    { split; intros H p; specialize (H p); specialize (EX p); specialize (EY p); tauto. }
    intros []; cbn [linear_spec]; tauto. }
  intros (rel & -> & A & B). exists rel. split; [reflexivity|]. split; [apply E, A|]. intros rel' H. apply B, E, H.
Qed.
Lemma ms_ends m p : ends_set (to_segments_endpoints m) p <-> in_multisegment m p.
Proof.
  unfold ends_set, to_segments_endpoints, in_multisegment. split.
  - intros (e & I & H). apply in_map_iff in I. destruct I as (s & <- & I). exists s. split; [exact I|exact H].
  - intros (s & I & H). exists (s_start s, s_end s). split; [apply in_map_iff; exists s; auto|exact H].
Qed.
Lemma contour_ends c p : ends_set (edges_endpoints c) p <-> on_contour c p.
Proof.
  unfold ends_set, on_contour. split.
  - intros ([a b] & I & H). exists a, b. split; [eapply Permutation.Permutation_in; [apply edges_endpoints_perm|exact I]|exact H].
  - intros (a & b & I & H). exists (a, b). split; [eapply Permutation.Permutation_in; [apply Permutation.Permutation_sym, edges_endpoints_perm|exact I]|exact H].
Qed.
Lemma tidy_segment l : tidy l -> l <> [] -> has_segment (ends_set l).
Proof.
  intros [N _] E. destruct l as [|[a b] l]; [congruence|]. exists a, b. split.
  - apply (N a b). left. reflexivity.
  - intros p H. exists (a, b). split; [left; reflexivity|exact H].
Qed.
Lemma separated_not_meets X Y : axis_separated X Y -> ~ meets X Y.
Proof.
  intros (c & H) (p & A & B). destruct H as [[H K]|[[H K]|[[H K]|[H K]]]]; specialize (H p A); specialize (K p B); qlra.
Qed.
Lemma two_answer g t gb tb : tidy g -> tidy t -> g <> [] -> t <> [] -> tight gb (ends_set g) -> tight tb (ends_set t) ->
  linear_answer (ends_set t) (ends_set g)
    (if disjoint_with gb tb then Ok DISJOINT
     else run_open (register (register q_empty g false) t true) (qmin (max_x gb) (max_x tb))).
Proof.
  intros Tg Tt Ng Nt Bg Bt. pose proof (tidy_segment t Tt Nt) as St. pose proof (tidy_segment g Tg Ng) as Sg.
  destruct (disjoint_with gb tb) eqn:D.
  - apply (disjoint_with_iff _ _ _ _ Bg Bt) in D. apply axis_separated_sym, separated_not_meets in D.
    exists DISJOINT. split; [reflexivity|]. split; [exact D|]. intros rel'. apply linear_spec_unique; assumption.
  - destruct (two_ok g t Tg Tt) as [IO AP]. destruct (two_ends g t gb tb Ng Nt Bg Bt) as [b EB].
    unfold run_open. rewrite registered. fold (two_items g t).
    apply (linear_answer_ext (side_has (two_items g t) true) _ (side_has (two_items g t) false)).
    + intros p. apply (two_sides g t p).
    + intros p. apply (two_sides g t p).
    + apply (open_answer (two_items g t) _ b IO AP EB).
      * destruct St as (u & v & N & H). exists u, v. split; [exact N|]. intros p Hp. apply (two_sides g t p), H, Hp.
      * destruct Sg as (u & v & N & H). exists u, v. split; [exact N|]. intros p Hp. apply (two_sides g t p), H, Hp.
Qed.

Lemma multisegment_in_multisegment_exact_l m m' : valid_multisegment m -> valid_multisegment m' ->
  linear_answer (in_multisegment m) (in_multisegment m') (multisegment_in_multisegment m m').
Proof.
  intros V V'. destruct (ms_good m V) as [N T], (ms_good m' V') as [N' T'].
  destruct (segments_box_tight _ N) as (b & E & B). destruct (segments_box_tight _ N') as (b' & E' & B').
  unfold multisegment_in_multisegment, multisegment_relate_multisegment. rewrite E', E. cbn [bind].
  apply (linear_answer_ext (ends_set (to_segments_endpoints m)) _ (ends_set (to_segments_endpoints m'))); [apply ms_ends|apply ms_ends|].
  assert (Z : forall x, segments x <> [] -> to_segments_endpoints x <> []).
  { intros x K. unfold to_segments_endpoints. destruct (segments x); [congruence|discriminate]. }
  apply two_answer; [exact T'|exact T|apply Z, N'|apply Z, N| |].
  - eapply tight_ext; [|exact B']. intros p. symmetry. destruct m'. apply ms_ends.
  - eapply tight_ext; [|exact B]. intros p. symmetry. destruct m. apply ms_ends.
Qed.
Lemma simple_nonempty c : simple_contour c -> vertices c <> [].
Proof. intros (L & _) E. rewrite E in L. cbn in L. lia. Qed.
Lemma edges_nonempty c : simple_contour c -> edges_endpoints c <> [].
Proof. intros (L & _) E. pose proof (edges_length c) as K. rewrite E in K. cbn in K. lia. Qed.
Lemma multisegment_in_contour_exact_l m c : valid_multisegment m -> simple_contour c ->
  linear_answer (in_multisegment m) (on_contour c) (multisegment_in_contour m c).
Proof.
  intros V C. destruct (ms_good m V) as [N T].
  destruct (segments_box_tight _ N) as (b & E & B). destruct (contour_box_tight _ (simple_nonempty c C)) as (b' & E' & B').
  unfold multisegment_in_contour, contour_relate_multisegment. rewrite E', E. cbn [bind].
  apply (linear_answer_ext (ends_set (to_segments_endpoints m)) _ (ends_set (edges_endpoints c))); [apply ms_ends|apply contour_ends|].
  apply two_answer; [apply edges_tidy, C|exact T|apply edges_nonempty, C| | |].
  - unfold to_segments_endpoints. destruct (segments m); [congruence|discriminate].
  - eapply tight_ext; [|exact B']. intros p. symmetry. apply contour_ends.
  - eapply tight_ext; [|exact B]. intros p. symmetry. destruct m. apply ms_ends.
Qed.
Lemma linear_disjoint X Y r : linear_answer X Y r -> ~ meets X Y -> r = Ok DISJOINT.
Proof.
  intros (rel & -> & _ & U) D. destruct (U DISJOINT D) as [<-|[_ K]]; [reflexivity|]. cbn in K. destruct K as [K|[K|[]]]; discriminate.
Qed.
Lemma linear_disjoint_l m m' c : valid_multisegment m -> valid_multisegment m' -> simple_contour c ->
  (~ meets (in_multisegment m) (in_multisegment m') -> multisegment_in_multisegment m m' = Ok DISJOINT)
  /\ (~ meets (in_multisegment m) (on_contour c) -> multisegment_in_contour m c = Ok DISJOINT).
Proof.
  intros V V' C. split; apply linear_disjoint; [apply multisegment_in_multisegment_exact_l|apply multisegment_in_contour_exact_l]; assumption.
Qed.
Lemma linear_swap X Y r r' : linear_answer X Y r -> linear_answer Y X r' ->
  exists rel rel', r = Ok rel /\ r' = Ok rel' /\ (rel' = complement rel \/ In rel [TOUCH; CROSS] /\ In rel' [TOUCH; CROSS]).
Proof.
  intros (rel & -> & S & U) (rel' & -> & S' & U'). exists rel, rel'. split; [reflexivity|]. split; [reflexivity|].
  assert (T : linear_spec X Y (complement rel')).
  { assert (M : meets Y X -> meets X Y) by (intros (p & A & B); exists p; auto).
    assert (M' : meets X Y -> meets Y X) by (intros (p & A & B); exists p; auto).
    assert (G : share_segment Y X -> share_segment X Y) by (intros (a & b & N & H); exists a, b; split; [exact N|]; intros p Hp; destruct (H p Hp); auto).
    assert (G' : share_segment X Y -> share_segment Y X) by (intros (a & b & N & H); exists a, b; split; [exact N|]; intros p Hp; destruct (H p Hp); auto).
    assert (F : finitely_many Y X -> finitely_many X Y) by (intros (l & H); exists l; auto).
    assert (W : same_set Y X -> same_set X Y) by (intros H p; symmetry; apply H).
    destruct rel'; cbn [linear_spec complement] in *; tauto. }
  destruct (U _ T) as [E|[A B]].
  - left. destruct rel'; cbn in E; subst rel; reflexivity.
  - right. split; [exact A|]. destruct rel'; cbn in *; intuition congruence.
Qed.
Lemma multisegment_swap_l m m' : valid_multisegment m -> valid_multisegment m' ->
  exists rel rel', multisegment_in_multisegment m m' = Ok rel /\ multisegment_in_multisegment m' m = Ok rel'
    /\ (rel' = complement rel \/ In rel [TOUCH; CROSS] /\ In rel' [TOUCH; CROSS]).
Proof. intros V V'. exact (linear_swap _ _ _ _ (multisegment_in_multisegment_exact_l m m' V V') (multisegment_in_multisegment_exact_l m' m V' V)). Qed.
