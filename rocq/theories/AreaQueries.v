(* The relations of regions and multiregions. *)
From Coq Require Import QArith Qcanon List Bool ZArith Lia Permutation.
From Verif Require Import Scalar Base Ground MLinear MSweep MCompound Planar Spec Geom RayParity SegProofs BoxProofs PointProofs EqualProofs
  SweepStore SweepDetect SweepSteps Termination SweepSafe NoFail SweepTime SweepOrder SweepMoves SweepAdvance SweepLoop SweepEmit SweepRun SweepFound
  SweepLow SweepFlags SweepInside SweepMarks SweepTold OpenProofs Orient Walk Area Vertical AreaFlags AreaSem AreaAnswer Drawn Gather Cover.
Import ListNotations.
Open Scope Qc_scope.

(** * Boxes *)
Lemma inside_box c b p : tight b (on_contour c) -> inside c p -> in_box b p.
Proof.
  intros [T _] H. destruct (point_in_region_exact_l p c) as (A & B & _). pose proof (proj2 A H) as K.
  assert (V : forall v, In v (vertices c) -> in_box b v) by (intros v I; apply T, on_contour_vertex, I). unfold in_box in *.
  assert (X : forall P : Prop, (~ P -> point_in_region p c = EXTERIOR) -> {P} + {~ P} -> P).
  { intros P F [D|D]; [exact D|]. specialize (F D). congruence. }
  split; [|split; [|split]].
  - apply X; [|destruct (qltb_spec (px p) (min_x b)); [right; intros ?; qlra|left; qlra]]. intros N. apply point_in_region_outside_box_l. right. left.
    intros v I. destruct (V v I) as (V1 & V2 & V3 & V4). destruct (qltb_spec (px p) (px v)); [assumption|exfalso; apply N; qlra].
  - apply X; [|destruct (qltb_spec (max_x b) (px p)); [right; intros ?; qlra|left; qlra]]. intros N. apply point_in_region_outside_box_l. left.
    intros v I. destruct (V v I) as (V1 & V2 & V3 & V4). destruct (qltb_spec (px v) (px p)); [assumption|exfalso; apply N; qlra].
  - apply X; [|destruct (qltb_spec (py p) (min_y b)); [right; intros ?; qlra|left; qlra]]. intros N. apply point_in_region_outside_box_l. right. right. right.
    intros v I. destruct (V v I) as (V1 & V2 & V3 & V4). destruct (qltb_spec (py p) (py v)); [assumption|exfalso; apply N; qlra].
  - apply X; [|destruct (qltb_spec (max_y b) (py p)); [right; intros ?; qlra|left; qlra]]. intros N. apply point_in_region_outside_box_l. right. right. left.
    intros v I. destruct (V v I) as (V1 & V2 & V3 & V4). destruct (qltb_spec (py v) (py p)); [assumption|exfalso; apply N; qlra].
Qed.
Lemma tight_region c b : tight b (on_contour c) -> tight b (a_cl (region_area c)).
Proof.
  intros T. apply (tight_hull b (on_contour c)); [exact T|intros p H; right; exact H|]. intros p [H|H]; [exact (inside_box c b p T H)|exact (proj1 T p H)].
Qed.
Lemma tight_multiregion rs b : Forall simple_contour rs -> tight b (on_contours rs) -> tight b (a_cl (multiregion_area rs)).
Proof.
  intros F T. apply (tight_hull b (on_contours rs)); [exact T|intros p H; right; exact H|]. intros p [(r & I & H)|H]; [|exact (proj1 T p H)].
  rewrite Forall_forall in F. destruct (contour_box_tight r (simple_nonempty r (F r I))) as (br & _ & Tr). pose proof (inside_box r br p Tr H) as K.
  destruct Tr as (_ & (p1 & A1 & B1) & (p2 & A2 & B2) & (p3 & A3 & B3) & (p4 & A4 & B4)). unfold in_box in *.
  assert (Z : forall q, on_contour r q -> in_box b q) by (intros q Hq; apply (proj1 T); exists r; auto). unfold in_box in Z.
  destruct (Z p1 A1) as (? & _ & _ & _). destruct (Z p2 A2) as (_ & ? & _ & _). destruct (Z p3 A3) as (_ & _ & ? & _). destruct (Z p4 A4) as (_ & _ & _ & ?).
  destruct K as (? & ? & ? & ?). split; [qlra|split; [qlra|split; qlra]].
Qed.
Lemma boxes_no_meet b b' X Y : tight b X -> tight b' Y -> disjoint_with b b' = true -> ~ meets X Y.
Proof. intros T T' D. apply separated_not_meets, (disjoint_with_iff _ _ _ _ T T'), D. Qed.
Lemma meets_sym X Y : meets X Y -> meets Y X.
Proof. intros (p & A & B). exists p. auto. Qed.

(** * Equal contours *)
Lemma same_cycle_location c d p : same_cycle (vertices c) (vertices d) -> point_in_region p c = point_in_region p d.
Proof.
  destruct c as [l], d as [l']. cbn [vertices]. intros [(l1 & l2 & -> & ->)|(l1 & l2 & E & ->)].
  - symmetry. apply point_in_region_rotate_l.
  - rewrite <- (point_in_region_reverse_l p l), E. symmetry. apply point_in_region_rotate_l.
Qed.
Lemma same_cycle_area c d : same_cycle (vertices c) (vertices d) -> area_eq (region_area c) (region_area d).
Proof.
  intros C p. pose proof (same_cycle_location c d p C) as E. destruct (point_in_region_exact_l p c) as (A1 & A2 & A3).
  destruct (point_in_region_exact_l p d) as (B1 & B2 & B3). rewrite E in *. cbn [region_area a_in a_on a_out]. tauto.
Qed.

(** * Areas in areas *)
Lemma run_areas g t gb tb A B : drawn g B -> drawn t A -> fitting g t A B -> tight gb (a_on B) -> tight tb (a_on A) ->
  answer_is (areal_spec A B) (run_compound (register (register q_empty g false) t true) (qmin (max_x gb) (max_x tb))).
Proof.
  intros Dg Dt Ft Bg Bt. destruct (two_ok g t (dr_tidy _ _ Dg) (dr_tidy _ _ Dt)) as [IO AP].
  destruct (two_ends g t gb tb (dr_some _ _ Dg) (dr_some _ _ Dt)) as [b EB].
  - eapply tight_ext; [|exact Bg]. intros p. symmetry. apply (dr_on _ _ Dg).
  - eapply tight_ext; [|exact Bt]. intros p. symmetry. apply (dr_on _ _ Dt).
  - rewrite registered. exact (two_areas _ _ b g t A B IO AP EB (side_two g t false) (side_two g t true) Dg Dt Ft).
Qed.
Lemma region_in_region_exact_l c r : simple_contour c -> simple_contour r ->
  answer_is (areal_spec (region_area c) (region_area r)) (region_in_region c r).
Proof.
  intros C R. destruct (contour_box_tight _ (simple_nonempty r R)) as (gb & Eg & Tg). destruct (contour_box_tight _ (simple_nonempty c C)) as (tb & Et & Tt).
  destruct (oriented_gives r false R) as (g & Hg & _). destruct (oriented_gives c false C) as (t & Ht & _).
  pose proof (drawn_region r g R Hg) as Dg. pose proof (drawn_region c t C Ht) as Dt.
  unfold region_in_region, region_relate_region, region_relate_region_. rewrite Eg, Et. cbn [bind].
  destruct (disjoint_with gb tb) eqn:D.
  - apply (fa_of g t _ _ Dg Dt). intros K. apply meets_sym in K. revert K. exact (boxes_no_meet _ _ _ _ (tight_region _ _ Tg) (tight_region _ _ Tt) D).
  - destruct (contour_equal_returns r c R C) as (e & Ee). rewrite Ee. cbn [bind]. destruct e.
    + apply (fa_of g t _ _ Dg Dt). intros p. apply contour_equal_sound in Ee. pose proof (same_cycle_area r c Ee p) as Q. unfold a_cl. tauto.
    + rewrite Hg, Ht. cbn [bind]. exact (run_areas g t gb tb _ _ Dg Dt (or_introl (region_flipping _ r g R Hg)) Tg Tt).
Qed.
Lemma flat_vertices rs : rs <> [] -> Forall simple_contour rs -> flat_map vertices rs <> [].
Proof.
  intros N F. destruct rs as [|r rs]; [congruence|]. inversion F as [|? ? Fr _]; subst. pose proof (simple_nonempty r Fr) as Z. cbn [flat_map].
  destruct (vertices r); [congruence|discriminate].
Qed.
Lemma multiregion_in_multiregion_exact_l qs rs : valid_multiregion qs -> valid_multiregion rs -> qs <> [] -> rs <> [] ->
  answer_is (areal_spec (multiregion_area qs) (multiregion_area rs)) (multiregion_in_multiregion qs rs).
Proof.
  intros C R Nq Nr. destruct (contours_box_tight rs (flat_vertices rs Nr (proj1 R))) as (gb & Eg & Tg). destruct (contours_box_tight qs (flat_vertices qs Nq (proj1 C))) as (tb & Et & Tt).
  destruct (multiregion_gives rs false (multiregion_contours rs R)) as (g & Hg & _). destruct (multiregion_gives qs false (multiregion_contours qs C)) as (t & Ht & _).
  pose proof (drawn_multiregion rs g R Nr Hg) as Dg. pose proof (drawn_multiregion qs t C Nq Ht) as Dt.
  unfold multiregion_in_multiregion, multiregion_relate_multiregion. rewrite Eg, Et. cbn [bind].
  destruct (disjoint_with gb tb) eqn:D.
  - apply (fa_of g t _ _ Dg Dt). intros K. apply meets_sym in K. revert K.
    exact (boxes_no_meet _ _ _ _ (tight_multiregion _ _ (proj1 R) Tg) (tight_multiregion _ _ (proj1 C) Tt) D).
  - rewrite Hg, Ht. cbn [bind]. refine (run_areas g t gb tb _ _ Dg Dt _ Tg Tt). right. right.
    exact (conj (multiregion_flipping _ rs g R Hg) (multiregion_flipping _ qs t C Ht)).
Qed.

(** * Skipped parts *)
Lemma skipped_spec A K S R rel : (forall p, a_in R p <-> a_in K p \/ a_in S p) -> (forall p, a_on R p <-> a_on K p \/ a_on S p) ->
  ~ meets (a_cl A) (a_cl S) -> (exists p, a_cl S p) -> (same_set (a_cl A) (a_cl K) -> subset (a_on A) (a_on K)) ->
  (subset (a_cl K) (a_cl A) -> meets (a_in A) (a_in K)) ->
  areal_spec A K rel -> areal_spec A R (skipped_correction false rel).
Proof.
  intros HI HO NM (z & Hz) EQ SI.
  assert (HC : forall p, a_cl R p <-> a_cl K p \/ a_cl S p) by (intros p; unfold a_cl; rewrite HI, HO; tauto).
  assert (AO : forall p, a_on A p -> a_cl A p) by (intros p H; right; exact H). assert (AI : forall p, a_in A p -> a_cl A p) by (intros p H; left; exact H).
  assert (SO : forall p, a_on S p -> a_cl S p) by (intros p H; right; exact H). assert (SN : forall p, a_in S p -> a_cl S p) by (intros p H; left; exact H).
  assert (N : forall p, a_cl A p -> a_cl S p -> False) by (intros p H H'; apply NM; exists p; auto).
  assert (Nz : ~ subset (a_cl R) (a_cl A)) by (intros H; apply (N z); [apply H, HC; auto|exact Hz]).
  assert (P1 : subset (a_cl A) (a_cl K) -> subset (a_cl A) (a_cl R)) by (intros H p Hp; apply HC; left; exact (H p Hp)).
  assert (P2 : subset (a_cl A) (a_cl R) -> subset (a_cl A) (a_cl K)) by (intros H p Hp; destruct (proj1 (HC p) (H p Hp)) as [L|L]; [exact L|destruct (N p Hp L)]).
  assert (Q1 : subset (a_on A) (a_on K) -> subset (a_on A) (a_on R)) by (intros H p Hp; apply HO; left; exact (H p Hp)).
  assert (Q2 : subset (a_on A) (a_on R) -> subset (a_on A) (a_on K)) by (intros H p Hp; destruct (proj1 (HO p) (H p Hp)) as [L|L]; [exact L|destruct (N p (AO p Hp) (SO p L))]).
  assert (M1 : meets (a_on A) (a_on K) <-> meets (a_on A) (a_on R)).
  { split; intros (p & H & L); exists p; (split; [exact H|]); [apply HO; left; exact L|]. destruct (proj1 (HO p) L) as [L'|L']; [exact L'|destruct (N p (AO p H) (SO p L'))]. }
  assert (M2 : meets (a_in A) (a_in K) <-> meets (a_in A) (a_in R)).
  { split; intros (p & H & L); exists p; (split; [exact H|]); [apply HI; left; exact L|]. destruct (proj1 (HI p) L) as [L'|L']; [exact L'|destruct (N p (AI p H) (SN p L'))]. }
  assert (M3 : meets (a_cl A) (a_cl R) -> meets (a_cl A) (a_cl K)).
  { intros (p & H & L). exists p. split; [exact H|]. destruct (proj1 (HC p) L) as [L'|L']; [exact L'|destruct (N p H L')]. }
  destruct rel; cbn [areal_spec skipped_correction relation_eqb rel_in existsb orb]; unfold proper_part; try tauto.
  intros H. assert (H' : subset (a_cl A) (a_cl K)) by (intros p; apply H). specialize (EQ H). tauto.
Qed.
Lemma fop_filter {A} (R : A -> A -> Prop) f l : ForallOrdPairs R l -> ForallOrdPairs R (filter f l).
Proof.
  induction 1 as [|a l F O IH]; cbn [filter]; [constructor|]. destruct (f a); [|exact IH]. constructor; [|exact IH].
  rewrite Forall_forall in *. intros x I. apply filter_In in I. apply F, I.
Qed.
Lemma mr_filter rs f : valid_multiregion rs -> valid_multiregion (filter f rs).
Proof.
  intros [F A]. split; [|apply fop_filter, A]. rewrite Forall_forall in *. intros x I. apply filter_In in I. apply F, I.
Qed.
Lemma forallb_filter {A} (f : A -> bool) l : forallb f l = true -> filter f l = l.
Proof. induction l as [|a l IH]; cbn; [reflexivity|]. destruct (f a); [|discriminate]. intros H. rewrite (IH H). reflexivity. Qed.
Lemma max_ends inp stop b : (exists x, In x inp /\ it_ft x = b) -> (forall p, side_has inp b p -> px p <= stop) -> ends_by inp stop b.
Proof. intros N H. split; [exact N|]. intros x I F. apply H. exists x. split; [exact I|]. split; [exact F|apply on_segment_end]. Qed.

(* The area of several parts. *)
Definition union_area {X} (par : X -> area) (l : list X) : area :=
  Area (fun p => exists x, In x l /\ a_in (par x) p) (fun p => exists x, In x l /\ a_on (par x) p) (fun p => forall x, In x l -> a_out (par x) p).
Lemma union_cl {X} (par : X -> area) l p : a_cl (union_area par l) p <-> exists x, In x l /\ a_cl (par x) p.
Proof.
  unfold a_cl, union_area. cbn [a_in a_on]. split.
  - intros [(x & I & H)|(x & I & H)]; exists x; auto.
  - intros (x & I & [H|H]); [left|right]; exists x; auto.
Qed.
Lemma filter_all {A} (l : list A) : filter (fun _ => true) l = l.
Proof. apply forallb_filter. rewrite forallb_forall. auto. Qed.
Section Parts.
  Context {X : Type}.
  Variable (pbox : X -> res box) (pedges : X -> res (list (point * point))) (par : X -> area) (tb : box) (t : list (point * point)) (l : list X).
  Hypothesis Hb : forall x, In x l -> exists b, pbox x = Ok b /\ tight b (a_cl (par x)).
  Hypothesis He : forall x, In x l -> returns (pedges x).
  Hypothesis Nl : l <> [].
  Lemma parts_edges : exists E, all_edges pedges l = Ok E.
  Proof using He.
    clear Nl Hb. induction l as [|x l' IH]; [exists []; reflexivity|]. destruct (He x (or_introl eq_refl)) as (e & Ee). cbn [all_edges]. rewrite Ee. cbn [bind].
    destruct IH as (E & ->); [intros y I; apply He; right; exact I|]. exists (e ++ E). reflexivity.
  Qed.
  Lemma parts_kept : exists E acc, all_edges pedges (filter (keep pbox tb) l) = Ok E
    /\ gather pbox pedges tb (Ok t) l true None = Ok (forallb (keep pbox tb) l, acc) /\ queue_is pbox t (filter (keep pbox tb) l) E acc.
  Proof using Hb He. apply gather_kept; [|exact He]. intros x I. destruct (Hb x I) as (b & E & _). exists b. exact E. Qed.
  Lemma parts_ends E mx : tidy t -> t <> [] -> tidy E -> (forall p, ends_set t p -> px p <= max_x tb) -> filter (keep pbox tb) l <> [] ->
    (forall p, ends_set E p -> exists x, In x (filter (keep pbox tb) l) /\ a_cl (par x) p) -> E <> [] ->
    (forall a b, In a (filter (keep pbox tb) l) -> pbox a = Ok b -> max_x b <= mx) ->
    let inp := map (item_of true) t ++ map (item_of false) E in items_ok inp /\ apart inp /\ exists b, ends_by inp (qmin mx (max_x tb)) b.
  Proof using Hb.
    intros Tt Nt TE Ht Nk HE NE Mx inp. destruct (two_ok E t TE Tt) as [IO AP].
    assert (P : Permutation (two_items E t) inp) by apply Permutation_app_comm.
    split; [intros x I; apply IO; exact (Permutation_in _ (Permutation_sym P) I)|]. split; [apply apart_two'; [apply Tt|apply TE]|].
    assert (Sm : forall b (l0 : list (point * point)), l0 <> [] -> side inp b = map (item_of b) l0 -> exists x, In x inp /\ it_ft x = b).
    { intros b l0 N Sd. destruct l0 as [|e l0]; [congruence|]. exists (item_of b e). apply side_in. rewrite Sd. left. reflexivity. }
    unfold qmin. destruct (qltb_spec (max_x tb) mx) as [L|L].
    - exists true. apply max_ends; [exact (Sm true t Nt (side_two' E t true))|]. intros p H. apply (side_ends inp true t p (side_two' E t true)) in H. exact (Ht p H).
    - exists false. apply max_ends; [exact (Sm false E NE (side_two' E t false))|]. intros p H. apply (side_ends inp false E p (side_two' E t false)) in H.
      destruct (HE p H) as (x & Ix & Hx). assert (Jx : In x l) by (apply filter_In in Ix; apply Ix). destruct (Hb x Jx) as (b & Eb & [Tb _]). specialize (Mx x b Ix Eb). apply Tb in Hx. unfold in_box in Hx.
      destruct Hx as (_ & Hx & _). qlra.
  Qed.
  Lemma parts_skipped (S : point -> Prop) x : tight tb S -> In x l -> keep pbox tb x = false -> ~ meets S (a_cl (par x)).
  Proof using Hb.
    intros Tt I K. destruct (Hb x I) as (b & Eb & Tx). unfold keep in K. rewrite Eb in K. apply negb_false_iff in K.
    intros M. apply meets_sym in M. revert M. exact (boxes_no_meet _ _ _ _ Tx Tt K).
  Qed.
  Lemma parts_areas A : drawn t A -> tight tb (a_cl A) ->
    (forall f E, filter f l <> [] -> all_edges pedges (filter f l) = Ok E -> drawn E (union_area par (filter f l)) /\ fitting E t A (union_area par (filter f l))) ->
    answer_is (areal_spec A (union_area par l))
      (do g <- gather pbox pedges tb (Ok t) l true None;
       match snd g with
       | None => Ok DISJOINT
       | Some (mx, q) => do rel <- run_compound q (qmin mx (max_x tb)); Ok (skipped_correction (fst g) rel)
       end).
  Proof.
    intros Dt Tt HD. destruct parts_edges as (g & Hg).
    assert (Dg : drawn g (union_area par l)).
    { pose proof (HD (fun _ => true) g) as Z. rewrite filter_all in Z. exact (proj1 (Z Nl Hg)). }
    destruct parts_kept as (E & acc & HE & HG & Q). rewrite HG. cbn [bind fst snd]. set (kp := keep pbox tb) in *. set (ks := filter kp l) in *.
    pose proof (fun x => parts_skipped (a_cl A) x Tt) as Sk.
    destruct acc as [[mx q]|]; cbn [queue_is] in Q.
    - destruct Q as (-> & Nk & Mx). destruct (HD kp E Nk HE) as [Dk Ft]. fold ks in Dk, Ft.
      assert (An : answer_is (areal_spec A (union_area par ks)) (run_compound (queued t E) (qmin mx (max_x tb)))).
      { destruct (parts_ends E mx (dr_tidy _ _ Dt) (dr_some _ _ Dt) (dr_tidy _ _ Dk)) as (IO & AP & b & EB).
        - intros p H. apply (dr_on _ _ Dt) in H. destruct Tt as [Tt _]. specialize (Tt p (or_intror H)). unfold in_box in Tt. tauto.
        - exact Nk.
        - intros p H. apply (dr_on _ _ Dk) in H. destruct H as (x & I & H). exists x. split; [exact I|right; exact H].
        - apply (dr_some _ _ Dk).
        - exact Mx.
        - exact (two_areas _ _ b E t _ _ IO AP EB (side_two' E t false) (side_two' E t true) Dk Dt Ft). }
      destruct (forallb kp l) eqn:Fa.
      + unfold ks in An. rewrite (forallb_filter kp l Fa) in An. destruct An as (rel & -> & An). exists rel. split; [reflexivity|exact An].
      + destruct An as (rel & -> & An & _). cbn [bind]. apply (fa_of g t _ _ Dg Dt). set (ss := filter (fun r => negb (kp r)) l).
        apply (skipped_spec _ (union_area par ks) (union_area par ss)).
        * intros p. cbn [union_area a_in]. split.
          -- intros (r & I & H). destruct (kp r) eqn:K; [left|right]; exists r; (split; [apply filter_In; rewrite K; auto|exact H]).
          -- intros [(r & I & H)|(r & I & H)]; apply filter_In in I; exists r; (split; [apply I|exact H]).
        * intros p. cbn [union_area a_on]. split.
          -- intros (r & I & H). destruct (kp r) eqn:K; [left|right]; exists r; (split; [apply filter_In; rewrite K; auto|exact H]).
          -- intros [(r & I & H)|(r & I & H)]; apply filter_In in I; exists r; (split; [apply I|exact H]).
        * intros (p & P1 & P2). apply union_cl in P2. destruct P2 as (r & I & H). apply filter_In in I. destruct I as [I K]. apply negb_true_iff in K.
          apply (Sk r I K). exists p. auto.
        * apply forallb_not in Fa. destruct Fa as (r & I & K). destruct (Hb r I) as (b & _ & (_ & (v & Hv & _) & _)).
          exists v. apply union_cl. exists r. split; [apply filter_In; rewrite K; auto|exact Hv].
        * exact (equal_on E t _ _ Dk Dt).
        * exact (sub_in' E t _ _ Dk Dt).
        * exact An.
    - destruct Q as [Nk _]. apply (fa_of g t _ _ Dg Dt). intros (p & P1 & P2). apply union_cl in P2. destruct P2 as (r & I & H).
      apply (Sk r I); [|exists p; auto]. destruct (kp r) eqn:K; [exfalso|exact K].
      assert (J : In r ks) by (apply filter_In; auto). rewrite Nk in J. destruct J.
  Qed.
End Parts.
Lemma region_in_multiregion_exact_l c rs : simple_contour c -> valid_multiregion rs -> rs <> [] ->
  answer_is (areal_spec (region_area c) (multiregion_area rs)) (region_in_multiregion c rs).
Proof.
  intros C V N. destruct (contour_box_tight _ (simple_nonempty c C)) as (tb & Et & Tt).
  destruct (oriented_gives c false C) as (t & Ht & _). pose proof (drawn_region c t C Ht) as Dt.
  unfold region_in_multiregion, multiregion_relate_region, multiregion_relate_region_. rewrite Et, Ht. cbn [bind].
  apply (parts_areas contour_box (fun r => to_oriented_edges_endpoints r false) region_area tb t rs).
  - intros r I. destruct (contour_box_tight _ (simple_nonempty r (mr_simple rs r V I))) as (b & Eb & Tb). exists b. split; [exact Eb|apply tight_region, Tb].
  - intros r I. destruct (oriented_gives r false (mr_simple rs r V I)) as (e & He & _). exists e. exact He.
  - exact N.
  - exact Dt.
  - apply tight_region, Tt.
  - intros f E Nf HE. rewrite all_edges_regions in HE. split; [exact (drawn_multiregion _ E (mr_filter rs f V) Nf HE)|]. right. left. exact (region_flipping _ c t C Ht).
Qed.

(** * Swapped arguments *)
Lemma areal_spec_swap A B rel : areal_spec A B rel -> areal_spec B A (complement rel).
Proof.
  assert (M : forall X Y, meets Y X <-> meets X Y) by (intros X Y; split; apply meets_sym).
  destruct rel; cbn [areal_spec complement]; rewrite ?(M (a_cl B) (a_cl A)), ?(M (a_in B) (a_in A)); try (rewrite (M (a_on A) (a_on B)); tauto); try tauto.
  intros H p. symmetry. apply H.
Qed.
Lemma answer_swap A B r r' : answer_is (areal_spec A B) r -> answer_is (areal_spec B A) r' ->
  exists rel, r = Ok rel /\ r' = Ok (complement rel).
Proof.
  intros (rel & -> & S & _) (rel' & -> & _ & U). exists rel. split; [reflexivity|]. rewrite (U _ (areal_spec_swap _ _ _ S)). reflexivity.
Qed.
Lemma region_swap_l c r : simple_contour c -> simple_contour r ->
  exists rel, region_in_region c r = Ok rel /\ region_in_region r c = Ok (complement rel).
Proof. intros C R. apply (answer_swap _ _ _ _ (region_in_region_exact_l c r C R) (region_in_region_exact_l r c R C)). Qed.
Lemma multiregion_swap_l qs rs : valid_multiregion qs -> valid_multiregion rs -> qs <> [] -> rs <> [] ->
  exists rel, multiregion_in_multiregion qs rs = Ok rel /\ multiregion_in_multiregion rs qs = Ok (complement rel).
Proof.
  intros C R Nq Nr. apply (answer_swap _ _ _ _ (multiregion_in_multiregion_exact_l qs rs C R Nq Nr) (multiregion_in_multiregion_exact_l rs qs R C Nr Nq)).
Qed.

(** * Lines in regions *)
Definition around (X : point -> Prop) (A : area) : Prop := subset (a_on A) X /\ meets X (a_in A) /\ meets X (a_out A).
Lemma lc_area inp stop b g t A : items_ok inp -> apart inp -> ends_by inp stop b -> side inp false = map (item_of false) g -> side inp true = map (item_of true) t ->
  drawn g A -> t <> [] -> flipping (ends_set t) g (a_in A) -> flipping (ends_set t) g (a_out A) -> ~ around (ends_set t) A ->
  answer_is (linear_areal_spec (ends_set t) A) (run_linear_compound (init_state inp) stop).
Proof.
  intros IO AP EB Sg St Dg Nt Fi Fo NA.
  assert (Hf : forall p, side_has inp false p <-> a_on A p) by (intros p; rewrite (side_ends inp false g p Sg); apply (dr_on _ _ Dg)).
  assert (Ht : forall p, side_has inp true p <-> ends_set t p) by (intros p; apply (side_ends inp true t p St)).
  apply (answer_is_ext (linear_areal_spec (side_has inp true) (Area (a_in A) (side_has inp false) (a_out A)))).
  { apply linear_areal_ext; [exact Ht|]. intros p. cbn [a_in a_on a_out]. rewrite Hf. tauto. }
  apply (lc_answer inp _ b IO AP EB).
  - apply (dr_areal _ _ Dg), Sg.
  - destruct t as [|e t']; [congruence|]. exists (fst e). apply Ht. exists e. split; [left; reflexivity|apply on_segment_start].
  - pose proof (dr_some _ _ Dg) as Ng. destruct g as [|e g']; [congruence|]. exists (fst e). apply Hf, (dr_on _ _ Dg). exists e. split; [left; reflexivity|apply on_segment_start].
  - apply (Fi inp false IO AP Sg). intros p H. apply Ht, H.
  - apply (Fo inp false IO AP Sg). intros p H. apply Ht, H.
  - intros S M1 M2. apply NA. split; [|split].
    + intros p H. apply Ht, S, Hf, H.
    + destruct M1 as (p & P1 & P2). exists p. split; [apply Ht, P1|exact P2].
    + destruct M2 as (p & P1 & P2). exists p. split; [apply Ht, P1|exact P2].
Qed.
Lemma qmin_comm x y : qmin x y = qmin y x.
Proof. unfold qmin. destruct (qltb_spec y x), (qltb_spec x y); try reflexivity; exfalso + apply Qcle_antisym; qlra. Qed.
Lemma linear_area g t A gb tb : drawn g A -> tidy t -> t <> [] -> tight gb (a_on A) -> tight tb (ends_set t) ->
  flipping (ends_set t) g (a_in A) -> flipping (ends_set t) g (a_out A) -> ~ around (ends_set t) A ->
  answer_is (linear_areal_spec (ends_set t) A) (run_linear_compound (register (register q_empty g false) t true) (qmin (max_x tb) (max_x gb))).
Proof.
  intros Dg Tt Nt Tr Tb Fi Fo NA. destruct (two_ok g t (dr_tidy _ _ Dg) Tt) as [IO AP]. rewrite registered, qmin_comm. fold (two_items g t).
  destruct (two_ends g t gb tb (dr_some _ _ Dg) Nt) as [b EB]; [eapply tight_ext; [|exact Tr]; intros p; symmetry; apply (dr_on _ _ Dg)|exact Tb|].
  exact (lc_area _ _ b g t A IO AP EB (side_two g t false) (side_two g t true) Dg Nt Fi Fo NA).
Qed.
Lemma linear_region r g t rb tb : simple_contour r -> to_oriented_edges_endpoints r false = Ok g -> tidy t -> t <> [] ->
  tight rb (on_contour r) -> tight tb (ends_set t) -> ~ around (ends_set t) (region_area r) ->
  answer_is (linear_areal_spec (ends_set t) (region_area r)) (run_linear_compound (register (register q_empty g false) t true) (qmin (max_x tb) (max_x rb))).
Proof.
  intros R Hg Tt Nt Tr Tb NA. destruct (region_flipping (ends_set t) r g R Hg) as [Fi Fo].
  exact (linear_area g t (region_area r) rb tb (drawn_region r g R Hg) Tt Nt Tr Tb Fi Fo NA).
Qed.
(* Only the points of the line matter. *)
Lemma linear_areal_local (X : point -> Prop) A B : (forall p, X p -> (a_in A p <-> a_in B p) /\ (a_on A p <-> a_on B p) /\ (a_out A p <-> a_out B p)) ->
  forall rel, linear_areal_spec X A rel <-> linear_areal_spec X B rel.
Proof.
  intros H.
  assert (M1 : meets X (a_in A) <-> meets X (a_in B)) by (split; intros (p & P1 & P2); exists p; (split; [exact P1|]); apply (H p P1), P2).
  assert (M2 : meets X (a_on A) <-> meets X (a_on B)) by (split; intros (p & P1 & P2); exists p; (split; [exact P1|]); apply (H p P1), P2).
  assert (M3 : meets X (a_out A) <-> meets X (a_out B)) by (split; intros (p & P1 & P2); exists p; (split; [exact P1|]); apply (H p P1), P2).
  assert (S1 : subset X (a_in A) <-> subset X (a_in B)) by (split; intros K p Hp; apply (H p Hp), K, Hp).
  assert (S2 : subset X (a_on A) <-> subset X (a_on B)) by (split; intros K p Hp; apply (H p Hp), K, Hp).
  assert (S3 : subset X (a_out A) <-> subset X (a_out B)) by (split; intros K p Hp; apply (H p Hp), K, Hp).
  intros []; cbn [linear_areal_spec]; tauto.
Qed.
Lemma drawn_cases E A p : drawn E A -> a_in A p \/ a_on A p \/ a_out A p.
Proof.
  intros D. set (inp := map (item_of false) E). assert (Sd : side inp false = map (item_of false) E) by (unfold side, inp; rewrite filter_map_ft; reflexivity).
  destruct (side_dec inp false p) as [K|K].
  - right. left. apply (dr_on _ _ D), (side_ends inp false E p Sd), K.
  - destruct (areal_cases inp false _ _ p (dr_areal _ _ D inp false Sd) K) as [H|H]; auto.
Qed.
Section LinearParts.
  Context {X : Type}.
  Variable (pbox : X -> res box) (pedges : X -> res (list (point * point))) (par : X -> area) (tb : box) (t : list (point * point)) (l : list X).
  Hypothesis Hb : forall x, In x l -> exists b, pbox x = Ok b /\ tight b (a_cl (par x)).
  Hypothesis He : forall x, In x l -> returns (pedges x).
  Hypothesis (Nl : l <> []) (Tt : tidy t) (Nt : t <> []) (Tb : tight tb (ends_set t)).
  Hypothesis HD : forall f E, filter f l <> [] -> all_edges pedges (filter f l) = Ok E -> drawn E (union_area par (filter f l))
    /\ flipping (ends_set t) E (a_in (union_area par (filter f l))) /\ flipping (ends_set t) E (a_out (union_area par (filter f l))).
  Hypothesis Hc : forall x p, In x l -> a_in (par x) p \/ a_on (par x) p \/ a_out (par x) p.
  Hypothesis NA : forall x, In x l -> ~ around (ends_set t) (par x).
  Lemma parts_lines : answer_is (linear_areal_spec (ends_set t) (union_area par l))
      (do g <- gather pbox pedges tb (Ok t) l true None;
       match snd g with
       | None => Ok DISJOINT
       | Some (mx, q) => run_linear_compound q (qmin (max_x tb) mx)
       end).
  Proof.
    destruct (parts_edges pedges l He) as (g & Hg).
    assert (Dg : drawn g (union_area par l)).
    { pose proof (HD (fun _ => true) g) as Z. rewrite filter_all in Z. exact (proj1 (Z Nl Hg)). }
    destruct (parts_kept pbox pedges par tb t l Hb He) as (E & acc & HE & HG & Q). rewrite HG. cbn [bind fst snd]. set (kp := keep pbox tb) in *. set (ks := filter kp l) in *.
    pose proof (fun x => parts_skipped pbox par tb l Hb (ends_set t) x Tb) as Sk.
    assert (So : forall x p, In x l -> kp x = false -> ends_set t p -> a_out (par x) p /\ ~ a_cl (par x) p).
    { intros x p I K Hp. assert (N : ~ a_cl (par x) p) by (intros H; apply (Sk x I K); exists p; split; assumption). split; [|exact N].
      destruct (Hc x p I) as [H|[H|H]]; [exfalso; apply N; left; exact H|exfalso; apply N; right; exact H|exact H]. }
    assert (Ne : exists p, ends_set t p) by (destruct t as [|e t']; [congruence|]; exists (fst e), e; split; [left; reflexivity|apply on_segment_start]).
    destruct acc as [[mx q]|]; cbn [queue_is] in Q.
    - destruct Q as (-> & Nk & Mx). destruct (HD kp E Nk HE) as (Dk & Fi & Fo). fold ks in Dk, Fi, Fo.
      destruct (parts_ends pbox par tb t l Hb E mx Tt Nt (dr_tidy _ _ Dk)) as (IO & AP & b & EB).
      + intros p H. destruct Tb as [Z _]. specialize (Z p H). unfold in_box in Z. tauto.
      + exact Nk.
      + intros p H. apply (dr_on _ _ Dk) in H. destruct H as (x & I & H). exists x. split; [exact I|right; exact H].
      + apply (dr_some _ _ Dk).
      + exact Mx.
      + rewrite qmin_comm. apply (answer_is_ext (linear_areal_spec (ends_set t) (union_area par ks))).
        * apply linear_areal_local. intros p Hp. unfold ks. cbn [union_area a_in a_on a_out]. split; [|split].
          -- split; intros (x & I & H); [apply filter_In in I; exists x; split; [apply I|exact H]|]. exists x. split; [|exact H]. apply filter_In. split; [exact I|].
             destruct (kp x) eqn:K; [reflexivity|exfalso]. apply (proj2 (So x p I K Hp)). left. exact H.
          -- split; intros (x & I & H); [apply filter_In in I; exists x; split; [apply I|exact H]|]. exists x. split; [|exact H]. apply filter_In. split; [exact I|].
             destruct (kp x) eqn:K; [reflexivity|exfalso]. apply (proj2 (So x p I K Hp)). right. exact H.
          -- split; intros H x I; [|apply H; apply filter_In in I; apply I]. destruct (kp x) eqn:K; [apply H, filter_In; auto|exact (proj1 (So x p I K Hp))].
        * apply (lc_area _ _ b E t _ IO AP EB (side_two' E t false) (side_two' E t true) Dk Nt Fi Fo).
          intros (S & (p & P1 & x & Ix & P2) & (q & Q1 & Q2)). assert (Jx : In x l) by (apply filter_In in Ix; apply Ix). apply (NA x Jx). split; [|split].
          -- intros z Hz. apply S. exists x. auto.
          -- exists p. auto.
          -- exists q. split; [exact Q1|exact (Q2 x Ix)].
    - destruct Q as [Nk _].
      assert (H : linear_areal_spec (ends_set t) (union_area par l) DISJOINT).
      { intros p Hp x I. apply (So x p I); [|exact Hp]. destruct (kp x) eqn:K; [|reflexivity]. exfalso. assert (J : In x ks) by (apply filter_In; auto). rewrite Nk in J. destruct J. }
      exists DISJOINT. split; [reflexivity|]. split; [exact H|]. intros rel' H'. exact (linear_areal_unique _ _ _ _ Ne (areas_apart g _ Dg) H H').
  Qed.
End LinearParts.
Lemma region_apart r : simple_contour r -> apart_area (region_area r).
Proof. intros R. destruct (oriented_gives r false R) as (g & Hg & _). exact (areas_apart g _ (drawn_region r g R Hg)). Qed.
Lemma box_outside (X : point -> Prop) r : simple_contour r -> axis_separated X (on_contour r) -> (exists p, X p) ->
  answer_is (linear_areal_spec X (region_area r)) (Ok DISJOINT).
Proof.
  intros R Sp N. exists DISJOINT. split; [reflexivity|]. assert (H : linear_areal_spec X (region_area r) DISJOINT).
  { intros p Hp. apply (point_in_region_exact_l p r). exact (separated_exterior X r p (simple_nonempty r R) Sp Hp). }
  split; [exact H|]. intros rel' H'. exact (linear_areal_unique X _ _ _ N (region_apart r R) H H').
Qed.
Lemma multisegment_in_region_exact_l m r : valid_multisegment m -> simple_contour r -> ~ around (in_multisegment m) (region_area r) ->
  answer_is (linear_areal_spec (in_multisegment m) (region_area r)) (multisegment_in_region m r).
Proof.
  intros V R NA. destruct (ms_good m V) as [N T]. destruct (segments_box_tight _ N) as (mb & Em & Tm). destruct (contour_box_tight _ (simple_nonempty r R)) as (rb & Er & Tr).
  unfold multisegment_in_region, region_relate_multisegment. rewrite Em, Er. cbn [bind].
  assert (Ex : forall p, ends_set (to_segments_endpoints m) p <-> in_multisegment m p) by (intros p; apply ms_ends).
  assert (Nt : to_segments_endpoints m <> []) by (unfold to_segments_endpoints; destruct (segments m); [congruence|discriminate]).
  assert (Tm' : tight mb (in_multisegment m)) by (destruct m; exact Tm).
  destruct (disjoint_with mb rb) eqn:D.
  - apply (disjoint_with_iff _ _ _ _ Tm' Tr) in D. apply box_outside; [exact R|exact D|]. destruct (to_segments_endpoints m) as [|e l] eqn:El; [congruence|].
    exists (fst e). apply Ex. exists e. split; [left; reflexivity|apply on_segment_start].
  - destruct (oriented_gives r false R) as (g & Hg & _). rewrite Hg. cbn [bind].
    apply (answer_is_ext (linear_areal_spec (ends_set (to_segments_endpoints m)) (region_area r))); [apply linear_areal_ext; [exact Ex|intros p; tauto]|].
    apply linear_region; [exact R|exact Hg|exact T|exact Nt|exact Tr|eapply tight_ext; [|exact Tm']; intros p; symmetry; apply Ex|].
    intros (H1 & H2 & H3). apply NA. split; [|split].
    + intros p H. apply Ex, H1, H.
    + apply (meets_ext _ _ _ _ Ex (fun p => iff_refl _)). exact H2.
    + apply (meets_ext _ _ _ _ Ex (fun p => iff_refl _)). exact H3.
Qed.
Lemma contour_not_around c r : simple_contour c -> simple_contour r -> ~ around (on_contour c) (region_area r).
Proof.
  intros C R (S & (p & P1 & P2) & _). pose proof (contour_covers c r C R S p P1) as Q. destruct (region_apart r R p) as (A & _). exact (A (conj P2 Q)).
Qed.
Lemma region_relate_contour_exact c r cb : simple_contour c -> simple_contour r -> tight cb (on_contour c) ->
  answer_is (linear_areal_spec (on_contour c) (region_area r)) (region_relate_contour_ r c cb).
Proof.
  intros C R Tc. destruct (contour_box_tight _ (simple_nonempty r R)) as (rb & Er & Tr). unfold region_relate_contour_. rewrite Er. cbn [bind].
  assert (Ne : exists p, on_contour c p).
  { pose proof (edges_nonempty c C) as N. destruct (edges_endpoints c) as [|e l] eqn:El; [congruence|]. exists (fst e). apply contour_ends. rewrite El.
    exists e. split; [left; reflexivity|apply on_segment_start]. }
  destruct (disjoint_with cb rb) eqn:D; [apply (disjoint_with_iff _ _ _ _ Tc Tr) in D; apply box_outside; assumption|].
  destruct (contour_equal_returns r c R C) as (e & Ee). rewrite Ee. cbn [bind]. destruct e.
  - apply contour_equal_sound in Ee. exists COMPONENT. split; [reflexivity|].
    assert (H : linear_areal_spec (on_contour c) (region_area r) COMPONENT).
    { intros p H. apply (same_cycle_area r c Ee p). exact H. }
    split; [exact H|]. intros rel' H'. exact (linear_areal_unique _ _ _ _ Ne (region_apart r R) H H').
  - destruct (oriented_gives r false R) as (g & Hg & _). rewrite Hg. cbn [bind].
    apply (answer_is_ext (linear_areal_spec (ends_set (edges_endpoints c)) (region_area r))); [apply linear_areal_ext; [apply contour_ends|intros p; tauto]|].
    apply linear_region; [exact R|exact Hg|apply edges_tidy, C|apply edges_nonempty, C|exact Tr|eapply tight_ext; [|exact Tc]; intros p; symmetry; apply contour_ends|].
    intros (H1 & H2 & H3). apply (contour_not_around c r C R). split; [|split].
    + intros p H. apply contour_ends, H1, H.
    + apply (meets_ext _ _ _ _ (contour_ends c) (fun p => iff_refl _)). exact H2.
    + apply (meets_ext _ _ _ _ (contour_ends c) (fun p => iff_refl _)). exact H3.
Qed.
Lemma contour_in_region_exact_l c r : simple_contour c -> simple_contour r ->
  answer_is (linear_areal_spec (on_contour c) (region_area r)) (contour_in_region c r).
Proof.
  intros C R. destruct (contour_box_tight _ (simple_nonempty c C)) as (cb & Ec & Tc). unfold contour_in_region, region_relate_contour. rewrite Ec. cbn [bind].
  apply region_relate_contour_exact; assumption.
Qed.
