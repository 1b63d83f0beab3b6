(* When exactly the one-sweep queries answer CROSS or OVERLAP because of a cut. *)
From Coq Require Import QArith Qcanon List Bool ZArith Lia Permutation.
From Verif Require Import Scalar Base Ground MLinear MSweep MCompound Planar Spec SpecAreas SpecAround SpecContact SpecSeen Geom RayParity SegProofs BoxProofs PointProofs EqualProofs
  SweepStore SweepDetect SweepSteps Termination SweepSafe NoFail SweepTime SweepOrder SweepMoves SweepAdvance SweepLoop SweepEmit SweepRun SweepFound SweepPass SweepSeen
  SweepLow SweepFlags SweepInside SweepMarks SweepTold OpenProofs Orient Walk Area Vertical AreaFlags AreaSem AreaAnswer Drawn Gather Cover Sector AreaQueries ClosedProofs Polygons PolyQueries Consequences AroundProofs ContactProofs.
Import ListNotations.
Open Scope Qc_scope.

(** * Lists of edges *)
Lemma seen_sym l l' : seen_cut l l' -> seen_cut l' l.
Proof. intros (e & e' & p & I & I' & C & h & H). exists e', e, p. split; [exact I'|]. split; [exact I|]. split; [exact (cuts_at_sym _ _ _ C)|]. exists h. tauto. Qed.
(* The same edges, up to their direction. *)
Definition turned (l l' : list (point * point)) : Prop := forall e, In e l -> exists g, In g l' /\ (g = e \/ g = (snd e, fst e)).
Lemma free_turned l l' p h : turned l' l -> SpecSeen.free_way l p h -> SpecSeen.free_way l' p h.
Proof.
  intros T F f d I O1 O2 N. destruct (T f I) as (g & Ig & E). apply (F g d Ig); [exact (proj2 (turned_on g f p E) O1)|exact (proj2 (turned_on g f d E) O2)|exact N].
Qed.
Lemma seen_turned t l l' : turned l l' -> turned l' l -> seen_cut t l -> seen_cut t l'.
Proof.
  intros T T' (e & e' & p & I & I' & C & h & H). destruct (T e' I') as (g & Ig & E). exists e, g, p. split; [exact I|]. split; [exact Ig|]. split; [exact (proj2 (turned_cut g e' e p E) C)|].
  exists h. destruct H as [[H F]|[H F]]; [left; split; [exact H|exact (free_turned l l' p h T' F)]|right; split; [|exact F]].
  destruct E as [-> | ->]; cbn [fst snd]; tauto.
Qed.
Lemma seen_rings L E t : rings L E -> (seen_cut t E <-> seen_cut t (rings_edges L)).
Proof.
  intros R. assert (T : turned E (rings_edges L)) by (intros e I; exact (rings_edge L E e R I)).
  assert (T' : turned (rings_edges L) E) by (intros g I; destruct (rings_back L E g R I) as (e & Ie & [-> | ->]); exists e; split; [exact Ie|left; reflexivity|exact Ie|right; destruct e; reflexivity]).
  split; apply seen_turned; assumption.
Qed.
Lemma turned_incl l l' : incl l l' -> turned l l'.
Proof. intros H e I. exists e. split; [exact (H e I)|left; reflexivity]. Qed.
(* Edges that the other list does not meet do not matter. *)
Lemma seen_local t l l' : incl l l' -> (forall e p, In e l' -> on_segment (fst e) (snd e) p -> ends_set t p -> In e l) -> (seen_cut t l <-> seen_cut t l').
Proof.
  intros H K. split; intros (e & e' & p & I & I' & C & h & Q).
  - exists e, e', p. split; [exact I|]. split; [exact (H e' I')|]. split; [exact C|]. exists h. destruct Q as [[Q F]|Q]; [left; split; [exact Q|]|right; exact Q].
    intros f d If O1. apply (F f d); [|exact O1]. apply (K f p If O1). exists e. split; [exact I|apply C].
  - exists e, e', p. split; [exact I|]. split; [apply (K e' p I'); [apply C|exists e; split; [exact I|apply C]]|]. split; [exact C|]. exists h.
    destruct Q as [[Q F]|Q]; [left; split; [exact Q|]|right; exact Q]. intros f d If. exact (F f d (H f If)).
Qed.
(* If the edges of the first list meet at ends only, every cut is seen. *)
Lemma seen_all t l : (forall e f p, In e t -> In f t -> on_segment (fst e) (snd e) p -> on_segment (fst f) (snd f) p -> p <> fst e -> p <> snd e -> f = e) -> (cut_by t l <-> seen_cut t l).
Proof.
  intros H. split.
  - intros (e & e' & I & I' & p & C). exists e, e', p. split; [exact I|]. split; [exact I'|]. split; [exact C|]. exists (fst e'). right. split; [left; reflexivity|].
    destruct C as (C1 & C2 & C3 & C4 & C5 & C6 & U). intros f d If O1 O2 N S. rewrite (H e f p I If C1 O1 C3 C4) in O2. apply N, (U d O2).
    exact (on_segment_convex _ _ _ _ _ C2 (on_segment_start _ _) S).
  - intros (e & e' & p & I & I' & C & _). exists e, e'. split; [exact I|]. split; [exact I'|]. exists p. exact C.
Qed.

(** * The sweep *)
Lemma item_ends s e h : (h = it_lo (item_of s e) \/ h = it_hi (item_of s e)) <-> (h = fst e \/ h = snd e).
Proof. destruct e as [a b]. unfold item_of. cbn [fst snd]. destruct (pt_ltb b a); cbn [it_lo it_hi]; tauto. Qed.
Section Noticed.
  Variable (inp : list item) (stop : Qc) (b : bool) (ed : bool -> list (point * point)).
  Hypothesis (IO : items_ok inp) (AP : apart inp) (EB : ends_by inp stop b).
  Hypothesis Sd : forall s, side inp s = map (item_of s) (ed s).
  Lemma free_items s p h : SweepSeen.free_way inp s p h <-> SpecSeen.free_way (ed (negb s)) p h.
  Proof using Sd.
    split; intros F.
    - intros f d If O1 O2. destruct (ct_item inp ed Sd _ f If) as [I E]. apply (F _ d I E); apply on_item_of; assumption.
    - intros y d Iy Fy O1 O2. destruct (ct_edge inp ed Sd _ y Iy Fy) as (f & If & ->). apply on_item_of in O1, O2. exact (F f d If O1 O2).
  Qed.
  Lemma free_cut s : free_proper inp s <-> exists e e' p, In e (ed s) /\ In e' (ed (negb s)) /\ cuts_at e e' p /\ exists h, (h = fst e \/ h = snd e) /\ SpecSeen.free_way (ed (negb s)) p h.
  Proof using Sd.
    split.
    - intros (x & y & p & Ix & Iy & Fx & Fy & C & h & H & F). destruct (ct_edge inp ed Sd _ x Ix Fx) as (e & Ie & ->), (ct_edge inp ed Sd _ y Iy Fy) as (e' & Ie' & ->).
      exists e, e', p. split; [exact Ie|]. split; [exact Ie'|]. split; [apply (cuts_at_item s (negb s)), C|]. exists h. split; [exact (proj1 (item_ends s e h) H)|apply free_items, F].
    - intros (e & e' & p & Ie & Ie' & C & h & H & F). destruct (ct_item inp ed Sd _ e Ie) as [I E], (ct_item inp ed Sd _ e' Ie') as [I' E'].
      exists (item_of s e), (item_of (negb s) e'), p. repeat (split; [assumption|]). split; [apply cuts_at_item, C|]. exists h. split; [exact (proj2 (item_ends s e h) H)|apply free_items, F].
  Qed.
  Lemma noticed fuel outs q : sweep false fuel stop (init_state inp) = (outs, Ok q) -> (existsb crosses outs = true <-> seen_cut (ed true) (ed false)).
  Proof using All.
    intros Sw. pose proof (sweep_sees inp stop b fuel outs q IO AP EB Sw) as H. rewrite existsb_exists. split.
    - intros (o & Io & Ho). unfold crosses in Ho. destruct (srel_eqb_spec (l_relation o) SCROSS) as [Ro|]; [|discriminate].
      assert (K : exists out, In out outs /\ l_from_test out = l_from_test o /\ l_relation out = SCROSS) by (exists o; auto). apply H, free_cut in K.
      destruct K as (e & e' & p & I & I' & C & h & Q). destruct (l_from_test o); cbn [negb] in *; [|apply seen_sym]; exists e, e', p; (split; [exact I|]); (split; [exact I'|]); (split; [exact C|]); exists h; left; exact Q.
    - intros (e & e' & p & I & I' & C & h & [Q|Q]).
      + destruct (proj2 (H true) (proj2 (free_cut true) (ex_intro _ e (ex_intro _ e' (ex_intro _ p (conj I (conj I' (conj C (ex_intro _ h Q))))))))) as (o & Io & _ & Ro). exists o. split; [exact Io|]. unfold crosses. rewrite Ro. reflexivity.
      + destruct (proj2 (H false) (proj2 (free_cut false) (ex_intro _ e' (ex_intro _ e (ex_intro _ p (conj I' (conj I (conj (cuts_at_sym _ _ _ C) (ex_intro _ h Q))))))))) as (o & Io & _ & Ro). exists o. split; [exact Io|]. unfold crosses. rewrite Ro. reflexivity.
  Qed.
End Noticed.

(** * Linear geometries *)
Lemma lc_told inp stop b g t A : items_ok inp -> apart inp -> ends_by inp stop b -> side inp false = map (item_of false) g -> side inp true = map (item_of true) t ->
  drawn g A -> t <> [] -> lines_told_by (linear_areal_spec (ends_set t) A) (around (ends_set t) A) (seen_cut t g) (run_linear_compound (init_state inp) stop).
Proof.
  intros IO AP EB Sg St Dg Nt. set (ed := fun s : bool => if s then t else g). assert (Sd : forall s, side inp s = map (item_of s) (ed s)) by (intros []; assumption).
  assert (Hf : forall p, side_has inp false p <-> a_on A p) by (intros p; rewrite (side_ends inp false g p Sg); apply (dr_on _ _ Dg)).
  assert (Ht : forall p, side_has inp true p <-> ends_set t p) by (intros p; apply (side_ends inp true t p St)).
  pose proof (dr_areal _ _ Dg inp false Sg) as Ar.
  assert (NY : exists p, side_has inp false p).
  { pose proof (dr_some _ _ Dg) as Ng. destruct g as [|e g']; [congruence|]. exists (fst e). apply Hf, (dr_on _ _ Dg). exists e. split; [left; reflexivity|apply on_segment_start]. }
  assert (NX : exists p, ends_set t p) by (destruct t as [|e t']; [congruence|]; exists (fst e), e; split; [left; reflexivity|apply on_segment_start]).
  assert (Ex : forall rel, linear_areal_spec (side_has inp true) (Area (a_in A) (side_has inp false) (a_out A)) rel <-> linear_areal_spec (ends_set t) A rel).
  { apply linear_areal_ext; [exact Ht|]. intros p. cbn [a_in a_on a_out]. rewrite Hf. tauto. }
  assert (Sp : forall rel, linear_areal_spec (ends_set t) A rel -> answer_is (linear_areal_spec (ends_set t) A) (Ok rel)).
  { intros rel H. exists rel. split; [reflexivity|]. split; [exact H|]. intros rel'. exact (linear_areal_unique _ _ _ _ NX (areas_apart g A Dg) H). }
  assert (Me : forall P, meets (side_has inp true) P -> meets (ends_set t) P) by (intros P (p & P1 & P2); exists p; split; [apply Ht, P1|exact P2]).
  unfold run_linear_compound, process_linear_compound_queue, process.
  pose proof (sweep_returns inp false stop IO AP) as R.
  destruct (sweep false (sweep_fuel (init_state inp)) stop (init_state inp)) as [outs r] eqn:Sw. cbn [snd] in R. destruct R as [q ->].
  pose proof (noticed inp stop b ed IO AP EB Sd _ outs q Sw) as Nt'. cbn [ed] in Nt'.
  rewrite lc_consume. destruct (existsb crosses outs) eqn:Ec.
  - split; [reflexivity|]. intros NC. exfalso. apply NC, Nt'. reflexivity.
  - split; [intros C; apply Nt' in C; discriminate|]. intros NC.
    cbn [bind la_test_not_in_goal la_no_touch la_test_subset la_border_subset andb]. split.
    + intros NA. apply Sp, Ex. apply (lc_plain inp stop b IO AP EB _ _ outs q Ar NY Sw Ec).
      intros S M1 M2. apply NA. split; [|split; apply Me; assumption]. intros p H. apply Ht, S, Hf, H.
    + intros (Sub & Mi & Mo). f_equal.
      destruct (flag_points inp stop b IO AP EB _ outs q Sw true (a_in A) (a_out A) Ar) as [_ FO].
      assert (HO : f_out outs q true) by (apply FO; destruct Mo as (p & P1 & P2); exists p; split; [apply Ht, P1|exact P2]). clear FO.
      destruct (sweep_finds inp IO AP false stop b _ outs q EB Sw) as (_ & _ & Fr & _ & _).
      assert (NF : ~ free inp false) by (intros (p & P1 & P2); apply P2, Ht, Sub, Hf, P1).
      assert (Bs : forallb (fun o => l_from_test o || over o) outs = true).
      { apply forallb_forall. intros o I. destruct (l_from_test o) eqn:F; [reflexivity|cbn [orb]]. unfold over. destruct (srel_eqb_spec (l_relation o) SOVERLAP) as [|K]; [reflexivity|].
        exfalso. apply NF, (Fr false). left. exists o. auto. }
      assert (Rq : queue_rest q <> Some false) by (intros K; apply NF, (Fr false); right; exact K).
      unfold lc_finish. cbn [la_test_not_in_goal la_no_touch la_test_subset la_border_subset andb]. rewrite Bs.
      destruct (queue_rest q) as [[|]|] eqn:Er; [reflexivity|congruence|].
      assert (Ts : forallb (fun o => negb (l_from_test o && l_outside o)) outs = false).
      { destruct HO as [(o & I & H1 & H2)|K]; [|congruence]. apply forallb_not. exists o. rewrite H1, H2. auto. }
      rewrite Ts. reflexivity.
Qed.

(** * Areas *)
Lemma cc_told inp stop b g t A B : items_ok inp -> apart inp -> ends_by inp stop b -> side inp false = map (item_of false) g -> side inp true = map (item_of true) t ->
  drawn g B -> drawn t A -> told_by (areal_spec A B) OVERLAP (seen_cut t g) (run_compound (init_state inp) stop).
Proof.
  intros IO AP EB Sg St Dg Dt. set (ed := fun s : bool => if s then t else g). assert (Sd : forall s, side inp s = map (item_of s) (ed s)) by (intros []; assumption).
  set (ar := fun s : bool => if s then A else B).
  pose proof (tw_areal inp g t A B Sg St Dg Dt) as AR. pose proof (tw_has inp g t A B Sg St Dg Dt) as HS. pose proof (tw_some inp g t A B Sg St Dg Dt) as NE.
  assert (Ex : forall rel, areal_spec (the_area inp (fun s => a_in (ar s)) (fun s => a_out (ar s)) true) (the_area inp (fun s => a_in (ar s)) (fun s => a_out (ar s)) false) rel <-> areal_spec A B rel).
  { apply areal_spec_ext; intros p; unfold the_area; cbn [a_in a_on a_out]; rewrite HS; cbn [ar]; tauto. }
  destruct (sweep_returns inp false stop IO AP) as [q R].
  destruct (sweep false (sweep_fuel (init_state inp)) stop (init_state inp)) as [outs r] eqn:Sw. cbn [snd] in R. subst r.
  pose proof (noticed inp stop b ed IO AP EB Sd _ outs q Sw) as Nt. cbn [ed] in Nt. split.
  - intros C. apply Nt in C. unfold run_compound, process_compound_queue, process. rewrite Sw, cc_consume, C. reflexivity.
  - intros NC. apply (answer_is_ext _ _ _ Ex). apply (cc_general inp stop b IO AP EB _ _ AR NE). intros outs' q' Sw' Ec. exfalso. rewrite Sw in Sw'. injection Sw' as <- <-. apply NC, Nt, Ec.
Qed.
Lemma run_told g t gb tb A B : drawn g B -> drawn t A -> tight gb (a_on B) -> tight tb (a_on A) ->
  told_by (areal_spec A B) OVERLAP (seen_cut t g) (run_compound (register (register q_empty g false) t true) (qmin (max_x gb) (max_x tb))).
Proof.
  intros Dg Dt Bg Bt. destruct (two_ok g t (dr_tidy _ _ Dg) (dr_tidy _ _ Dt)) as [IO AP]. rewrite registered. fold (two_items g t).
  destruct (two_ends g t gb tb (dr_some _ _ Dg) (dr_some _ _ Dt)) as [b EB]; [eapply tight_ext; [|exact Bg]; intros p; symmetry; apply (dr_on _ _ Dg)|eapply tight_ext; [|exact Bt]; intros p; symmetry; apply (dr_on _ _ Dt)|].
  exact (cc_told _ _ b g t A B IO AP EB (side_two g t false) (side_two g t true) Dg Dt).
Qed.
Lemma told_mono S S' rel (C D : Prop) r : (forall x, S x <-> S' x) -> (C <-> D) -> told_by S rel C r -> told_by S' rel D r.
Proof. intros E H [A B]. split; [intros K; apply A, H, K|intros K; apply (answer_is_ext _ _ _ E), B; rewrite H; exact K]. Qed.
Lemma lines_mono (S S' : relation -> Prop) (A A' C D : Prop) r : (forall x, S x <-> S' x) -> (A <-> A') -> (C <-> D) -> lines_told_by S A C r -> lines_told_by S' A' D r.
Proof.
  intros E H K [P Q]. split; [intros J; apply P, K, J|]. intros J. assert (J' : ~ C) by (rewrite K; exact J). destruct (Q J') as [Q1 Q2].
  split; intros Z; [apply (answer_is_ext _ _ _ E), Q1; rewrite H; exact Z|apply Q2, H, Z].
Qed.

(** * Several parts *)
Section Told.
  Context {X : Type}.
  Variable (pbox : X -> res box) (pedges : X -> res (list (point * point))) (par : X -> area) (sedges : X -> list (point * point)) (tb : box) (t : list (point * point)) (l : list X).
  Hypothesis Hb : forall x, In x l -> exists b, pbox x = Ok b /\ tight b (a_cl (par x)) /\ tight b (a_on (par x)).
  Hypothesis He : forall x, In x l -> returns (pedges x).
  Hypothesis (Nl : l <> []) (Tt : tidy t) (Nt : t <> []) (Tb : tight tb (ends_set t)).
  Hypothesis HD : forall f E, filter f l <> [] -> all_edges pedges (filter f l) = Ok E -> drawn E (union_area par (filter f l))
    /\ exists L, rings L E /\ rings_edges L = flat_map sedges (filter f l).
  Hypothesis Hc : forall x p, In x l -> a_in (par x) p \/ a_on (par x) p \/ a_out (par x) p.
  Hypothesis Hs : forall x e p, In x l -> In e (sedges x) -> on_segment (fst e) (snd e) p -> a_on (par x) p.
  Let kp := keep pbox tb.
  Let ks := filter kp l.
  Let skipped := rr_skipped pbox par tb t l Hb Tb Hc.
  Let rround := rr_around pbox par tb t l Hb Tb Hc.
  Lemma to_kept : seen_cut t (flat_map sedges ks) <-> seen_cut t (flat_map sedges l).
  Proof using Hb Tb Hc Hs.
    apply seen_local; [apply flat_incl, filter_incl|]. intros e p I O1 Hp. apply in_flat_map in I. destruct I as (x & Ix & I). apply in_flat_map. exists x. split; [|exact I].
    apply filter_In. split; [exact Ix|]. destruct (kp x) eqn:K; [reflexivity|exfalso]. apply (proj2 (skipped x p Ix K Hp)). right. exact (Hs x e p Ix I O1).
  Qed.
  Lemma parts_told : lines_told_by (linear_areal_spec (ends_set t) (union_area par l)) (runs_round (ends_set t) par (union_area par l) l) (seen_cut t (flat_map sedges l))
      (do g <- gather pbox pedges tb (Ok t) l true None;
       match snd g with
       | None => Ok DISJOINT
       | Some (mx, q) => run_linear_compound q (qmin (max_x tb) mx)
       end).
  Proof using All.
    destruct (parts_kept pbox pedges par tb t l (rr_box pbox par l Hb) He) as (E & acc & HE & HG & Q). rewrite HG. cbn [bind fst snd].
    destruct acc as [[mx q]|]; cbn [queue_is] in Q.
    - destruct Q as (-> & Nk & Mx). destruct (HD kp E Nk HE) as (Dk & L & R & EL). destruct (rr_ends pbox par tb t l Hb Tt Nt Tb E mx Dk Nk Mx) as (IO & AP & b & EB). rewrite qmin_comm.
      refine (lines_mono _ _ _ _ _ _ _ (lo_local pbox par tb t l Hb Tb Hc) _ _ (lc_told _ _ b E t _ IO AP EB (side_two' E t false) (side_two' E t true) Dk Nt)); [symmetry; exact rround|].
      rewrite (seen_rings L E t R), EL. apply to_kept.
    - destruct Q as [Nk _].
      assert (Ks : ks = []) by exact Nk. split; [intros C; apply to_kept in C; rewrite Ks in C; destruct C as (e & e' & p & _ & [] & _)|]. intros _. split.
      + intros _.
        assert (Ne : exists p, ends_set t p) by (destruct t as [|e t']; [congruence|]; exists (fst e), e; split; [left; reflexivity|apply on_segment_start]).
        assert (H : linear_areal_spec (ends_set t) (union_area par l) DISJOINT).
        { intros p Hp x I. apply (skipped x p I); [|exact Hp]. destruct (keep pbox tb x) eqn:K; [|reflexivity]. exfalso. assert (J : In x ks) by (apply filter_In; auto). rewrite Ks in J. destruct J. }
        destruct (parts_edges pedges l He) as (g & Hg). assert (Dg : drawn g (union_area par l)).
        { pose proof (HD (fun _ => true) g) as Z. rewrite filter_all in Z. exact (proj1 (Z Nl Hg)). }
        exists DISJOINT. split; [reflexivity|]. split; [exact H|]. intros rel' H'. exact (linear_areal_unique _ _ _ _ Ne (areas_apart g _ Dg) H H').
      + intros RR. exfalso. apply (proj1 rround) in RR. destruct RR as (_ & (p & _ & x & Ix & _) & _). fold kp ks in Ix. rewrite Ks in Ix. destruct Ix.
  Qed.
End Told.
Section ToldAreas.
  Context {X : Type}.
  Variable (pbox : X -> res box) (pedges : X -> res (list (point * point))) (par : X -> area) (sedges : X -> list (point * point)) (tb : box) (t : list (point * point)) (l : list X).
  Variable (A : area) (L' : list (contour * bool)).
  Hypothesis Hb : forall x, In x l -> exists b, pbox x = Ok b /\ tight b (a_cl (par x)).
  Hypothesis He : forall x, In x l -> returns (pedges x).
  Hypothesis (Nl : l <> []) (Dt : drawn t A) (Tt : tight tb (a_cl A)) (Rt : rings L' t).
  Hypothesis HD : forall f E, filter f l <> [] -> all_edges pedges (filter f l) = Ok E -> drawn E (union_area par (filter f l))
    /\ exists L, rings L E /\ rings_edges L = flat_map sedges (filter f l).
  Hypothesis Hs : forall x e p, In x l -> In e (sedges x) -> on_segment (fst e) (snd e) p -> a_on (par x) p.
  Lemma to_kept_areas : seen_cut t (flat_map sedges (filter (keep pbox tb) l)) <-> seen_cut t (flat_map sedges l).
  Proof using All.
    apply seen_local; [apply flat_incl, filter_incl|]. intros e p I O1 Hp. apply in_flat_map in I. destruct I as (x & Ix & I). apply in_flat_map. exists x. split; [|exact I].
    apply filter_In. split; [exact Ix|]. destruct (keep pbox tb x) eqn:K; [reflexivity|exfalso]. apply (parts_skipped pbox par tb l Hb (a_cl A) x Tt Ix K).
    exists p. split; [right; apply (dr_on _ _ Dt), Hp|right; exact (Hs x e p Ix I O1)].
  Qed.
  Lemma parts_told_areas : told_by (areal_spec A (union_area par l)) OVERLAP (seen_cut (rings_edges L') (flat_map sedges l))
      (do g <- gather pbox pedges tb (Ok t) l true None;
       match snd g with
       | None => Ok DISJOINT
       | Some (mx, q) => do rel <- run_compound q (qmin mx (max_x tb)); Ok (skipped_correction (fst g) rel)
       end).
  Proof using All.
    destruct (parts_edges pedges l He) as (g & Hg).
    assert (Dg : drawn g (union_area par l)).
    { pose proof (HD (fun _ => true) g) as Z. rewrite filter_all in Z. exact (proj1 (Z Nl Hg)). }
    assert (Tk : seen_cut t (flat_map sedges (filter (keep pbox tb) l)) <-> seen_cut (rings_edges L') (flat_map sedges l)).
    { rewrite to_kept_areas. split; intros C; apply seen_sym; apply seen_sym in C; revert C; apply (seen_rings L' t _ Rt). }
    destruct (parts_kept pbox pedges par tb t l Hb He) as (E & acc & HE & HG & Q). rewrite HG. cbn [bind fst snd]. set (kp := keep pbox tb) in *. set (ks := filter kp l) in *.
    pose proof (fun x => parts_skipped pbox par tb l Hb (a_cl A) x Tt) as Sk.
    destruct acc as [[mx q]|]; cbn [queue_is] in Q.
    - destruct Q as (-> & Nk & Mx). destruct (HD kp E Nk HE) as (Dk & L & R & EL). fold ks in Dk, EL.
      assert (An : told_by (areal_spec A (union_area par ks)) OVERLAP (seen_cut t E) (run_compound (queued t E) (qmin mx (max_x tb)))).
      { destruct (parts_ends pbox par tb t l Hb E mx (dr_tidy _ _ Dt) (dr_some _ _ Dt) (dr_tidy _ _ Dk)) as (IO & AP & b & EB).
        - intros p H. apply (dr_on _ _ Dt) in H. destruct Tt as [Tt' _]. specialize (Tt' p (or_intror H)). unfold in_box in Tt'. tauto.
        - exact Nk.
        - intros p H. apply (dr_on _ _ Dk) in H. destruct H as (x & I & H). exists x. split; [exact I|right; exact H].
        - apply (dr_some _ _ Dk).
        - exact Mx.
        - exact (cc_told _ _ b E t _ _ IO AP EB (side_two' E t false) (side_two' E t true) Dk Dt). }
      assert (Co : seen_cut t E <-> seen_cut (rings_edges L') (flat_map sedges l)) by (rewrite <- Tk, (seen_rings L E t R), EL; reflexivity).
      destruct An as [An1 An]. split; [intros C; rewrite (An1 (proj2 Co C)); destruct (forallb kp l); reflexivity|]. intros NC.
      assert (NC' : ~ seen_cut t E) by (rewrite Co; exact NC). specialize (An NC').
      destruct (forallb kp l) eqn:Fa.
      + unfold ks in An. rewrite (forallb_filter kp l Fa) in An. destruct An as (rel & -> & An). exists rel. split; [reflexivity|exact An].
      + destruct An as (rel & -> & An & _). cbn [bind]. apply (fa_of g t _ _ Dg Dt). set (ss := filter (fun r => negb (kp r)) l).
        apply (skipped_spec _ (union_area par ks) (union_area par ss)).
        * intros p. cbn [union_area a_in]. split.
          -- intros (r & I & H). destruct (kp r) eqn:K; [left|right]; exists r; (split; [apply filter_In; rewrite K; auto|exact H]).
          -- intros [(r & I & H)|(r & I & H)]; apply filter_In in I; exists r; (split; [apply I|exact H]).
        * intros p. cbn [union_area a_on]. split.
          -- intros (r & I & H). destruct (kp r) eqn:K; [left|right]; exists r; (split; [apply filter_In; rewrite K; auto|exact H]).
          -- intros [(r & I & H)|(r & I & H)]; apply filter_In in I; exists r; (split; [apply I|exact H]).
        * intros (p & P1 & P2). apply union_cl in P2. destruct P2 as (r & I & H). apply filter_In in I. destruct I as [I K]. apply negb_true_iff in K.
          apply (Sk r I K). exists p. auto.
        * apply forallb_not in Fa. destruct Fa as (r & I & K). destruct (Hb r I) as (b & _ & (_ & (v & Hv & _) & _)).
          exists v. apply union_cl. exists r. split; [apply filter_In; rewrite K; auto|exact Hv].
        * exact (equal_on E t _ _ Dk Dt).
        * exact (sub_in' E t _ _ Dk Dt).
        * exact An.
    - destruct Q as [Nk _]. split; [intros C; apply Tk in C; rewrite Nk in C; destruct C as (e & e' & p & _ & [] & _)|]. intros _.
      apply (fa_of g t _ _ Dg Dt). intros (p & P1 & P2). apply union_cl in P2. destruct P2 as (r & I & H).
      apply (Sk r I); [|exists p; auto]. destruct (kp r) eqn:K; [exfalso|exact K].
      assert (J : In r ks) by (apply filter_In; auto). rewrite Nk in J. destruct J.
  Qed.
End ToldAreas.

(** * Lines *)
Lemma line_multiregion_told rs t X tb : valid_multiregion rs -> rs <> [] -> line_is t X -> tight tb X ->
  lines_told_by (linear_areal_spec X (multiregion_area rs)) (runs_round X region_area (multiregion_area rs) rs) (seen_cut t (contours_edges rs))
    (do g <- gather contour_box (fun r => to_oriented_edges_endpoints r false) tb (Ok t) rs true None;
     match snd g with
     | None => Ok DISJOINT
     | Some (mx, q) => run_linear_compound q (qmin (max_x tb) mx)
     end).
Proof.
  intros V N (Tt & Nt & E) Tb'. assert (Tb : tight tb (ends_set t)) by (eapply tight_ext; [|exact Tb']; intros p; symmetry; apply E).
  assert (H1 : forall r, In r rs -> exists b, contour_box r = Ok b /\ tight b (a_cl (region_area r)) /\ tight b (a_on (region_area r))).
  { intros r I. destruct (contour_box_tight _ (simple_nonempty r (mr_simple rs r V I))) as (b & Eb & T). exists b. split; [exact Eb|]. split; [apply tight_region, T|exact T]. }
  assert (H2 : forall r, In r rs -> returns (to_oriented_edges_endpoints r false)).
  { intros r I. destruct (oriented_gives r false (mr_simple rs r V I)) as (e & He & _). exists e. exact He. }
  assert (H3 : forall f E, filter f rs <> [] -> all_edges (fun r => to_oriented_edges_endpoints r false) (filter f rs) = Ok E -> drawn E (union_area region_area (filter f rs))
    /\ exists L, rings L E /\ rings_edges L = flat_map (fun r => cyc_pairs (vertices r)) (filter f rs)).
  { intros f E0 Nf HE. rewrite all_edges_regions in HE. split; [exact (drawn_multiregion _ E0 (mr_filter rs f V) Nf HE)|].
    eexists. split; [exact (mr_rings _ false (proj1 (mr_filter rs f V)) E0 HE)|]. unfold rings_edges. rewrite ?map_fst_rings. rewrite ?map_map. cbn [fst]. rewrite ?map_id. reflexivity. }
  assert (H4 : forall x p, In x rs -> a_in (region_area x) p \/ a_on (region_area x) p \/ a_out (region_area x) p) by (intros x p _; exact (in_cases x p)).
  refine (lines_mono _ _ _ _ _ _ _ _ _ (iff_refl _) (parts_told contour_box (fun r => to_oriented_edges_endpoints r false) region_area (fun r => cyc_pairs (vertices r)) tb t rs H1 H2 N Tt Nt Tb H3 H4
      (fun x e p _ => edge_on_contour x e p))).
  - apply linear_areal_ext; [exact E|intros p; unfold multiregion_area; tauto].
  - split; apply runs_round_ext; [exact E|intros p; symmetry; apply E].
Qed.
Lemma line_multipolygon_told mp t X tb : valid_multipolygon mp -> polygons mp <> [] -> line_is t X -> tight tb X ->
  lines_told_by (linear_areal_spec X (multipolygon_area mp)) (runs_round X polygon_area (multipolygon_area mp) (polygons mp)) (seen_cut t (multipolygon_edges mp))
    (do g <- gather polygon_box (fun pg => polygon_oriented_edges pg false) tb (Ok t) (polygons mp) true None;
     match snd g with
     | None => Ok DISJOINT
     | Some (mx, q) => run_linear_compound q (qmin (max_x tb) mx)
     end).
Proof.
  intros [F A] N (Tt & Nt & E) Tb'. assert (Tb : tight tb (ends_set t)) by (eapply tight_ext; [|exact Tb']; intros p; symmetry; apply E).
  pose proof (proj1 (Forall_forall _ _) F) as F'. set (l := polygons mp) in *.
  assert (H1 : forall pg, In pg l -> exists b, polygon_box pg = Ok b /\ tight b (a_cl (polygon_area pg)) /\ tight b (a_on (polygon_area pg))).
  { intros pg I. exact (polygon_box_tight pg (F' pg I)). }
  assert (H2 : forall pg, In pg l -> returns (polygon_oriented_edges pg false)).
  { intros pg I. destruct (pg_edges pg (F' pg I)) as (e & He & _). exists e. exact He. }
  assert (H3 : forall f E, filter f l <> [] -> all_edges (fun pg => polygon_oriented_edges pg false) (filter f l) = Ok E -> drawn E (union_area polygon_area (filter f l))
    /\ exists L, rings L E /\ rings_edges L = flat_map polygon_edges (filter f l)).
  { intros f E0 Nf HE. rewrite all_edges_polygons in HE. destruct (mp_filter l f F A) as [Ff Af]. split; [exact (drawn_polygons _ E0 Ff Af Nf HE)|].
    eexists. split; [exact (polygons_rings _ Ff E0 HE)|]. apply mp_rings_edges. }
  assert (H4 : forall x p, In x l -> a_in (polygon_area x) p \/ a_on (polygon_area x) p \/ a_out (polygon_area x) p) by (intros x p I; exact (pg_cases x p (F' x I))).
  refine (lines_mono _ _ _ _ _ _ _ _ _ (iff_refl _) (parts_told polygon_box (fun pg => polygon_oriented_edges pg false) polygon_area polygon_edges tb t l H1 H2 N Tt Nt Tb H3 H4
      (fun x e p _ => edge_on_polygon x e p))).
  - apply linear_areal_ext; [exact E|intros p; unfold multipolygon_area; tauto].
  - split; apply runs_round_ext; [exact E|intros p; symmetry; apply E].
Qed.
Lemma lines_not S (A C : Prop) r : ~ A -> lines_told_by S A C r -> told_by S CROSS C r.
Proof. intros N [H1 H2]. split; [exact H1|]. intros K. exact (proj1 (H2 K) N). Qed.
Lemma multisegment_in_multiregion_seen_l m rs : valid_multisegment m -> valid_multiregion rs -> rs <> [] ->
  lines_told_by (linear_areal_spec (in_multisegment m) (multiregion_area rs)) (runs_round (in_multisegment m) region_area (multiregion_area rs) rs)
    (seen_cut (multisegment_edges m) (contours_edges rs)) (multisegment_in_multiregion m rs).
Proof.
  intros D V N. destruct (ms_box m D) as (b & Eb & Tb). unfold multisegment_in_multiregion, multiregion_relate_multisegment. rewrite Eb. cbn [bind].
  exact (line_multiregion_told rs _ _ b V N (ms_line m D) Tb).
Qed.
Lemma multisegment_in_multipolygon_seen_l m mp : valid_multisegment m -> valid_multipolygon mp -> polygons mp <> [] ->
  lines_told_by (linear_areal_spec (in_multisegment m) (multipolygon_area mp)) (runs_round (in_multisegment m) polygon_area (multipolygon_area mp) (polygons mp))
    (seen_cut (multisegment_edges m) (multipolygon_edges mp)) (multisegment_in_multipolygon m mp).
Proof.
  intros D V N. destruct (ms_box m D) as (b & Eb & Tb). unfold multisegment_in_multipolygon, multipolygon_relate_multisegment. rewrite Eb. cbn [bind].
  exact (line_multipolygon_told mp _ _ b V N (ms_line m D) Tb).
Qed.
Lemma multisegment_in_polygon_seen_l m pg : valid_multisegment m -> valid_polygon pg ->
  lines_told_by (linear_areal_spec (in_multisegment m) (polygon_area pg)) (runs_around (in_multisegment m) (polygon_area pg))
    (seen_cut (multisegment_edges m) (polygon_edges pg)) (multisegment_in_polygon m pg).
Proof.
  intros D V. destruct (ms_box m D) as (mb & Em & Tm). destruct (polygon_box_tight pg V) as (pb & Ep & Tc & To). destruct (pg_edges pg V) as (g & Hg & _).
  destruct (ms_line m D) as (Tt & Nt & Ex). unfold multisegment_in_polygon, polygon_relate_multisegment. rewrite Ep, Em. cbn [bind].
  assert (Ex' : forall p, in_multisegment m p <-> ends_set (to_segments_endpoints m) p) by (intros p; symmetry; apply Ex).
  destruct (disjoint_with pb mb) eqn:Dj.
  - split; [|intros _; split].
    + intros (e & e' & p & I & I' & (C1 & C2 & _) & _). exfalso. apply (boxes_no_meet _ _ _ _ Tc Tm Dj). exists p. split; [right; exact (edge_on_polygon pg e' p I' C2)|apply Ex; exists e; auto].
    + intros _. assert (H : linear_areal_spec (in_multisegment m) (polygon_area pg) DISJOINT).
      { intros p Hp. destruct (pg_cases pg p V) as [K|[K|K]]; [| |exact K]; exfalso; apply (boxes_no_meet _ _ _ _ Tc Tm Dj); exists p; (split; [|exact Hp]); [left|right]; exact K. }
      exists DISJOINT. split; [reflexivity|]. split; [exact H|]. intros rel' H'. refine (linear_areal_unique _ _ _ _ _ (polygon_apart_area pg V) H H').
      destruct Tm as (_ & (p & Hp & _) & _). exists p. exact Hp.
    + intros Ar. exfalso. pose proof (around_disjoint _ (polygon_area pg) mb pb Tm Tc Ar) as K. rewrite disjoint_with_sym in K. congruence.
  - rewrite Hg. cbn [bind]. set (t := to_segments_endpoints m) in *. pose proof (drawn_polygon pg V g Hg) as Dg. pose proof (polygon_rings pg V g Hg) as Rg.
    destruct (two_ok g t (dr_tidy _ _ Dg) Tt) as [IO AP]. rewrite registered, qmin_comm. fold (two_items g t).
    destruct (two_ends g t pb mb (dr_some _ _ Dg) Nt) as [b EB]; [eapply tight_ext; [|exact To]; intros p; symmetry; apply (dr_on _ _ Dg)|eapply tight_ext; [|exact Tm]; exact Ex'|].
    refine (lines_mono _ _ _ _ _ _ _ _ _ _ (lc_told _ _ b g t _ IO AP EB (side_two g t false) (side_two g t true) Dg Nt)).
    + apply linear_areal_ext; [exact Ex|intros p; tauto].
    + split; apply around_ext; assumption.
    + rewrite (seen_rings _ g t Rg), pg_rings_edges. reflexivity.
Qed.
Lemma seen_segment a b l : cut_by [(a, b)] l <-> seen_cut [(a, b)] l.
Proof. apply seen_all. intros e f p [<-|[]] [<-|[]] _ _ _ _. reflexivity. Qed.
Lemma seen_contour c l : simple_contour c -> (cut_by (contours_edges [c]) l <-> seen_cut (edges_endpoints c) l).
Proof.
  intros C. rewrite (seen_all (contours_edges [c]) l).
  - assert (In1 : incl (edges_endpoints c) (contours_edges [c])) by apply contour_given.
    assert (In2 : incl (contours_edges [c]) (edges_endpoints c)).
    { intros e I. cbn [contours_edges flat_map] in I. rewrite app_nil_r in I. exact (Permutation_in _ (Permutation_sym (edges_endpoints_perm c)) I). }
    split; intros K; apply seen_sym; apply seen_sym in K; revert K; apply seen_turned; apply turned_incl; assumption.
  - intros e f p I J O1 O2 N1 N2. assert (Q : e = f \/ e <> f).
    { destruct e as [a b], f as [a' b']. destruct (pt_eqb_spec a a') as [->|Na]; [destruct (pt_eqb_spec b b') as [->|Nb]|]; [left; reflexivity|right|right]; intros K; injection K; auto. }
    destruct Q as [Q|Q]; [symmetry; exact Q|].
    destruct (simple_meet_at_ends (fun _ => True) c C e f p I J Q Logic.I O1 O2); contradiction.
Qed.
Lemma segment_in_multiregion_seen_l s rs : nondegenerate s -> valid_multiregion rs -> rs <> [] ->
  told_by (linear_areal_spec (in_segment s) (multiregion_area rs)) CROSS (cut_by [(s_start s, s_end s)] (contours_edges rs)) (segment_in_multiregion s rs).
Proof.
  intros D V N. apply (told_mono _ _ _ _ _ _ (fun x => iff_refl _) (iff_sym (seen_segment _ _ _))).
  apply (lines_not _ (runs_round (in_segment s) region_area (multiregion_area rs) rs)); [|exact (line_multiregion_told rs _ (in_segment s) (segment_box s) V N (segment_line s D) (segment_box_tight s))].
  destruct (line_multiregion_loose rs _ (in_segment s) (segment_box s) V N (segment_line s D) (segment_box_tight s)) as [_ NR]. apply NR. intros r I. apply segment_not_around, (mr_simple rs r V I).
Qed.
Lemma contour_in_multiregion_seen_l c rs : simple_contour c -> valid_multiregion rs -> rs <> [] ->
  told_by (linear_areal_spec (on_contour c) (multiregion_area rs)) CROSS (cut_by (contours_edges [c]) (contours_edges rs)) (contour_in_multiregion c rs).
Proof.
  intros C V N. apply (told_mono _ _ _ _ _ _ (fun x => iff_refl _) (iff_sym (seen_contour c _ C))).
  destruct (contour_box_tight _ (simple_nonempty c C)) as (b & Eb & Tb). unfold contour_in_multiregion, multiregion_relate_contour. rewrite Eb. cbn [bind].
  apply (lines_not _ (runs_round (on_contour c) region_area (multiregion_area rs) rs)); [|exact (line_multiregion_told rs _ _ b V N (contour_line c C) Tb)].
  destruct (line_multiregion_loose rs _ _ b V N (contour_line c C) Tb) as [_ NR]. apply NR. intros r I. apply contour_not_around; [exact C|exact (mr_simple rs r V I)].
Qed.
Lemma segment_in_multipolygon_seen_l s mp : nondegenerate s -> valid_multipolygon mp -> polygons mp <> [] ->
  told_by (linear_areal_spec (in_segment s) (multipolygon_area mp)) CROSS (cut_by [(s_start s, s_end s)] (multipolygon_edges mp)) (segment_in_multipolygon s mp).
Proof.
  intros D V N. apply (told_mono _ _ _ _ _ _ (fun x => iff_refl _) (iff_sym (seen_segment _ _ _))).
  destruct (one_box s) as (b & Eb & Tb). unfold segment_in_multipolygon, multipolygon_relate_segment, multipolygon_relate_multisegment. cbn [segments]. rewrite Eb. cbn [bind].
  apply (lines_not _ (runs_round (in_segment s) polygon_area (multipolygon_area mp) (polygons mp))); [|exact (line_multipolygon_told mp _ (in_segment s) b V N (segment_line s D) Tb)].
  destruct (line_multipolygon_loose mp _ (in_segment s) b V N (segment_line s D) Tb) as [_ NR]. apply NR. intros pg I. apply segment_not_around_polygon. destruct V as [F _]. rewrite Forall_forall in F. exact (F pg I).
Qed.
Lemma contour_in_multipolygon_seen_l c mp : simple_contour c -> valid_multipolygon mp -> polygons mp <> [] ->
  told_by (linear_areal_spec (on_contour c) (multipolygon_area mp)) CROSS (cut_by (contours_edges [c]) (multipolygon_edges mp)) (contour_in_multipolygon c mp).
Proof.
  intros C V N. apply (told_mono _ _ _ _ _ _ (fun x => iff_refl _) (iff_sym (seen_contour c _ C))).
  destruct (contour_box_tight _ (simple_nonempty c C)) as (b & Eb & Tb). unfold contour_in_multipolygon, multipolygon_relate_contour. rewrite Eb. cbn [bind].
  apply (lines_not _ (runs_round (on_contour c) polygon_area (multipolygon_area mp) (polygons mp))); [|exact (line_multipolygon_told mp _ _ b V N (contour_line c C) Tb)].
  destruct (line_multipolygon_loose mp _ _ b V N (contour_line c C) Tb) as [_ NR]. apply NR. intros pg I. apply contour_not_around_polygon; [exact C|]. destruct V as [F _]. rewrite Forall_forall in F. exact (F pg I).
Qed.

(** * Areas in multipolygons *)
Lemma seen_both L E L' t : rings L E -> rings L' t -> (seen_cut t E <-> seen_cut (rings_edges L') (rings_edges L)).
Proof. intros R R'. rewrite (seen_rings L E t R). split; intros K; apply seen_sym; apply seen_sym in K; revert K; apply (seen_rings L' t _ R'). Qed.
Lemma polygon_in_multipolygon_seen_l pg mp : valid_polygon pg -> valid_multipolygon mp -> polygons mp <> [] ->
  told_by (areal_spec (polygon_area pg) (multipolygon_area mp)) OVERLAP (seen_cut (polygon_edges pg) (multipolygon_edges mp)) (polygon_in_multipolygon pg mp).
Proof.
  intros P [F A] N. destruct (polygon_box_tight pg P) as (tb & Et & Tt & _). destruct (pg_edges pg P) as (t & Ht & _). pose proof (proj1 (Forall_forall _ _) F) as F'.
  unfold polygon_in_multipolygon, multipolygon_relate_polygon. rewrite Et, Ht. cbn [bind]. rewrite <- pg_rings_edges.
  apply (parts_told_areas polygon_box (fun pg => polygon_oriented_edges pg false) polygon_area polygon_edges tb t (polygons mp) (polygon_area pg) (pg_rings pg)).
  - intros x I. destruct (polygon_box_tight x (F' x I)) as (b & Eb & T & _). exists b. auto.
  - intros x I. destruct (pg_edges x (F' x I)) as (e & He & _). exists e. exact He.
  - exact N.
  - exact (drawn_polygon pg P t Ht).
  - exact Tt.
  - exact (polygon_rings pg P t Ht).
  - intros f E Nf HE. rewrite all_edges_polygons in HE. destruct (mp_filter _ f F A) as [Ff Af]. split; [exact (drawn_polygons _ E Ff Af Nf HE)|].
    eexists. split; [exact (polygons_rings _ Ff E HE)|]. apply mp_rings_edges.
  - exact (fun x e p _ => edge_on_polygon x e p).
Qed.
Lemma multiregion_in_multipolygon_seen_l rs mp : valid_multiregion rs -> rs <> [] -> valid_multipolygon mp -> polygons mp <> [] ->
  told_by (areal_spec (multiregion_area rs) (multipolygon_area mp)) OVERLAP (seen_cut (contours_edges rs) (multipolygon_edges mp)) (multiregion_in_multipolygon rs mp).
Proof.
  intros R Nr V N. destruct (contours_box_tight rs (flat_vertices rs Nr (proj1 R))) as (rb & Er & Tr). destruct (polygons_box_tight _ (proj1 V) N) as (pb & Ep & Tc & To).
  destruct (multiregion_gives rs false (multiregion_contours rs R)) as (t & Ht & _). destruct (polygons_edges_given mp V) as (g & Hg).
  pose proof (drawn_multiregion rs t R Nr Ht) as Dt. assert (Dg : drawn g (multipolygon_area mp)) by exact (drawn_polygons _ g (proj1 V) (proj2 V) N Hg).
  assert (Sc : seen_cut t g <-> seen_cut (contours_edges rs) (multipolygon_edges mp)).
  { pose proof (seen_both _ g _ t (polygons_rings _ (proj1 V) g Hg) (mr_rings rs false (proj1 R) t Ht)) as C. rewrite mp_rings_edges in C. unfold rings_edges in C. rewrite map_fst_rings in C. exact C. }
  unfold multiregion_in_multipolygon, multipolygon_relate_multiregion. rewrite Er, Ep. cbn [bind]. destruct (disjoint_with pb rb) eqn:D.
  - split; [intros K; exfalso; apply Sc in K; destruct K as (e & e' & p & I & I' & (C1 & C2 & _) & _)|intros _; apply (fa_of g t _ _ Dg Dt); intros K; apply meets_sym in K; revert K; exact (boxes_no_meet _ _ _ _ Tc (tight_multiregion _ _ (proj1 R) Tr) D)].
    apply (boxes_no_meet _ _ _ _ To Tr D). exists p. split; [apply (dr_on _ _ Dg); exists e'; auto|apply (dr_on _ _ Dt); exists e; auto].
  - rewrite Hg, Ht. cbn [bind]. exact (told_mono _ _ _ _ _ _ (fun x => iff_refl _) Sc (run_told g t pb rb _ _ Dg Dt To Tr)).
Qed.
Lemma multipolygon_in_multipolygon_seen_l mp mq : valid_multipolygon mp -> polygons mp <> [] -> valid_multipolygon mq -> polygons mq <> [] ->
  told_by (areal_spec (multipolygon_area mp) (multipolygon_area mq)) OVERLAP (seen_cut (multipolygon_edges mp) (multipolygon_edges mq)) (multipolygon_in_multipolygon mp mq).
Proof.
  intros V N W M. destruct (polygons_box_tight _ (proj1 V) N) as (tb & Et & _ & To). destruct (polygons_box_tight _ (proj1 W) M) as (gb & Eg & _ & Go).
  destruct (polygons_edges_given mp V) as (t & Ht). destruct (polygons_edges_given mq W) as (g & Hg).
  assert (Dt : drawn t (multipolygon_area mp)) by exact (drawn_polygons _ t (proj1 V) (proj2 V) N Ht).
  assert (Dg : drawn g (multipolygon_area mq)) by exact (drawn_polygons _ g (proj1 W) (proj2 W) M Hg).
  unfold multipolygon_in_multipolygon, multipolygon_relate_multipolygon. rewrite Et, Eg, Ht, Hg. cbn [bind].
  refine (told_mono _ _ _ _ _ _ (fun x => iff_refl _) _ (run_told g t gb tb _ _ Dg Dt Go To)).
  pose proof (seen_both _ g _ t (polygons_rings _ (proj1 W) g Hg) (polygons_rings _ (proj1 V) t Ht)) as C. rewrite !mp_rings_edges in C. exact C.
Qed.
