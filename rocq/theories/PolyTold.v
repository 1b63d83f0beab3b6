(* Two polygons, exactly. *)
From Coq Require Import QArith Qcanon List Bool ZArith Lia Permutation.
From Verif Require Import Scalar Base Ground MLinear MSweep MCompound Planar Spec SpecAreas SpecContact SpecRings SpecPolyTold Geom RayParity SegProofs BoxProofs PointProofs EqualProofs
  NoFail OpenProofs Orient Area SegRegion AreaAnswer Drawn Gather Cover Sector AreaQueries ClosedProofs Polygons Inner PolyQueries Areas PolyArea Corner Pieces PolyLine PolyMulti PolyPoly ContactProofs PolyAlways Consequences.
Import ListNotations.
Open Scope Qc_scope.

Definition tells (pt pg : polygon) (x : relation) : Prop :=
  (x = OVERLAP -> ~ meets (a_in (polygon_area pt)) (a_in (polygon_area pg)) -> ~ apart_rings pt pg)
  /\ (x = TOUCH -> apart_rings pt pg)
  /\ (x = WITHIN -> seems_within pt pg) /\ (x = ENCLOSED -> ~ seems_within pt pg).
Lemma apart_rings_swap pt pg : apart_rings pt pg -> apart_rings pg pt.
Proof. intros [N|[E|E]]; [left; intros M; exact (N (meets_sym _ _ M))|right; right; exact E|right; left; exact E]. Qed.
Section Inner.
  Variable (pt pg : polygon) (br : relation).
  Hypothesis (VT : valid_polygon pt) (VG : valid_polygon pg).
  Let Bt : area := region_area (border pt).
  Let Bg : area := region_area (border pg).
  Let T : area := polygon_area pt.
  Let G : area := polygon_area pg.
  Hypothesis (Sbr : areal_spec Bt Bg br) (Hbr : br = WITHIN \/ br = ENCLOSED).
  Local Notation rel := (rel_of (border pt)).
  (* The first border is not in a hole of the second polygon. *)
  Lemma to_open : (forall h, In h (holes pg) -> ~ subset (a_cl Bt) (a_cl (region_area h))) -> ~ apart_rings pt pg.
  Proof using VT VG Sbr Hbr.
    pose proof (pp_Bt pt VT : shaped Bt) as SB. intros N [A|[(h & I & A)|(h & I & A)]]; [|exact (N h I A)|].
    - apply A. destruct (sh_inner Bt SB) as (p & Hp). exists p. split; [exact Hp|exact (pp_in pt pg br VT VG Sbr Hbr p Hp)].
    - apply (pp_nsub pt pg br Sbr Hbr). intros p Hp. exact (enclosed_sub h (border pt) (pg_hole pt VT h I) (pg_border pt VT) (pg_within pt VT h I) p (A p Hp)).
  Qed.
  Lemma to_ring h : In h (holes pg) -> rel h = OVERLAP -> tells pt pg OVERLAP.
  Proof using VT VG Sbr Hbr.
    intros I E. split; [|repeat split; discriminate]. intros _ _. apply to_open. intros k J Z. pose proof (pp_S pt pg VT VG h I) as S. rewrite E in S. destruct S as (M & N1 & N2).
    destruct (mr_two _ h k (pg_holes pg VG) I J) as [->|[D _]]; [exact (N2 Z)|]. destruct M as (p & P1 & P2). apply (D p P1).
    exact (sh_in Bt _ (pp_Bt pt VT) (shaped_region k (pp_h pg VG k J)) p Z P2).
  Qed.
  Lemma to_touch h : In h (holes pg) -> rel_in (rel h) [ENCLOSES; COMPOSITE; EQUAL] = true -> tells pt pg TOUCH.
  Proof using VT VG.
    intros I E. repeat split; try discriminate. intros _. right. left. exists h. split; [exact I|]. pose proof (pp_S pt pg VT VG h I) as S.
    destruct (rel h); try discriminate; [apply S|apply S|intros p; apply S].
  Qed.
  Hypothesis (Hall : forall h, In h (holes pg) -> kept (rel h) = true \/ aside (rel h) = true).
  Let subs : multiregion := filter (fun h => kept (rel h)) (holes pg).
  Lemma to_over : tells pt pg OVERLAP.
  Proof using VT VG Sbr Hbr Hall.
    split; [|repeat split; discriminate]. intros _ _. apply to_open. intros h I Z. destruct (kept (rel h)) eqn:E; [exact (proj2 (pp_kept pt pg VT VG h I E) Z)|].
    destruct (pp_aside pt pg VT VG Hall h I E) as [_ N]. apply N. destruct (sh_inner Bt (pp_Bt pt VT)) as (p & Hp). exists p. split; [|exact Hp].
    exact (sh_in Bt _ (pp_Bt pt VT) (shaped_region h (pp_h pg VG h I)) p Z Hp).
  Qed.
  Lemma to_kept h : In h (holes pg) -> kept (rel h) = true -> meets (inside h) (inside (border pt)).
  Proof using VT VG.
    intros I E. destruct (sh_inner _ (shaped_region h (pp_h pg VG h I))) as (p & Hp). exists p. split; [exact Hp|].
    exact (sh_in _ Bt (shaped_region h (pp_h pg VG h I)) (pp_Bt pt VT) p (proj1 (pp_kept pt pg VT VG h I E)) Hp).
  Qed.
  Lemma to_border : br = ENCLOSED -> ~ seems_within pt pg.
  Proof using Sbr. intros E (_ & N & _). rewrite E in Sbr. destruct Sbr as (_ & (q & Q1 & Q2) & _). apply N. exists q. split; [left; exact Q1|exact Q2]. Qed.
  (* No hole within the border. *)
  Lemma to_none x : subs = [] -> x = WITHIN \/ x = ENCLOSED -> merged_both_spec T G x -> tells pt pg x.
  Proof using VT VG Sbr Hbr Hall.
    intros E Hx S. assert (NM : forall k, In k (holes pg) -> ~ meets (inside k) (inside (border pt))).
    { intros k I. destruct (kept (rel k)) eqn:Q; [|exact (proj2 (pp_aside pt pg VT VG Hall k I Q))]. assert (J : In k subs) by (apply filter_In; auto). rewrite E in J. destruct J. }
    destruct Hx as [-> | ->]; (split; [discriminate|]); (split; [discriminate|]); (split; [|]); try discriminate; intros _.
    - destruct S as [Pp N]. split; [exact Pp|]. split; [intros (p & P1 & P2); apply N; exists p; split; [exact P1|left; exact P2]|].
      intros h I (p & P1 & P2). exfalso. apply N. exists p. split; [exact P1|right; exists h; auto].
    - intros (_ & N1 & N2). assert (M : meets (a_on T) (a_on G)).
      { destruct S as [S|S]; [apply S|]. destruct (sh_some T (pp_ST pt VT)) as (p & Hp). exists p. split; [exact Hp|exact (proj2 S p Hp)]. }
      destruct M as (p & P1 & [P2|(h & I & P2)]); [apply N1; exists p; auto|]. destruct (N2 h I) as [_ (k & J & M)]; [exists p; auto|]. exact (NM k J M).
  Qed.
  Hypothesis (NS : subs <> []) (NT : holes pt <> []).
  Let K : area := multiregion_area subs.
  Let H : area := multiregion_area (holes pt).
  Lemma to_answer h : areal_spec K H h -> tells pt pg (holes_answer br h).
  Proof using VT VG Sbr Hbr Hall NS NT.
    intros S. pose proof (pp_SK pt pg VG NS : shaped K) as SK. pose proof (pp_SH pt VT NT : shaped H) as SH.
    assert (EN : meets (a_on K) (a_on H) -> tells pt pg ENCLOSED).
    { intros (p & (k & I & P1) & (g & J & P2)). repeat split; try discriminate. intros _ (_ & _ & N). apply filter_In in I. destruct I as [I E].
      destruct (N k I) as [N1 _]; [exists p; split; [right; exists g; auto|exact P1]|]. exact (N1 (to_kept k I E)). }
    unfold holes_answer. destruct h; cbn [relation_eqb orb]; cbn [areal_spec] in S; try (destruct S; fail); try exact to_over.
    - destruct (sh_some K SK) as (p & Hp). assert (Q : (if relation_eqb br WITHIN then ENCLOSED else br) = ENCLOSED) by (destruct Hbr as [-> | ->]; reflexivity). rewrite Q.
      apply EN. exists p. split; [exact Hp|exact (sh_equal_on K H SK SH S p Hp)].
    - destruct (sh_some K SK) as (p & Hp). apply EN. exists p. split; [exact Hp|exact (proj2 S p Hp)].
    - apply EN. apply S.
    - destruct Hbr as [W|W]; [|rewrite W; repeat split; try discriminate; intros _; exact (to_border W)]. rewrite W. split; [discriminate|]. split; [discriminate|]. split; [intros _|discriminate].
      destruct S as [[S1 _] S3]. split; [exact (pp_in_holes pt pg br VT VG Sbr Hbr Hall NS NT S1)|]. split.
      + intros (p & P1 & P2). exact (pp_within pt pg br VT VG Sbr Hbr p W (pa_sub pt VT p (or_intror P1)) P2).
      + intros h I (p & P1 & P2). destruct (kept (rel h)) eqn:E.
        * exfalso. assert (O : a_on K p) by (exists h; split; [apply filter_In; auto|exact P2]). destruct (S1 p (or_intror O)) as [Q|Q]; [|apply S3; exists p; auto]. exact (pa_H_in pt VT p Q (or_intror P1)).
        * split; [exact (proj2 (pp_aside pt pg VT VG Hall h I E))|]. destruct subs as [|k l] eqn:Es; [congruence|]. assert (J : In k (filter (fun h => kept (rel h)) (holes pg))) by (fold subs; rewrite Es; left; reflexivity).
          apply filter_In in J. destruct J as [J1 J2]. exists k. split; [exact J1|exact (to_kept k J1 J2)].
  Qed.
End Inner.
Lemma inner_tells pt pg br tb : valid_polygon pt -> valid_polygon pg -> areal_spec (region_area (border pt)) (region_area (border pg)) br -> br = WITHIN \/ br = ENCLOSED ->
  contour_box (border pt) = Ok tb ->
  exists x, polygon_holes_result br WITHIN ENCLOSED (border pt) tb (holes pg) (holes pt) = Ok x /\ tells pt pg x.
Proof.
  intros VT VG S Hbr Eb. unfold polygon_holes_result.
  destruct (holes_loop (border pt) tb (holes pg) (pg_border pt VT) Eb (proj1 (pg_holes pg VG)) true []) as [(h & x & I & -> & Hx)|[-> Hall]]; cbn [bind andb app].
  - exists x. split; [reflexivity|]. destruct Hx as [[E ->]|[[E ->]|[E ->]]].
    + exact (to_ring pt pg br VT VG S Hbr h I E).
    + repeat split; discriminate.
    + exact (to_touch pt pg VT VG h I E).
  - set (subs := filter (fun h => kept (rel_of (border pt) h)) (holes pg)). assert (SD : subs = [] \/ subs <> []) by (destruct subs; [left; reflexivity|right; discriminate]). destruct SD as [SD|SD].
    + pose proof (pp_no_subs pt pg br VT VG S Hbr Hall SD) as A. rewrite SD. eexists. split; [reflexivity|]. refine (to_none pt pg br VT VG S Hbr Hall _ SD _ A).
      destruct (forallb _ _); [exact Hbr|right; reflexivity].
    + assert (EQ : (if Nat.eqb (length subs) (length (holes pg)) then holes pg else subs) = subs).
      { destruct (Nat.eqb_spec (length subs) (length (holes pg))) as [L|L]; [|reflexivity]. symmetry. exact (proj1 (filter_length_all _ (holes pg) L)). }
      assert (TD : holes pt = [] \/ holes pt <> []) by (destruct (holes pt); [left; reflexivity|right; discriminate]). destruct TD as [TD|TD].
      * pose proof (to_over pt pg br VT VG S Hbr Hall) as A. rewrite TD. destruct subs as [|s subs'] eqn:Es; [congruence|]. cbv beta iota zeta. cbn [nonempty bind relation_eqb orb].
        exists OVERLAP. split; [reflexivity|exact A].
      * pose proof (multiregion_in_multiregion_exact_l subs (holes pt) (mr_filter _ _ (pg_holes pg VG)) (pg_holes pt VT) SD TD) as (h & Eh & Sh & _). unfold multiregion_in_multiregion in Eh.
        pose proof (to_answer pt pg br VT VG S Hbr Hall SD TD h Sh) as A. replace (nonempty (holes pt)) with true by (destruct (holes pt); [congruence|reflexivity]).
        destruct subs as [|s subs'] eqn:Es; [congruence|]. cbv beta iota zeta.
        match goal with |- context [multiregion_relate_multiregion (holes pt) ?x] => replace (multiregion_relate_multiregion (holes pt) x) with (Ok h) by (symmetry; exact (eq_trans (f_equal (multiregion_relate_multiregion (holes pt)) EQ) Eh)) end. cbn [bind].
        exists (holes_answer br h). split; [reflexivity|exact A].
Qed.
Lemma polygon_tells pt pg : valid_polygon pt -> valid_polygon pg -> (areal_spec (region_area (border pt)) (region_area (border pg)) WITHIN \/ areal_spec (region_area (border pt)) (region_area (border pg)) ENCLOSED) ->
  exists x, polygon_in_polygon pt pg = Ok x /\ tells pt pg x.
Proof.
  intros VT VG Hyp. pose proof (pg_border pt VT) as BT. pose proof (pg_border pg VG) as BG.
  destruct (box_of _ BT) as (tb & Et). destruct (box_of _ BG) as (gb & Eg).
  unfold polygon_in_polygon, polygon_relate_polygon. unfold polygon_box. rewrite Et, Eg. cbn [bind].
  destruct (region_relate (border pt) (border pg) tb gb BT BG Et Eg) as (br & -> & S & U). cbn [bind].
  assert (Hbr : br = WITHIN \/ br = ENCLOSED) by (destruct Hyp as [Y|Y]; pose proof (U _ Y) as Z; auto).
  assert (InT : exists x, (if nonempty (holes pg) then polygon_holes_result br WITHIN ENCLOSED (border pt) tb (holes pg) (holes pt)
      else Ok (if nonempty (holes pt) && relation_eqb br COMPONENT then ENCLOSED else br)) = Ok x /\ tells pt pg x).
  { assert (DG : holes pg = [] \/ holes pg <> []) by (destruct (holes pg); [left; reflexivity|right; discriminate]). destruct DG as [DG|DG].
    - pose proof (inner_bare pt pg br VT VG S Hbr DG) as A. pose proof (to_none pt pg br VT VG S Hbr) as B. rewrite DG in *. cbn [nonempty].
      replace (if nonempty (holes pt) && relation_eqb br COMPONENT then ENCLOSED else br) with br by (destruct Hbr as [-> | ->]; rewrite andb_false_r; reflexivity).
      exists br. split; [reflexivity|]. apply B; [intros h []|reflexivity|exact Hbr|exact A].
    - replace (nonempty (holes pg)) with true by (destruct (holes pg); [congruence|reflexivity]). exact (inner_tells pt pg br tb VT VG S Hbr Et). }
  destruct Hbr as [-> | ->]; exact InT.
Qed.
Lemma seems_part pt pg : seems_within pt pg -> proper_part (polygon_area pt) (polygon_area pg).
Proof. intros S. apply S. Qed.
Definition tells_both (pt pg : polygon) (x : relation) : Prop := tells pt pg x /\ (x = COVER -> seems_within pg pt) /\ (x = ENCLOSES -> ~ seems_within pg pt).
Lemma polygon_tells_both pt pg : valid_polygon pt -> valid_polygon pg -> exists x, polygon_in_polygon pt pg = Ok x /\ tells_both pt pg x.
Proof.
  intros VT VG. pose proof (pg_border pt VT) as BT. pose proof (pg_border pg VG) as BG. pose proof (shaped_region _ BT) as ST. pose proof (shaped_region _ BG) as SG.
  destruct (sh_total _ _ ST SG) as (br & S).
  pose proof (polygon_in_polygon_facts_l pt pg VT VG) as Facts. cbv zeta in Facts. destruct Facts as (_ & _ & F3 & F4 & _ & _).
  assert (In1 : forall (p q : polygon), valid_polygon p -> valid_polygon q -> (areal_spec (region_area (border p)) (region_area (border q)) WITHIN \/ areal_spec (region_area (border p)) (region_area (border q)) ENCLOSED) ->
    exists x, polygon_in_polygon p q = Ok x /\ tells p q x /\ x <> COVER /\ x <> ENCLOSES).
  { intros p q Vp Vq Y. destruct (polygon_tells p q Vp Vq Y) as (x & E & Tx). exists x. split; [exact E|]. split; [exact Tx|].
    assert (U : ~ subset (a_cl (polygon_area q)) (a_cl (polygon_area p))) by (destruct Y as [Y|Y]; [exact (pp_uncovered p q WITHIN Vp Vq Y (or_introl eq_refl))|exact (pp_uncovered p q ENCLOSED Vp Vq Y (or_intror eq_refl))]).
    pose proof (polygon_in_polygon_facts_l p q Vp Vq) as Fs. cbv zeta in Fs. destruct Fs as (_ & _ & _ & F & _ & _).
    split; intros ->; apply U; apply F; auto. }
  assert (C1 : areal_spec (region_area (border pt)) (region_area (border pg)) WITHIN \/ areal_spec (region_area (border pt)) (region_area (border pg)) ENCLOSED -> exists x, polygon_in_polygon pt pg = Ok x /\ tells_both pt pg x).
  { intros Y. destruct (In1 pt pg VT VG Y) as (x & E & Tx & N1 & N2). exists x. split; [exact E|]. split; [exact Tx|]. split; [intros Z; destruct (N1 Z)|intros Z; destruct (N2 Z)]. }
  assert (C2 : areal_spec (region_area (border pg)) (region_area (border pt)) WITHIN \/ areal_spec (region_area (border pg)) (region_area (border pt)) ENCLOSED -> exists x, polygon_in_polygon pt pg = Ok x /\ tells_both pt pg x).
  { intros Y. destruct (In1 pg pt VG VT Y) as (x & E & (T1 & T2 & T3 & T4) & N1 & N2). destruct (polygon_swap_l pg pt VG VT) as (y & Ey & E'). rewrite E in Ey. injection Ey as <-.
    exists (complement x). split; [exact E'|]. split; [split; [|split; [|split]]|split]; destruct x; cbn [complement] in *; intros Z; try discriminate Z; try congruence.
    - intros N A. apply (T1 eq_refl); [intros M; exact (N (meets_sym _ _ M))|exact (apart_rings_swap _ _ A)].
    - exact (apart_rings_swap _ _ (T2 eq_refl)).
    - exact (T3 eq_refl).
    - exact (T4 eq_refl). }
  destruct br; try (destruct S; fail).
  - pose proof (two_apart pt pg VT VG DISJOINT (or_introl eq_refl) S) as A. exists DISJOINT. split; [apply (polygon_in_polygon_facts_l pt pg VT VG), A|]. repeat split; discriminate.
  - exists TOUCH. split; [|repeat split; try discriminate; intros _; left; apply S]. destruct (box_of _ BT) as (tb & Et). destruct (box_of _ BG) as (gb & Eg).
    unfold polygon_in_polygon, polygon_relate_polygon. unfold polygon_box. rewrite Et, Eg. cbn [bind].
    destruct (region_relate (border pt) (border pg) tb gb BT BG Et Eg) as (br & -> & _ & U). rewrite <- (U TOUCH S). reflexivity.
  - exists OVERLAP. split; [|repeat split; try discriminate].
    + destruct (box_of _ BT) as (tb & Et). destruct (box_of _ BG) as (gb & Eg). unfold polygon_in_polygon, polygon_relate_polygon. unfold polygon_box. rewrite Et, Eg. cbn [bind].
      destruct (region_relate (border pt) (border pg) tb gb BT BG Et Eg) as (br & -> & _ & U). rewrite <- (U OVERLAP S). reflexivity.
    + intros _ _ [A|[(h & I & A)|(h & I & A)]]; [exact (A (proj1 S))| |]; destruct S as (_ & N1 & N2).
      * apply N1. intros p Hp. exact (enclosed_sub h (border pg) (pg_hole pg VG h I) BG (pg_within pg VG h I) p (A p Hp)).
      * apply N2. intros p Hp. exact (enclosed_sub h (border pt) (pg_hole pt VT h I) BT (pg_within pt VT h I) p (A p Hp)).
  - apply C2. left. exact S.
  - apply C2. right. exact S.
  - exfalso. exact (no_proper_composite _ _ BT BG S).
  - destruct (box_of _ BT) as (tb & Et). destruct (box_of _ BG) as (gb & Eg). pose proof (eq_in_meets pt pg VT VG S) as M. pose proof (eq_on pt pg VT VG S) as On.
    assert (N : ~ seems_within pt pg /\ ~ seems_within pg pt).
    { destruct (sh_some _ ST) as (p & Hp). cbn in Hp. split; intros (_ & N & _); apply N; exists p; (split; [left|]); try exact Hp; apply On; exact Hp. }
    destruct (polygon_in_polygon_always_l pt pg VT VG) as (x & Ex & _). exists x. split; [exact Ex|].
    destruct (equal_result pt pg VT VG S) as (y & Ey & Sy).
    assert (Exy : polygon_in_polygon pt pg = Ok y).
    { unfold polygon_in_polygon, polygon_relate_polygon. unfold polygon_box. rewrite Et, Eg. cbn [bind].
      destruct (region_relate (border pt) (border pg) tb gb BT BG Et Eg) as (br & -> & _ & U). rewrite <- (U EQUAL S). exact Ey. }
    rewrite Exy in Ex. injection Ex as <-. destruct (eq_meets pt pg VT VG S) as (p & P1 & P2).
    split; [split; [|split; [|split]]|split]; intros Z; rewrite Z in Sy.
    + intros Nm. destruct (Nm M).
    + destruct (proj1 Sy M).
    + exfalso. apply (proj2 Sy). exists p. auto.
    + apply N.
    + exfalso. apply (proj2 Sy). exists p. auto.
    + apply N.
  - exfalso. exact (no_proper_component _ _ BT BG S).
  - apply C1. right. exact S.
  - apply C1. left. exact S.
Qed.
(* The answers, exactly. *)
Lemma polygon_in_polygon_told_l pt pg rel : valid_polygon pt -> valid_polygon pg -> (polygon_in_polygon pt pg = Ok rel <-> polygons_told pt pg rel).
Proof.
  intros VT VG. pose proof (shaped_polygon pt VT) as ST. pose proof (shaped_polygon pg VG) as SG.
  destruct (polygon_tells_both pt pg VT VG) as (x & E & (T1 & T2 & T3 & T4) & T5 & T6).
  pose proof (polygon_in_polygon_facts_l pt pg VT VG) as F. cbv zeta in F. destruct F as (F1 & F2 & F3 & F4 & F5 & F6).
  destruct (polygon_in_polygon_always_l pt pg VT VG) as (y & Ey & Hy). rewrite E in Ey. injection Ey as <-.
  assert (Eq : forall r, polygon_in_polygon pt pg = Ok r <-> x = r) by (intros r; rewrite E; split; [intros Z; injection Z; auto|intros ->; reflexivity]).
  rewrite !Eq in *. clear Eq.
  assert (Ov : x = OVERLAP -> areal_spec (polygon_area pt) (polygon_area pg) OVERLAP \/ areal_spec (polygon_area pt) (polygon_area pg) TOUCH) by (intros ->; destruct Hy as [[P _]|(_ & O & _)]; [left; exact P|right; exact O]).
  assert (To : areal_spec (polygon_area pt) (polygon_area pg) TOUCH -> x = TOUCH \/ x = OVERLAP).
  { intros O. destruct Hy as [[P _]|(-> & _)]; [|auto]. assert (y : x = x) by reflexivity. destruct (parts_of _ _ x TOUCH ST SG P O) as (H1 & H2 & H3).
    assert (NP : forall A B, shaped A -> shaped B -> proper_part A B -> ~ meets (a_in A) (a_in B) -> False).
    { intros A B SA SB [Q _] N. destruct (sh_inner A SA) as (p & Hp). apply N. exists p. split; [exact Hp|exact (sh_in A B SA SB p Q Hp)]. }
    left. apply H1; intros Z; [apply (NP _ _ ST SG); [apply H2; auto|apply O]|apply (NP _ _ ST SG); [apply H2; auto|apply O]| |];
      (apply (NP _ _ SG ST); [apply H3; auto|intros M; exact (proj1 O (meets_sym _ _ M))]). }
  destruct rel; cbn [polygons_told].
  - exact F1.
  - split; [intros Z; auto|]. intros [O A]. destruct (To O) as [Z|Z]; [exact Z|]. destruct (T1 Z (proj1 O) A).
  - split; [|intros []]. intros ->. destruct Hy as [[[] _]|(Z & _)]; discriminate.
  - split; [|intros [O|[O A]]; [exact (F6 O)|]].
    + intros Z. destruct (Ov Z) as [O|O]; [left; exact O|right; split; [exact O|exact (T1 Z (proj1 O))]].
    + destruct (To O) as [Z|Z]; [destruct (A (T2 Z))|exact Z].
  - split; [exact T5|]. intros Q. destruct (proj2 F4 (seems_part _ _ Q)) as [Z|Z]; [exact Z|destruct (T6 Z Q)].
  - split; [intros Z; split; [apply F4; auto|exact (T6 Z)]|]. intros [Q N]. destruct (proj2 F4 Q) as [Z|Z]; [destruct (N (T5 Z))|exact Z].
  - split; [|intros []]. intros ->. destruct Hy as [[[] _]|(Z & _)]; discriminate.
  - exact F2.
  - split; [|intros []]. intros ->. destruct Hy as [[[] _]|(Z & _)]; discriminate.
  - split; [intros Z; split; [apply F3; auto|exact (T4 Z)]|]. intros [Q N]. destruct (proj2 F3 Q) as [Z|Z]; [destruct (N (T3 Z))|exact Z].
  - split; [exact T3|]. intros Q. destruct (proj2 F3 (seems_part _ _ Q)) as [Z|Z]; [exact Z|destruct (T4 Z Q)].
Qed.
Lemma within_seems pt pg : areal_spec (polygon_area pt) (polygon_area pg) WITHIN -> seems_within pt pg.
Proof.
  intros [Pp N]. split; [exact Pp|]. split; [intros (p & P1 & P2); apply N; exists p; split; [exact P1|left; exact P2]|].
  intros h I (p & P1 & P2). exfalso. apply N. exists p. split; [exact P1|right; exists h; auto].
Qed.
Lemma polygon_in_polygon_truth_l pt pg y : valid_polygon pt -> valid_polygon pg -> areal_spec (polygon_area pt) (polygon_area pg) y ->
  given_truth pt pg y (polygon_in_polygon pt pg).
Proof.
  intros VT VG S. pose proof (fun rel => polygon_in_polygon_told_l pt pg rel VT VG) as A. pose proof (shaped_polygon pt VT) as ST. pose proof (shaped_polygon pg VG) as SG.
  pose proof (polygon_in_polygon_facts_l pt pg VT VG) as F. cbv zeta in F. destruct F as (F1 & F2 & F3 & F4 & F5 & F6).
  destruct (polygon_tells_both pt pg VT VG) as (x & E & _).
  assert (PP : proper_part (polygon_area pt) (polygon_area pg) -> (polygon_in_polygon pt pg = Ok ENCLOSED /\ ~ seems_within pt pg) \/ (polygon_in_polygon pt pg = Ok WITHIN /\ seems_within pt pg)).
  { intros P. destruct (proj2 F3 P) as [Z|Z]; [right|left]; (split; [exact Z|]); [exact (proj1 (A WITHIN) Z)|exact (proj2 (proj1 (A ENCLOSED) Z))]. }
  assert (PG : proper_part (polygon_area pg) (polygon_area pt) -> (polygon_in_polygon pt pg = Ok ENCLOSES /\ ~ seems_within pg pt) \/ (polygon_in_polygon pt pg = Ok COVER /\ seems_within pg pt)).
  { intros P. destruct (proj2 F4 P) as [Z|Z]; [right|left]; (split; [exact Z|]); [exact (proj1 (A COVER) Z)|exact (proj2 (proj1 (A ENCLOSES) Z))]. }
  assert (Of : forall r, areal_spec (polygon_area pt) (polygon_area pg) r -> r = y).
  { destruct (sh_of _ _ ST SG y S) as (z & Ez & _ & U). injection Ez as <-. exact U. }
  destruct y; cbn [given_truth]; try (destruct S; fail).
  - exact (proj2 F1 S).
  - destruct (polygon_in_polygon_always_l pt pg VT VG) as (r & Er & [[Pr _]|(-> & O & _)]).
    + left. assert (Z : polygon_in_polygon pt pg = Ok TOUCH); [|split; [exact Z|exact (proj2 (proj1 (A TOUCH) Z))]]. rewrite Er. f_equal. destruct (parts_of _ _ r TOUCH ST SG Pr S) as (H1 & H2 & H3).
      apply H1; intros Z; [specialize (H2 ltac:(auto))|specialize (H2 ltac:(auto))|specialize (H3 ltac:(auto))|specialize (H3 ltac:(auto))]; apply (proj1 S).
      1,2: destruct (sh_inner _ ST) as (p & Hp); exists p; split; [exact Hp|exact (sh_in _ _ ST SG p (proj1 H2) Hp)].
      1,2: destruct (sh_inner _ SG) as (p & Hp); exists p; split; [exact (sh_in _ _ SG ST p (proj1 H3) Hp)|exact Hp].
    + right. split; [exact Er|]. destruct (proj1 (A OVERLAP) Er) as [Q|[_ Q]]; [discriminate (Of OVERLAP Q)|exact Q].
  - exact (F6 S).
  - apply A. exact (within_seems pg pt S).
  - exact (PG (proj1 S)).
  - exact (PG (proj1 S)).
  - exact (proj2 F2 S).
  - exact (PP (proj1 S)).
  - exact (PP (proj1 S)).
  - apply A. exact (within_seems pt pg S).
Qed.
