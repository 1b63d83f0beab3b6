(* The relation of a segment to a multisegment (multisegment.relate_segment). *)
From Coq Require Import QArith Qcanon Lqa List Bool ZArith Lia.
From Verif Require Import Scalar Base Ground MLinear Planar Spec Geom PointProofs SegProofs SweepDetect Check Along.
Import ListNotations.
Open Scope Qc_scope.

Section OneSegment.
  Variable s : segment.
  Hypothesis N : nondegenerate s.
  Notation A := (seg_lo s).
  Notation B := (seg_hi s).
  Notation ps := (pos (seg_lo s) (seg_hi s)).
  Notation L := (pos (seg_lo s) (seg_hi s) (seg_hi s)).
  Notation online p := (cross (seg_lo s) (seg_hi s) p = 0).
  Notation rel t := (segments_relation s t).

  Lemma lo_lt_hi : plt A B.
  Proof using N. apply (seg_lo_hi s N). Qed.
  Lemma len_pos : 0 < L.
  Proof using N. apply pos_end, lo_lt_hi. Qed.
  Lemma online_lo : online A.
  Proof using Type. unfold cross. ring. Qed.
  Lemma online_hi : online B.
  Proof using Type. unfold cross. ring. Qed.
  Lemma in_s p : in_segment s p <-> online p /\ 0 <= ps p /\ ps p <= L.
  Proof using N.
    rewrite (proj1 (proj2 (seg_lo_hi s N)) p), (pos_segment A B A B p lo_lt_hi lo_lt_hi online_lo online_hi), pos_start. reflexivity.
  Qed.
  Lemma s_ends : endpoint s A /\ endpoint s B /\ forall p, endpoint s p -> p = A \/ p = B.
  Proof using N.
    destruct (seg_lo_hi s N) as (_ & _ & [[-> ->]|[-> ->]]); unfold endpoint; repeat split; auto; intros p [->| ->]; auto.
  Qed.
  Lemma inside_s p : strictly_inside_segment s p <-> in_segment s p /\ p <> A /\ p <> B.
  Proof using N.
    unfold strictly_inside_segment. destruct s_ends as (EA & EB & E).
    split; intros (I & H & K); (split; [exact I|split]); intros ->.
    - destruct EA; congruence.
    - destruct EB; congruence.
    - destruct (E (s_start s) (or_introl eq_refl)); congruence.
    - destruct (E (s_end s) (or_intror eq_refl)); congruence.
  Qed.

  (* A segment on the line of [s]. *)
  Definition along (t : segment) : Prop := nondegenerate t /\ online (seg_lo t) /\ online (seg_hi t).
  Lemma along_lt t : along t -> ps (seg_lo t) < ps (seg_hi t).
  Proof using N.
    intros (M & C & D). apply (pos_plt A B _ _ lo_lt_hi C D). apply (seg_lo_hi t M).
  Qed.
  Lemma along_in t p : along t -> (in_segment t p <-> online p /\ ps (seg_lo t) <= ps p /\ ps p <= ps (seg_hi t)).
  Proof using N.
    intros (M & C & D). destruct (seg_lo_hi t M) as (O & I & _). rewrite (I p). apply pos_segment; auto using lo_lt_hi.
  Qed.
  Lemma along_of t p q : nondegenerate t -> p <> q -> in_segment s p -> in_segment t p -> in_segment s q -> in_segment t q -> along t.
  Proof using N.
    intros M D P P' Q Q'. split; [exact M|]. apply in_s in P, Q. destruct P as [P _], Q as [Q _].
    destruct (seg_lo_hi t M) as (O & I & _). apply I in P', Q'. apply on_segment_cross in P', Q'.
    assert (T : cross p q (seg_lo t) = 0 /\ cross p q (seg_hi t) = 0) by (apply (cross_swap_line p q (seg_lo t) (seg_hi t) D (plt_neq _ _ O)); split; assumption).
    split; apply (cross_line_trans A B p q); tauto.
  Qed.
  Lemma point_at x : exists p, online p /\ ps p = x.
  Proof using N. apply pos_point, lo_lt_hi. Qed.

  (* The cases of [segments_relation]. *)
  Definition long (t : segment) : bool := match rel t with COMPOSITE | OVERLAP => true | _ => false end.
  Lemma rel_sound t : nondegenerate t -> segments_spec s t (rel t).
  Proof using N. intros M. apply segments_relation_sound; assumption. Qed.
  Lemma part_case t : nondegenerate t -> rel t = COMPOSITE -> along t /\ 0 <= ps (seg_lo t) /\ ps (seg_hi t) <= L.
  Proof using N.
    intros M R. assert (Sp := rel_sound t M). rewrite R in Sp. cbn [segments_spec] in Sp. destruct Sp as [S _].
    assert (AL : along t).
    { apply (along_of t (s_start t) (s_end t) M M); try apply on_segment_start; try apply on_segment_end;
        apply S; try apply on_segment_start; apply on_segment_end. }
    split; [exact AL|]. assert (K := along_lt t AL). destruct AL as (_ & C & D).
    assert (X : in_segment s (seg_lo t)) by (apply S, (along_in t _ (conj M (conj C D))); split; [exact C|split; qlra]).
    assert (Y : in_segment s (seg_hi t)) by (apply S, (along_in t _ (conj M (conj C D))); split; [exact D|split; qlra]).
    apply in_s in X, Y. split; [apply X|apply Y].
  Qed.
  Lemma overlap_case t : nondegenerate t -> rel t = OVERLAP -> along t
    /\ (ps (seg_lo t) < 0 /\ 0 < ps (seg_hi t) /\ ps (seg_hi t) < L \/ 0 < ps (seg_lo t) /\ ps (seg_lo t) < L /\ L < ps (seg_hi t)).
  Proof using N.
    intros M R. assert (Sp := rel_sound t M). rewrite R in Sp. cbn [segments_spec] in Sp.
    destruct Sp as ((a & b & D & H) & S1 & S2).
    destruct (H a (on_segment_start a b)) as [A1 A2]. destruct (H b (on_segment_end a b)) as [B1 B2].
    assert (AL : along t) by exact (along_of t a b M D A1 A2 B1 B2).
    split; [exact AL|]. assert (K := along_lt t AL).
    assert (I := along_in t). apply (I a AL) in A2. apply (I b AL) in B2. apply in_s in A1, B1.
    assert (Nab : ps a <> ps b) by (intros E; apply D; apply (pos_inj A B a b lo_lt_hi); tauto).
    destruct A1 as (_ & A11 & A12), A2 as (_ & A21 & A22), B1 as (_ & B11 & B12), B2 as (_ & B21 & B22).
    assert (T1 : ~ (ps (seg_lo t) <= 0 /\ L <= ps (seg_hi t))).
    { intros [K1 K2]. apply S1. intros p P. apply in_s in P. apply (I p AL). split; [apply P|]. destruct P as (_ & P1 & P2). split; qlra. }
    assert (T2 : ~ (0 <= ps (seg_lo t) /\ ps (seg_hi t) <= L)).
    { intros [K1 K2]. apply S2. intros p P. apply (I p AL) in P. apply in_s. split; [apply P|]. destruct P as (_ & P1 & P2). split; qlra. }
    assert (Q : ps a < ps b \/ ps b < ps a) by (destruct (q_trichotomy (ps a) (ps b)) as [?|[?|?]]; tauto).
    destruct (Qclt_le_dec (ps (seg_lo t)) 0) as [X|X].
    - left. split; [exact X|]. split; [destruct Q; qlra|]. apply Qcnot_le_lt. intros Y. apply T1. split; [qlra|exact Y].
    - right. assert (Y : L < ps (seg_hi t)) by (apply Qcnot_le_lt; intros Y; apply T2; split; assumption).
      split; [|split; [destruct Q; qlra|exact Y]]. apply Qcnot_le_lt. intros Z. apply T1. split; [exact Z|qlra].
  Qed.
  Lemma short_case t : nondegenerate t -> rel t = TOUCH \/ rel t = CROSS \/ rel t = DISJOINT -> at_most_one_common s t.
  Proof using N.
    intros M R p q P P' Q Q'. assert (Sp := rel_sound t M).
    destruct R as [R|[R|R]]; rewrite R in Sp; cbn [segments_spec] in Sp.
    - destruct Sp as (x & (_ & _ & U) & _). rewrite (U p P P'), (U q Q Q'). reflexivity.
    - destruct Sp as (x & (_ & _ & U) & _). rewrite (U p P P'), (U q Q Q'). reflexivity.
    - exfalso. apply Sp. exists p. split; assumption.
  Qed.
  Lemma rel_cases t : rel t = COMPONENT \/ rel t = EQUAL \/ rel t = COMPOSITE \/ rel t = OVERLAP \/ rel t = TOUCH \/ rel t = CROSS \/ rel t = DISJOINT.
  Proof using Type.
    unfold segments_relation. repeat match goal with |- context [if ?c then _ else _] => destruct c end; cbn; tauto.
  Qed.

  (* The part of [s] on a long segment. *)
  Definition trace (t : segment) (x y : Qc) : Prop :=
    0 <= x /\ x < y /\ y <= L /\ forall p, in_segment s p -> (in_segment t p <-> x <= ps p /\ ps p <= y).
  Lemma part_trace t : nondegenerate t -> rel t = COMPOSITE -> trace t (ps (seg_lo t)) (ps (seg_hi t)).
  Proof using N.
    intros M R. destruct (part_case t M R) as (AL & X & Y). repeat (split; [first [exact X|exact Y|exact (along_lt t AL)]|]).
    intros p P. rewrite (along_in t p AL). apply in_s in P. tauto.
  Qed.
  Lemma overlap_trace t : nondegenerate t -> rel t = OVERLAP ->
    ps (seg_lo t) < 0 /\ trace t 0 (ps (seg_hi t)) \/ L < ps (seg_hi t) /\ trace t (ps (seg_lo t)) L.
  Proof using N.
    intros M R. destruct (overlap_case t M R) as (AL & [(X & Y & Z)|(X & Y & Z)]); [left|right]; (split; [assumption|]).
    - split; [qlra|]. split; [exact Y|]. split; [qlra|]. intros p P. rewrite (along_in t p AL). apply in_s in P.
      destruct P as (P & P0 & P1). split; [intros (_ & H & K); split; qlra|intros (H & K); split; [exact P|split; qlra]].
    - split; [qlra|]. split; [exact Y|]. split; [qlra|]. intros p P. rewrite (along_in t p AL). apply in_s in P.
      destruct P as (P & P0 & P1). split; [intros (_ & H & K); split; qlra|intros (H & K); split; [exact P|split; qlra]].
  Qed.
  Lemma long_trace t : nondegenerate t -> long t = true -> exists x y, trace t x y.
  Proof using N.
    intros M. unfold long. destruct (rel t) eqn:R; try discriminate; intros _.
    - destruct (overlap_trace t M R) as [[_ H]|[_ H]]; eauto.
    - exists (ps (seg_lo t)), (ps (seg_hi t)). apply part_trace; assumption.
  Qed.

  (* A part of a trace is not covered by other segments. *)
  Lemma trace_free t l x y u v : nondegenerate t -> trace t x y -> (forall w, In w l -> nondegenerate w /\ at_most_one_common t w) ->
    x <= u -> u < v -> v <= y -> (forall p, in_segment s p -> u <= ps p -> ps p <= v -> exists w, In w l /\ in_segment w p) -> False.
  Proof using N.
    intros M (T0 & T1 & T2 & T) H X Y Z C.
    destruct (point_at u) as (a & Oa & Ea). destruct (point_at v) as (b & Ob & Eb).
    assert (Lab : plt a b) by (apply (pos_plt A B a b lo_lt_hi Oa Ob); rewrite Ea, Eb; exact Y).
    apply (not_covered t l a b M H (plt_neq _ _ Lab)). intros p P.
    apply (pos_segment A B a b p lo_lt_hi Lab Oa Ob) in P. rewrite Ea, Eb in P. destruct P as (P & P1 & P2).
    assert (I : in_segment s p) by (apply in_s; split; [exact P|split; qlra]).
    split; [apply (T p I); split; qlra|exact (C p I P1 P2)].
  Qed.

  (** ** The loop *)
  Definition other (t : segment) (x : point) : point := if pt_eqb x (s_end t) then s_start t else s_end t.
  Definition pair_of (t : segment) : point * point := (s_start t, s_end t).
  Definition cov (dn : list segment) (p : point) : Prop := exists t, In t dn /\ long t = true /\ in_segment t p.
  Record inv (dn : list segment) (st : ms_state) : Prop := {
    i_start : online (ms_start st) /\ 0 <= ps (ms_start st);
    i_end : online (ms_end st) /\ ps (ms_end st) <= L;
    i_le : ps (ms_start st) <= ps (ms_end st);
    i_ends : ms_endpoints st = (ms_start st, ms_end st) \/ ms_endpoints st = (ms_end st, ms_start st);
    i_comp : forall a b, In (a, b) (ms_components st) -> online a /\ online b /\ ps (ms_start st) <= ps a /\ ps a < ps b /\ ps b <= ps (ms_end st);
    i_sep : forall a b a' b', In (a, b) (ms_components st) -> In (a', b') (ms_components st) -> (a, b) = (a', b') \/ ps b <= ps a' \/ ps b' <= ps a;
    i_cov : forall p, in_segment s p -> (cov dn p <->
      0 < ps (ms_start st) /\ ps p <= ps (ms_start st) \/ ps (ms_end st) < L /\ ps (ms_end st) <= ps p
      \/ exists a b, In (a, b) (ms_components st) /\ ps a <= ps p /\ ps p <= ps b);
    i_none : ms_no_overlap st = true -> (forall t, In t dn -> long t = false) /\ ms_start st = A /\ ms_end st = B /\ ms_components st = [];
    i_some : ms_no_overlap st = false -> exists t, In t dn /\ long t = true;
    i_super : ms_superset st = true <-> forall t, In t dn -> rel t = COMPOSITE;
    i_touch : ms_no_overlap st = true -> (ms_no_touch st = false <-> exists t, In t dn /\ rel t = TOUCH);
    i_cross : ms_no_overlap st = true -> ms_no_cross st = false -> crossed_by s (map pair_of dn);
    i_nocross : ms_no_overlap st = true -> ms_no_cross st = true -> forall t, In t dn -> rel t <> CROSS
      /\ (rel t = TOUCH -> segments_intersection t s <> A -> segments_intersection t s <> B ->
          dict_get (ms_dict st) (segments_intersection t s) = Some (angle_orientation A B (other t (segments_intersection t s))));
    i_dict : ms_no_overlap st = true -> forall x o, dict_get (ms_dict st) x = Some o -> exists t, In t dn /\ rel t = TOUCH
      /\ x = segments_intersection t s /\ x <> A /\ x <> B /\ o = angle_orientation A B (other t x)
  }.

  Lemma inv_init : inv [] (ms_init s).
  Proof using N.
    assert (E : ms_init s = MS true true true true [] [] A B (s_start s, s_end s)).
    { unfold ms_init, seg_lo, seg_hi, pt_min, pt_max. destruct (pt_ltb_spec (s_end s) (s_start s)) as [H|H]; destruct (pt_ltb_spec (s_start s) (s_end s)) as [K|K];
        try reflexivity; exfalso; [exact (plt_asym _ _ H K)|]. destruct (plt_total (s_start s) (s_end s)) as [?|[?|?]]; contradiction. }
    rewrite E. assert (P := len_pos).
    constructor; cbn [ms_start ms_end ms_endpoints ms_components ms_no_overlap ms_superset ms_no_touch ms_no_cross ms_dict]; rewrite ?pos_start.
    - split; [apply online_lo|qlra].
    - split; [apply online_hi|qlra].
    - qlra.
    - destruct (seg_lo_hi s N) as (_ & _ & [[-> ->]|[-> ->]]); auto.
    - intros a b [].
    - intros a b a' b' [].
    - intros p _. split; [intros (t & [] & _)|]. intros [[H _]|[[H _]|(a & b & [] & _)]]; exfalso; qlra.
    - intros _. split; [intros t []|auto].
    - discriminate.
    - split; [intros _ t []|reflexivity].
    - intros _. split; [discriminate|intros (t & [] & _)].
    - discriminate.
    - intros _ _ t [].
    - discriminate.
  Qed.

  (* A new long segment lies between [start] and [end] and off the components. *)
  Lemma new_bounds dn st t x y : inv dn st -> nondegenerate t -> trace t x y ->
    (forall w, In w dn -> nondegenerate w /\ at_most_one_common t w) ->
    ps (ms_start st) <= x /\ y <= ps (ms_end st) /\ forall a b, In (a, b) (ms_components st) -> ps b <= x \/ y <= ps a.
  Proof using N.
    intros I M T H. assert (C := i_cov dn st I). assert (T' := T). destruct T' as (T0 & T1 & T2 & _).
    assert (CC : forall u v, x <= u -> u < v -> v <= y -> (forall p, in_segment s p -> u <= ps p -> ps p <= v -> cov dn p) -> False).
    { intros u v X Y Z K. apply (trace_free t dn x y u v M T H X Y Z). intros p P P1 P2.
      destruct (K p P P1 P2) as (w & W & _ & Q). exists w. split; assumption. }
    destruct (i_start dn st I) as [S1 S0]. destruct (i_end dn st I) as [E1 E0]. assert (LE := i_le dn st I).
    split; [|split].
    - destruct (Qclt_le_dec x (ps (ms_start st))) as [K|K]; [exfalso|exact K].
      destruct (Qclt_le_dec (ps (ms_start st)) y) as [K'|K'].
      + apply (CC x (ps (ms_start st))); try qlra. intros p P P1 P2. apply (C p P). left. split; qlra.
      + apply (CC x y); try qlra. intros p P P1 P2. apply (C p P). left. split; qlra.
    - destruct (Qclt_le_dec (ps (ms_end st)) y) as [K|K]; [exfalso|exact K].
      destruct (Qclt_le_dec x (ps (ms_end st))) as [K'|K'].
      + apply (CC (ps (ms_end st)) y); try qlra. intros p P P1 P2. apply (C p P). right. left. split; qlra.
      + apply (CC x y); try qlra. intros p P P1 P2. apply (C p P). right. left. split; qlra.
    - intros a b K. destruct (i_comp dn st I a b K) as (_ & _ & KA & KL & KB).
      destruct (Qclt_le_dec x (ps b)) as [X|X]; [|left; exact X]. destruct (Qclt_le_dec (ps a) y) as [Y|Y]; [|right; exact Y].
      exfalso. assert (W : forall u v, x <= u -> u < v -> v <= y -> ps a <= u -> v <= ps b -> False).
      { intros u v U1 U2 U3 U4 U5. apply (CC u v U1 U2 U3). intros p P P1 P2. apply (C p P). right. right. exists a, b. split; [exact K|split; qlra]. }
      destruct (Qclt_le_dec x (ps a)) as [X'|X']; destruct (Qclt_le_dec y (ps b)) as [Y'|Y'];
        [apply (W (ps a) y)|apply (W (ps a) (ps b))|apply (W x y)|apply (W x (ps b))]; qlra.
  Qed.

  Lemma inv_long dn st st' t x y : inv dn st -> nondegenerate t -> long t = true -> trace t x y ->
    (forall w, In w dn -> nondegenerate w /\ at_most_one_common t w) ->
    ms_no_overlap st' = false -> ms_superset st' = ms_superset st && relation_eqb (rel t) COMPOSITE ->
    ms_endpoints st' = (ms_start st', ms_end st') \/ ms_endpoints st' = (ms_end st', ms_start st') ->
    online (ms_start st') /\ ps (ms_start st') = y /\ ps (ms_start st) = x /\ ms_end st' = ms_end st /\ ms_components st' = ms_components st
    \/ online (ms_end st') /\ ps (ms_end st') = x /\ ps (ms_end st) = y /\ ms_start st' = ms_start st /\ ms_components st' = ms_components st
    \/ ms_start st' = ms_start st /\ ms_end st' = ms_end st
       /\ (exists a b, online a /\ online b /\ ps a = x /\ ps b = y /\ ms_components st' = ms_components st ++ [(a, b)]) ->
    inv (t :: dn) st'.
  Proof using N.
    intros I M Lt T H NO SU EN U.
    destruct (new_bounds dn st t x y I M T H) as (BS & BE & BC).
    destruct (i_start dn st I) as [S1 S0]. destruct (i_end dn st I) as [E1 E0]. assert (LE := i_le dn st I).
    assert (C := i_comp dn st I). assert (Sp := i_sep dn st I). assert (V := i_cov dn st I).
    assert (T' := T). destruct T' as (T0 & T1 & T2 & T3).
    assert (CV : forall p, in_segment s p -> (cov (t :: dn) p <-> x <= ps p /\ ps p <= y \/ cov dn p)).
    { intros p P. split.
      - intros (w & [<-|W] & Lw & Q); [left; apply (T3 p P), Q|right; exists w; auto].
      - intros [Q|(w & W & Lw & Q)]; [exists t; split; [left; reflexivity|split; [exact Lt|apply (T3 p P), Q]]|exists w; split; [right; exact W|auto]]. }
    assert (SP : ms_superset st' = true <-> forall w, In w (t :: dn) -> rel w = COMPOSITE).
    { rewrite SU, andb_true_iff, (i_super dn st I). destruct (relation_eqb_spec (rel t) COMPOSITE) as [R|R].
      - split; [intros [K _] w [<-|W]; [exact R|exact (K w W)]|intros K; split; [intros w W; apply K; right; exact W|reflexivity]].
      - split; [intros [_ K]; discriminate|intros K; exfalso; apply R, K; left; reflexivity]. }
    destruct U as [(OS & PS' & PX & EE & EC)|[(OE & PE' & PY & ES & EC)|(ES & EE & a & b & Oa & Ob & Pa & Pb & EC)]].
    - constructor; rewrite ?NO; try discriminate; rewrite ?EE, ?EC; try assumption.
      + split; [exact OS|qlra].
      + split; [exact E1|exact E0].
      + qlra.
      + rewrite EE in EN. exact EN.
      + intros a b K. destruct (C a b K) as (C1 & C2 & C3 & C4 & C5). repeat (split; [assumption|]).
        destruct (BC a b K) as [Q|Q]; [exfalso; qlra|]. split; [qlra|split; assumption].
      + intros p P. rewrite (CV p P), (V p P), PS'. assert (P' := P). apply in_s in P'. destruct P' as (_ & P0 & P1).
        split.
        * intros [[Q1 Q2]|[[Q1 Q2]|[[Q1 Q2]|Q]]]; [left; split; qlra|left; split; qlra|right; left; split; assumption|right; right; exact Q].
        * intros [[Q1 Q2]|[[Q1 Q2]|Q]]; [|right; right; left; split; assumption|right; right; right; exact Q].
          destruct (Qclt_le_dec (ps p) x) as [K|K]; [right; left; split; qlra|left; split; assumption].
      + intros _. exists t. split; [left; reflexivity|exact Lt].
    - constructor; rewrite ?NO; try discriminate; rewrite ?ES, ?EC; try assumption.
      + split; assumption.
      + split; [exact OE|qlra].
      + qlra.
      + rewrite ES in EN. exact EN.
      + intros a b K. destruct (C a b K) as (C1 & C2 & C3 & C4 & C5). repeat (split; [assumption|]).
        destruct (BC a b K) as [Q|Q]; [qlra|exfalso; qlra].
      + intros p P. rewrite (CV p P), (V p P), PE'. assert (P' := P). apply in_s in P'. destruct P' as (_ & P0 & P1).
        split.
        * intros [[Q1 Q2]|[[Q1 Q2]|[[Q1 Q2]|Q]]]; [right; left; split; qlra|left; split; assumption|right; left; split; qlra|right; right; exact Q].
        * intros [[Q1 Q2]|[[Q1 Q2]|Q]]; [right; left; split; assumption| |right; right; right; exact Q].
          destruct (Qclt_le_dec y (ps p)) as [K|K]; [right; right; left; split; qlra|left; split; assumption].
      + intros _. exists t. split; [left; reflexivity|exact Lt].
    - constructor; rewrite ?NO; try discriminate; rewrite ?ES, ?EE, ?EC; try assumption.
      + split; assumption.
      + split; assumption.
      + rewrite ES, EE in EN. exact EN.
      + intros a' b' K. apply in_app_or in K. destruct K as [K|[K|[]]]; [exact (C a' b' K)|]. injection K as <- <-.
        repeat (split; [assumption|]). rewrite Pa, Pb. repeat (split; [assumption|]). exact BE.
      + intros a1 b1 a2 b2 K1 K2. apply in_app_or in K1, K2.
        destruct K1 as [K1|[K1|[]]]; destruct K2 as [K2|[K2|[]]].
        * exact (Sp _ _ _ _ K1 K2).
        * injection K2 as <- <-. right. rewrite Pa, Pb. exact (BC _ _ K1).
        * injection K1 as <- <-. right. rewrite Pa, Pb. destruct (BC _ _ K2); [right|left]; assumption.
        * left. congruence.
      + intros p P. rewrite (CV p P), (V p P). split.
        * intros [Q|[Q|[Q|(a' & b' & K & Q)]]].
          -- right. right. exists a, b. rewrite Pa, Pb. split; [apply in_or_app; right; left; reflexivity|exact Q].
          -- left. exact Q.
          -- right. left. exact Q.
          -- right. right. exists a', b'. split; [apply in_or_app; left; exact K|exact Q].
        * intros [Q|[Q|(a' & b' & K & Q)]]; [right; left; exact Q|right; right; left; exact Q|].
          apply in_app_or in K. destruct K as [K|[K|[]]]; [right; right; right; exists a', b'; split; assumption|].
          injection K as <- <-. left. rewrite <- Pa, <- Pb. exact Q.
      + intros _. exists t. split; [left; reflexivity|exact Lt].
  Qed.

  (* The comparisons of the code along the line. *)
  Lemma ltb_pos p q : online p -> online q -> pt_ltb p q = qltb (ps p) (ps q).
  Proof using N.
    intros P Q. assert (K := pos_plt A B p q lo_lt_hi P Q).
    destruct (pt_ltb_spec p q) as [H|H]; destruct (qltb_spec (ps p) (ps q)) as [H'|H']; try reflexivity; exfalso; tauto.
  Qed.
  Lemma ends_cases t : nondegenerate t -> s_start t = seg_lo t /\ s_end t = seg_hi t \/ s_start t = seg_hi t /\ s_end t = seg_lo t.
  Proof using Type. intros M. destruct (seg_lo_hi t M) as (_ & _ & [[-> ->]|[-> ->]]); auto. Qed.
  Lemma in2_ends t p : nondegenerate t -> pt_in2 p (s_start t, s_end t) = true <-> p = seg_lo t \/ p = seg_hi t.
  Proof using Type.
    intros M. unfold pt_in2. cbn [fst snd]. rewrite orb_true_iff.
    destruct (ends_cases t M) as [[E1 E2]|[E1 E2]]; rewrite E1, E2;
      destruct (pt_eqb_spec p (seg_lo t)); destruct (pt_eqb_spec p (seg_hi t)); intuition congruence.
  Qed.

  (* Sorting the four ends. *)
  Lemma sort4 p q r u : online p -> online q -> online r -> online u ->
    ps p < ps q -> ps q < ps r -> ps r <= ps u -> forall l, In l [[q; u; p; r]; [q; u; r; p]; [u; q; p; r]; [u; q; r; p]] ->
    pt_sort l = [p; q; r; u].
  Proof using N.
    intros P Q R U H1 H2 H3 l Hl.
    assert (E : r = u \/ ps r < ps u).
    { destruct (q_trichotomy (ps r) (ps u)) as [K|[K|K]]; [right; exact K|left; exact (pos_inj A B r u lo_lt_hi R U K)|exfalso; qlra]. }
    destruct E as [<-|E]; cbn [In] in Hl.
    - destruct Hl as [<-|[<-|[<-|[<-|[]]]]]; unfold pt_sort; cbn [fold_left];
      repeat (cbn [pt_insert]; match goal with |- context [pt_ltb ?a ?b] => rewrite (ltb_pos a b) by assumption; destruct (qltb_spec (ps a) (ps b)); try (exfalso; qlra) end);
      reflexivity.
    - destruct Hl as [<-|[<-|[<-|[<-|[]]]]]; unfold pt_sort; cbn [fold_left];
      repeat (cbn [pt_insert]; match goal with |- context [pt_ltb ?a ?b] => rewrite (ltb_pos a b) by assumption; destruct (qltb_spec (ps a) (ps b)); try (exfalso; qlra) end);
      reflexivity.
  Qed.
  Lemma sort4' p q r u : online p -> online q -> online r -> online u ->
    ps p <= ps q -> ps q < ps r -> ps r < ps u -> forall l, In l [[p; r; q; u]; [p; r; u; q]; [r; p; q; u]; [r; p; u; q]] ->
    pt_sort l = [p; q; r; u].
  Proof using N.
    intros P Q R U H1 H2 H3 l Hl.
    assert (E : p = q \/ ps p < ps q).
    { destruct (q_trichotomy (ps p) (ps q)) as [K|[K|K]]; [right; exact K|left; exact (pos_inj A B p q lo_lt_hi P Q K)|exfalso; qlra]. }
    destruct E as [<-|E]; cbn [In] in Hl.
    - destruct Hl as [<-|[<-|[<-|[<-|[]]]]]; unfold pt_sort; cbn [fold_left];
      repeat (cbn [pt_insert]; match goal with |- context [pt_ltb ?a ?b] => rewrite (ltb_pos a b) by assumption; destruct (qltb_spec (ps a) (ps b)); try (exfalso; qlra) end);
      reflexivity.
    - destruct Hl as [<-|[<-|[<-|[<-|[]]]]]; unfold pt_sort; cbn [fold_left];
      repeat (cbn [pt_insert]; match goal with |- context [pt_ltb ?a ?b] => rewrite (ltb_pos a b) by assumption; destruct (qltb_spec (ps a) (ps b)); try (exfalso; qlra) end);
      reflexivity.
  Qed.

  Lemma step_part dn st t : inv dn st -> nondegenerate t -> (forall w, In w dn -> nondegenerate w /\ at_most_one_common t w) ->
    rel t = COMPOSITE -> exists st', ms_step s st t = Some st' /\ inv (t :: dn) st'.
  Proof using N.
    intros I M H R. unfold ms_step, segment_relate_segment. rewrite R. cbn [relation_eqb orb]. cbv zeta.
    assert (T := part_trace t M R). assert (Lt : long t = true) by (unfold long; rewrite R; reflexivity).
    destruct (new_bounds dn st t _ _ I M T H) as (BS & BE & _). destruct (part_case t M R) as (AL & _ & _). assert (LT := along_lt t AL).
    destruct AL as (_ & OL & OH).
    assert (SU : ms_superset st = ms_superset st && relation_eqb (rel t) COMPOSITE) by (rewrite R; symmetry; apply andb_true_r).
    destruct (pt_in2 (ms_start st) (s_start t, s_end t)) eqn:P1.
    { apply (in2_ends t _ M) in P1. eexists. split; [reflexivity|].
      eapply (inv_long dn st _ t _ _ I M Lt T H); cbn [ms_no_overlap ms_superset ms_endpoints ms_start ms_end ms_components fst snd];
        [reflexivity|exact SU|left; reflexivity|]. left.
      change (pt_max (s_start t) (s_end t)) with (seg_hi t). split; [exact OH|]. split; [reflexivity|]. split; [|split; reflexivity].
      destruct P1 as [E|E]; rewrite E; [reflexivity|exfalso; rewrite E in BS; qlra]. }
    destruct (pt_in2 (ms_end st) (s_start t, s_end t)) eqn:P2.
    { apply (in2_ends t _ M) in P2. eexists. split; [reflexivity|].
      eapply (inv_long dn st _ t _ _ I M Lt T H); cbn [ms_no_overlap ms_superset ms_endpoints ms_start ms_end ms_components fst snd];
        [reflexivity|exact SU|left; reflexivity|]. right. left.
      change (pt_min (s_start t) (s_end t)) with (seg_lo t). split; [exact OL|]. split; [reflexivity|]. split; [|split; reflexivity].
      destruct P2 as [E|E]; rewrite E; [exfalso; rewrite E in BE; qlra|reflexivity]. }
    eexists. split; [reflexivity|].
    eapply (inv_long dn st _ t _ _ I M Lt T H); cbn [ms_no_overlap ms_superset ms_endpoints ms_start ms_end ms_components fst snd];
      [reflexivity|exact SU|exact (i_ends dn st I)|]. right. right. split; [reflexivity|]. split; [reflexivity|].
    exists (seg_lo t), (seg_hi t). repeat (split; [assumption||reflexivity|]).
    f_equal. f_equal. unfold to_sorted_pair. destruct (seg_lo_hi t M) as (O & _ & [[E1 E2]|[E1 E2]]); rewrite <- E1, <- E2.
    - destruct (pt_ltb_spec (seg_lo t) (seg_hi t)) as [K|K]; [reflexivity|contradiction].
    - destruct (pt_ltb_spec (seg_hi t) (seg_lo t)) as [K|K]; [exfalso; exact (plt_asym _ _ K O)|reflexivity].
  Qed.

  Lemma step_overlap dn st t : inv dn st -> nondegenerate t -> (forall w, In w dn -> nondegenerate w /\ at_most_one_common t w) ->
    rel t = OVERLAP -> exists st', ms_step s st t = Some st' /\ inv (t :: dn) st'.
  Proof using N.
    intros I M H R. unfold ms_step, segment_relate_segment. rewrite R. cbn [relation_eqb orb]. cbv zeta.
    assert (Lt : long t = true) by (unfold long; rewrite R; reflexivity).
    assert (SU : false = ms_superset st && relation_eqb (rel t) COMPOSITE) by (rewrite R; symmetry; apply andb_false_r).
    destruct (i_start dn st I) as [S1 S0]. destruct (i_end dn st I) as [E1 E0]. assert (LE := i_le dn st I).
    destruct (overlap_case t M R) as ((_ & OL & OH) & _).
    destruct (overlap_trace t M R) as [[X T]|[X T]]; destruct (new_bounds dn st t _ _ I M T H) as (BS & BE & _); destruct T as (T0 & T1 & T2 & T3).
    - assert (Z : ps (ms_start st) = 0) by qlra.
      assert (E : subtract_segments_overlap (ms_endpoints st) (s_start t, s_end t) = (seg_hi t, ms_end st)).
      { unfold subtract_segments_overlap.
        rewrite (sort4 (seg_lo t) (ms_start st) (seg_hi t) (ms_end st)); try assumption; try qlra.
        - assert (NI : pt_in2 (seg_lo t) (ms_endpoints st) = false).
          { unfold pt_in2. destruct (i_ends dn st I) as [-> | ->]; cbn [fst snd];
              destruct (pt_eqb_spec (seg_lo t) (ms_start st)) as [Q|Q]; try (exfalso; rewrite Q in X; qlra);
              destruct (pt_eqb_spec (seg_lo t) (ms_end st)) as [Q'|Q']; try (exfalso; rewrite Q' in X; qlra); reflexivity. }
          rewrite NI. reflexivity.
        - destruct (i_ends dn st I) as [-> | ->]; cbn [fst snd]; destruct (ends_cases t M) as [[-> ->]|[-> ->]]; cbn [In]; tauto. }
      rewrite E. eexists. split; [reflexivity|].
      eapply (inv_long dn st _ t _ _ I M Lt (conj T0 (conj T1 (conj T2 T3))) H); cbn [ms_no_overlap ms_superset ms_endpoints ms_start ms_end ms_components fst snd];
        [reflexivity|exact SU|left; reflexivity|]. left. repeat (split; [assumption||reflexivity|]). reflexivity.
    - assert (Z : ps (ms_end st) = L) by qlra.
      assert (E : subtract_segments_overlap (ms_endpoints st) (s_start t, s_end t) = (ms_start st, seg_lo t)).
      { unfold subtract_segments_overlap.
        rewrite (sort4' (ms_start st) (seg_lo t) (ms_end st) (seg_hi t)); try assumption; try qlra.
        - assert (NI : pt_in2 (ms_start st) (ms_endpoints st) = true).
          { unfold pt_in2. destruct (i_ends dn st I) as [-> | ->]; cbn [fst snd]; rewrite pt_eqb_refl, ?orb_true_r; reflexivity. }
          rewrite NI. reflexivity.
        - destruct (i_ends dn st I) as [-> | ->]; cbn [fst snd]; destruct (ends_cases t M) as [[-> ->]|[-> ->]]; cbn [In]; tauto. }
      rewrite E. eexists. split; [reflexivity|].
      eapply (inv_long dn st _ t _ _ I M Lt (conj T0 (conj T1 (conj T2 T3))) H); cbn [ms_no_overlap ms_superset ms_endpoints ms_start ms_end ms_components fst snd];
        [reflexivity|exact SU|left; reflexivity|]. right. left. repeat (split; [assumption||reflexivity|]). reflexivity.
  Qed.

  (** ** Segments with at most one common point *)
  Lemma sides_of q : s_start s = A /\ s_end s = B /\ (to_left (s_start s) (s_end s) q <-> 0 < cross A B q) /\ (to_right (s_start s) (s_end s) q <-> cross A B q < 0)
    \/ s_start s = B /\ s_end s = A /\ (to_left (s_start s) (s_end s) q <-> cross A B q < 0) /\ (to_right (s_start s) (s_end s) q <-> 0 < cross A B q).
  Proof using N.
    unfold to_left, to_right, cross. destruct (ends_cases s N) as [[E1 E2]|[E1 E2]]; [left|right]; rewrite E1, E2; repeat (split; [reflexivity|]);
      split; split; intros H; qlra.
  Qed.
  Lemma crossed_iff dn : crossed_by s (map pair_of dn) <-> exists p t u q r, in_segment s p /\ p <> A /\ p <> B
    /\ In t dn /\ in_segment t p /\ in_segment t q /\ 0 < cross A B q /\ In u dn /\ in_segment u p /\ in_segment u r /\ cross A B r < 0.
  Proof using N.
    assert (X : forall q, (to_left (s_start s) (s_end s) q <-> 0 < cross A B q) /\ (to_right (s_start s) (s_end s) q <-> cross A B q < 0)
      \/ s_start s = B).
    { intros q. destruct (sides_of q) as [(_ & _ & K)|(K & _)]; auto. }
    assert (AB : A <> B) by exact (plt_neq _ _ lo_lt_hi).
    split.
    - intros (p & a & b & c & d & q & r & P & I1 & I2 & I3 & I4 & J1 & J2 & J3 & J4).
      apply in_map_iff in I1, J1. destruct I1 as (t & E1 & I1). destruct J1 as (u & E2 & J1). injection E1 as <- <-. injection E2 as <- <-.
      apply inside_s in P. destruct P as (P & PA & PB).
      destruct (sides_of q) as [(Q1 & Q2 & Q3 & Q4)|(Q1 & Q2 & Q3 & Q4)]; destruct (sides_of r) as [(R1 & R2 & R3 & R4)|(R1 & R2 & R3 & R4)]; try (exfalso; congruence).
      + exists p, t, u, q, r. repeat (split; [first [assumption|apply Q3, I4]|]). apply R4, J4.
      + exists p, u, t, r, q. repeat (split; [first [assumption|apply R4, J4]|]). apply Q3, I4.
    - intros (p & t & u & q & r & P & PA & PB & I1 & I2 & I3 & I4 & J1 & J2 & J3 & J4).
      assert (PI : strictly_inside_segment s p) by (apply inside_s; repeat split; assumption).
      assert (K1 := in_map pair_of dn t I1). assert (K2 := in_map pair_of dn u J1).
      destruct (sides_of q) as [(Q1 & Q2 & Q3 & Q4)|(Q1 & Q2 & Q3 & Q4)]; destruct (sides_of r) as [(R1 & R2 & R3 & R4)|(R1 & R2 & R3 & R4)]; try (exfalso; congruence).
      + exists p, (s_start t), (s_end t), (s_start u), (s_end u), q, r. repeat (split; [first [assumption|apply Q3, I4]|]). apply R4, J4.
      + exists p, (s_start u), (s_end u), (s_start t), (s_end t), r, q. repeat (split; [first [assumption|apply R3, J4]|]). apply Q4, I4.
  Qed.
  (* A segment that touches [s] between its ends. *)
  Lemma touch_case t : nondegenerate t -> rel t = TOUCH ->
    let x := segments_intersection t s in meet_at (in_segment s) (in_segment t) x
    /\ (x <> A -> x <> B -> (x = s_start t \/ x = s_end t) /\ cross A B (other t x) <> 0
        /\ (forall p, in_segment t p <-> on_segment x (other t x) p)
        /\ (forall q, in_segment t q -> 0 < cross A B q -> 0 < cross A B (other t x))
        /\ (forall q, in_segment t q -> cross A B q < 0 -> cross A B (other t x) < 0)).
  Proof using N.
    intros M R x. assert (Sp := rel_sound t M). rewrite R in Sp. cbn [segments_spec] in Sp. destruct Sp as (p & MP & E).
    assert (MX : meet_at (in_segment s) (in_segment t) x).
    { apply meet_at_sym. apply (segments_intersection_on t s M N). exists p. apply meet_at_sym, MP. }
    assert (EX : x = p) by (destruct MX as (X1 & X2 & _); destruct MP as (_ & _ & U); apply U; assumption).
    rewrite <- EX in E. clear p MP EX. split; [exact MX|]. intros NA NB.
    assert (ET : x = s_start t \/ x = s_end t).
    { destruct E as [E|E]; [|exact E]. destruct (proj2 (proj2 s_ends) x E); contradiction. }
    split; [exact ET|].
    assert (IT : forall p, in_segment t p <-> on_segment x (other t x) p).
    { intros p. unfold other, in_segment. destruct (pt_eqb_spec x (s_end t)) as [Q|Q].
      - rewrite Q. split; apply on_segment_sym.
      - destruct ET as [Q'|Q']; [rewrite Q'; reflexivity|contradiction]. }
    assert (XD : x <> other t x).
    { unfold other. destruct (pt_eqb_spec x (s_end t)) as [Q|Q]; [rewrite Q; intros K; apply M; congruence|exact Q]. }
    destruct MX as (X1 & X2 & U). assert (XS := X1). apply in_s in XS. destruct XS as (OX & X0 & XL).
    assert (CR : forall q, in_segment t q -> exists k, 0 <= k /\ cross A B q = k * cross A B (other t x)).
    { intros q Q. apply IT in Q. destruct Q as (k & K0 & K1 & ->). exists k. split; [exact K0|]. rewrite cross_on_line_lerp, OX. ring. }
    assert (NZ : cross A B (other t x) <> 0).
    { intros Z.
      assert (X0' : 0 < ps x).
      { destruct (q_trichotomy 0 (ps x)) as [K|[K|K]]; [exact K| |exfalso; qlra]. exfalso. apply NA.
        apply (pos_inj A B x A lo_lt_hi OX online_lo). rewrite pos_start. qlra. }
      assert (XL' : ps x < L).
      { destruct (q_trichotomy (ps x) L) as [K|[K|K]]; [exact K| |exfalso; qlra]. exfalso. apply NB.
        apply (pos_inj A B x B lo_lt_hi OX online_hi). exact K. }
      (* a second common point near x *)
      assert (W : exists y, y <> x /\ in_segment t y /\ in_segment s y).
      { destruct (plt_total x (other t x)) as [K|[K|K]]; [|contradiction|].
        - assert (K' := proj1 (pos_plt A B _ _ lo_lt_hi OX Z) K).
          assert (V : exists v, ps x < v /\ v <= ps (other t x) /\ v <= L).
          { destruct (Qclt_le_dec (ps (other t x)) L); [exists (ps (other t x))|exists L]; repeat split; qlra. }
          destruct V as (v & V1 & V2 & V3). destruct (point_at v) as (y & Oy & Ey). exists y. split; [intros ->; qlra|]. split.
          + apply IT. apply (pos_segment A B x (other t x) y lo_lt_hi K OX Z). split; [exact Oy|split; qlra].
          + apply in_s. split; [exact Oy|split; qlra].
        - assert (K' := proj1 (pos_plt A B _ _ lo_lt_hi Z OX) K).
          assert (V : exists v, v < ps x /\ ps (other t x) <= v /\ 0 <= v).
          { destruct (Qclt_le_dec (ps (other t x)) 0); [exists 0|exists (ps (other t x))]; repeat split; qlra. }
          destruct V as (v & V1 & V2 & V3). destruct (point_at v) as (y & Oy & Ey). exists y. split; [intros ->; qlra|]. split.
          + apply IT, on_segment_sym. apply (pos_segment A B (other t x) x y lo_lt_hi K Z OX). split; [exact Oy|split; qlra].
          + apply in_s. split; [exact Oy|split; qlra]. }
      destruct W as (y & Y & Yt & Ys). apply Y. apply U; assumption. }
    split; [exact NZ|]. split; [exact IT|]. split; intros q Q H; destruct (CR q Q) as (k & K0 & K1).
    - destruct (q_trichotomy (cross A B (other t x)) 0) as [K|[K|K]]; [|contradiction|exact K]. exfalso. clear - K K0 K1 H. qnra.
    - destruct (q_trichotomy (cross A B (other t x)) 0) as [K|[K|K]]; [exact K|contradiction|]. exfalso. clear - K K0 K1 H. qnra.
  Qed.
  Lemma cross_case t : nondegenerate t -> rel t = CROSS -> exists x q r, in_segment s x /\ x <> A /\ x <> B /\ in_segment t x
    /\ in_segment t q /\ 0 < cross A B q /\ in_segment t r /\ cross A B r < 0.
  Proof using N.
    intros M R. assert (Sp := rel_sound t M). rewrite R in Sp. cbn [segments_spec] in Sp. destruct Sp as (x & (X1 & X2 & U) & XS & (_ & XT1 & XT2)).
    apply inside_s in XS. destruct XS as (_ & NA & NB). assert (OX := X1). apply in_s in OX. destruct OX as (OX & X0 & XL).
    assert (T := X2). destruct T as (k & K0 & K1 & EX).
    assert (K0' : 0 < k).
    { destruct (q_trichotomy 0 k) as [K|[K|K]]; [exact K| |exfalso; qlra]. exfalso. apply XT1. rewrite EX, <- K. apply lerp_0. }
    assert (K1' : k < 1).
    { destruct (q_trichotomy k 1) as [K|[K|K]]; [exact K| |exfalso; qlra]. exfalso. apply XT2. rewrite EX, K. apply lerp_1. }
    assert (Z : cross A B (s_start t) + k * (cross A B (s_end t) - cross A B (s_start t)) = 0) by (rewrite <- cross_on_line_lerp, <- EX; exact OX).
    assert (NZ : ~ (cross A B (s_start t) = 0 /\ cross A B (s_end t) = 0)).
    { intros [Z1 Z2]. (* parallel: then another common point *)
      assert (AL : along t) by (split; [exact M|]; destruct (ends_cases t M) as [[<- <-]|[<- <-]]; split; assumption).
      assert (X2' := proj1 (along_in t x AL) X2). destruct X2' as (_ & B1 & B2).
      assert (LO : ps (seg_lo t) < ps x).
      { destruct (q_trichotomy (ps (seg_lo t)) (ps x)) as [K|[K|K]]; [exact K| |exfalso; qlra]. exfalso.
        assert (x = seg_lo t) by (apply (pos_inj A B _ _ lo_lt_hi OX (proj1 (proj2 AL))); qlra).
        destruct (ends_cases t M) as [[E1 E2]|[E1 E2]]; congruence. }
      assert (LA : 0 < ps x).
      { destruct (q_trichotomy 0 (ps x)) as [K|[K|K]]; [exact K| |exfalso; qlra]. exfalso. apply NA.
        apply (pos_inj A B x A lo_lt_hi OX online_lo). rewrite pos_start. qlra. }
      assert (V : exists v, v < ps x /\ ps (seg_lo t) <= v /\ 0 <= v).
      { destruct (Qclt_le_dec (ps (seg_lo t)) 0); [exists 0|exists (ps (seg_lo t))]; repeat split; qlra. }
      destruct V as (v & V1 & V2 & V3). destruct (point_at v) as (y & Oy & Ey).
      assert (y = x); [|subst y; qlra].
      apply U; [apply in_s|apply (along_in t y AL)]; (split; [exact Oy|split; qlra]). }
    destruct (q_trichotomy (cross A B (s_start t)) 0) as [S|[S|S]].
    - exists x, (s_end t), (s_start t). repeat (split; [first [assumption|apply on_segment_end|apply on_segment_start|clear - S Z K0' K1'; qnra]|]). exact S.
    - exfalso. apply NZ. split; [exact S|]. rewrite S in Z. assert (Z' : k * cross A B (s_end t) = 0) by (rewrite <- Z; ring).
      q_integral Z'; [exfalso; qlra|exact Z'].
    - exists x, (s_start t), (s_end t). repeat (split; [first [assumption|apply on_segment_end|apply on_segment_start|clear - S Z K0' K1'; qnra]|]). clear - S Z K0' K1'; qnra.
  Qed.

  Lemma crossed_more dn t : crossed_by s (map pair_of dn) -> crossed_by s (map pair_of (t :: dn)).
  Proof using Type.
    intros (p & a & b & c & d & q & r & H1 & H2 & H3 & H4 & H5 & H6 & H7). exists p, a, b, c, d, q, r.
    repeat (split; [first [assumption|right; assumption]|]). exact H7.
  Qed.
  Lemma inv_short dn st t noc not d no b e : inv dn st -> no = ms_no_overlap st -> b = ms_start st -> e = ms_end st -> long t = false -> rel t <> COMPOSITE ->
    (no = true -> (not = false <-> ms_no_touch st = false \/ rel t = TOUCH)) ->
    (no = true -> noc = false -> crossed_by s (map pair_of (t :: dn))) ->
    (no = true -> noc = true -> forall w, In w (t :: dn) -> rel w <> CROSS
      /\ (rel w = TOUCH -> segments_intersection w s <> A -> segments_intersection w s <> B ->
          dict_get d (segments_intersection w s) = Some (angle_orientation A B (other w (segments_intersection w s))))) ->
    (no = true -> forall x o, dict_get d x = Some o -> exists w, In w (t :: dn) /\ rel w = TOUCH
      /\ x = segments_intersection w s /\ x <> A /\ x <> B /\ o = angle_orientation A B (other w x)) ->
    inv (t :: dn) (MS false not noc no d (ms_components st) b e (ms_endpoints st)).
  Proof using Type.
    intros I -> -> -> Lt NC HT HC HN HD.
    constructor; cbn [ms_superset ms_no_touch ms_no_cross ms_no_overlap ms_dict ms_components ms_start ms_end ms_endpoints]; try assumption; try apply I.
    - intros p P. rewrite <- (i_cov dn st I p P). split.
      + intros (w & [<-|W] & Lw & Q); [congruence|exists w; auto].
      + intros (w & W & Lw & Q). exists w. split; [right; exact W|auto].
    - intros K. destruct (i_none dn st I K) as (H & R). split; [|exact R]. intros w [<-|W]; [exact Lt|exact (H w W)].
    - intros K. destruct (i_some dn st I K) as (w & W & Lw). exists w. split; [right; exact W|exact Lw].
    - split; [discriminate|]. intros K. exfalso. apply NC, K. left. reflexivity.
    - intros K. rewrite (HT K), (i_touch dn st I K). split.
      + intros [(w & W & R)|R]; [exists w; split; [right; exact W|exact R]|exists t; split; [left; reflexivity|exact R]].
      + intros (w & [<-|W] & R); [right; exact R|left; exists w; split; assumption].
  Qed.

  Lemma step_short dn st t : inv dn st -> (forall w, In w dn -> nondegenerate w) -> nondegenerate t ->
    rel t = TOUCH \/ rel t = CROSS \/ rel t = DISJOINT -> exists st', ms_step s st t = Some st' /\ inv (t :: dn) st'.
  Proof using N.
    intros I NW M R. unfold ms_step, segment_relate_segment.
    assert (Lt : long t = false) by (unfold long; destruct R as [R|[R|R]]; rewrite R; reflexivity).
    assert (NC : rel t <> COMPOSITE) by (destruct R as [R|[R|R]]; rewrite R; discriminate).
    assert (E : relation_eqb (rel t) COMPONENT || relation_eqb (rel t) EQUAL = false /\ relation_eqb (rel t) COMPOSITE = false /\ relation_eqb (rel t) OVERLAP = false)
      by (destruct R as [R|[R|R]]; rewrite R; repeat split; reflexivity).
    destruct E as (E1 & E2 & E3). rewrite E1, E2, E3. cbv zeta. eexists. split; [reflexivity|].
    unfold ms_discrete. cbn [ms_superset ms_no_touch ms_no_cross ms_no_overlap ms_dict ms_components ms_start ms_end ms_endpoints].
    destruct (ms_no_overlap st) eqn:NO.
    2: { apply (inv_short dn st); try assumption; try (symmetry; assumption); try reflexivity; discriminate. }
    destruct (i_none dn st I NO) as (NL & ES & EE & EC).
    assert (DM : forall x o, dict_get (ms_dict st) x = Some o -> exists w, In w (t :: dn) /\ rel w = TOUCH
      /\ x = segments_intersection w s /\ x <> A /\ x <> B /\ o = angle_orientation A B (other w x)).
    { intros x o K. destruct (i_dict dn st I NO x o K) as (w & W & K'). exists w. split; [right; exact W|exact K']. }
    assert (OLD : ms_no_cross st = true -> forall w, In w dn -> rel w <> CROSS
      /\ (rel w = TOUCH -> segments_intersection w s <> A -> segments_intersection w s <> B ->
          dict_get (ms_dict st) (segments_intersection w s) = Some (angle_orientation A B (other w (segments_intersection w s))))).
    { intros K w W. exact (i_nocross dn st I NO K w W). }
    assert (CM : ms_no_cross st = false -> crossed_by s (map pair_of (t :: dn))).
    { intros K. apply crossed_more, (i_cross dn st I NO K). }
    destruct (relation_eqb_spec (rel t) TOUCH) as [RT|RT].
    - assert (TT : false = false <-> ms_no_touch st = false \/ rel t = TOUCH) by (split; [right; exact RT|reflexivity]).
      assert (RC : rel t <> CROSS) by (rewrite RT; discriminate).
      destruct (touch_case t M RT) as (MX & TX). cbv zeta in TX.
      destruct (ms_no_cross st) eqn:NCR.
      2: { apply (inv_short dn st); try assumption; try (symmetry; assumption); try reflexivity; intros _; try assumption; discriminate. }
      rewrite ES, EE.
      destruct (pt_eqb_spec (segments_intersection t s) A) as [XA|XA]; cbn [negb andb].
      { apply (inv_short dn st); try assumption; try (symmetry; assumption); try reflexivity; intros _; try assumption.
        intros _ w [<-|W]; [split; [exact RC|intros _ K; contradiction]|exact (OLD eq_refl w W)]. }
      destruct (pt_eqb_spec (segments_intersection t s) B) as [XB|XB]; cbn [negb andb].
      { apply (inv_short dn st); try assumption; try (symmetry; assumption); try reflexivity; intros _; try assumption; try discriminate.
        intros _ w [<-|W]; [split; [exact RC|intros _ _ K; contradiction]|exact (OLD eq_refl w W)]. }
      destruct (TX XA XB) as (TE & NZ & IT & TP & TN).
      change (if pt_eqb (segments_intersection t s) (s_end t) then s_start t else s_end t) with (other t (segments_intersection t s)).
      destruct (dict_get (ms_dict st) (segments_intersection t s)) as [o|] eqn:DG.
      + destruct (orientation_eqb_spec (angle_orientation A B (other t (segments_intersection t s))) o) as [OE|OE]; cbn [negb].
        * apply (inv_short dn st); try assumption; try (symmetry; assumption); try reflexivity; intros _; try assumption; try discriminate.
          intros _ w [<-|W]; [split; [exact RC|intros _ _ _; rewrite DG, OE; reflexivity]|exact (OLD eq_refl w W)].
        * apply (inv_short dn st); try assumption; try (symmetry; assumption); try reflexivity; intros _; try assumption; try discriminate. intros _.
          destruct (i_dict dn st I NO _ _ DG) as (w & W & RW & XW & _ & _ & OW).
          assert (MW := NW w W). destruct (touch_case w MW RW) as (MXW & TXW). cbv zeta in TXW. rewrite <- XW in MXW, TXW.
          destruct (TXW XA XB) as (_ & NZW & ITW & _ & _).
          apply crossed_iff.
          assert (I1 : forall v, in_segment v (segments_intersection t s) -> (forall p, in_segment v p <-> on_segment (segments_intersection t s) (other v (segments_intersection t s)) p) ->
            in_segment v (other v (segments_intersection t s))) by (intros v _ K; apply K, on_segment_end).
          destruct MX as (X1 & X2 & _). destruct MXW as (_ & X3 & _).
          assert (J1 := I1 t X2 IT). assert (J2 := I1 w X3 ITW).
          destruct (q_trichotomy (cross A B (other t (segments_intersection t s))) 0) as [K|[K|K]]; [|contradiction|];
            destruct (q_trichotomy (cross A B (other w (segments_intersection t s))) 0) as [K'|[K'|K']]; try contradiction.
          -- exfalso. apply OE. rewrite OW. rewrite (proj2 (angle_orientation_cw A B _) K), (proj2 (angle_orientation_cw A B _) K'). reflexivity.
          -- exists (segments_intersection t s), w, t, (other w (segments_intersection t s)), (other t (segments_intersection t s)).
             repeat (split; [first [assumption|right; exact W|left; reflexivity]|]). exact K.
          -- exists (segments_intersection t s), t, w, (other t (segments_intersection t s)), (other w (segments_intersection t s)).
             repeat (split; [first [assumption|right; exact W|left; reflexivity]|]). exact K'.
          -- exfalso. apply OE. rewrite OW. rewrite (proj2 (angle_orientation_ccw A B _) K), (proj2 (angle_orientation_ccw A B _) K'). reflexivity.
      + apply (inv_short dn st); try assumption; try (symmetry; assumption); try reflexivity; intros _; try assumption; try discriminate.
        * intros _ w W. cbn [dict_get]. destruct (pt_eqb_spec (segments_intersection w s) (segments_intersection t s)) as [Q|Q].
          -- destruct W as [<-|W]; [split; [exact RC|intros _ _ _; reflexivity]|]. destruct (OLD eq_refl w W) as [O1 O2]. split; [exact O1|].
             intros K1 K2 K3. specialize (O2 K1 K2 K3). rewrite Q in O2. congruence.
          -- destruct W as [<-|W]; [congruence|exact (OLD eq_refl w W)].
        * intros x o. cbn [dict_get]. destruct (pt_eqb_spec x (segments_intersection t s)) as [Q|Q]; [|apply DM].
          intros K. injection K as <-. exists t. split; [left; reflexivity|]. rewrite Q. repeat (split; [assumption||reflexivity|]). reflexivity.
    - assert (TT : ms_no_touch st = false <-> ms_no_touch st = false \/ rel t = TOUCH) by tauto.
      destruct (ms_no_cross st) eqn:NCR; cbn [andb].
      + destruct (relation_eqb_spec (rel t) CROSS) as [RC|RC].
        * apply (inv_short dn st); try assumption; try (symmetry; assumption); try reflexivity; intros _; try assumption; try discriminate. intros _.
          destruct (cross_case t M RC) as (x & q & r & H1 & H2 & H3 & H4 & H5 & H6 & H7 & H8). apply crossed_iff.
          exists x, t, t, q, r. repeat (split; [first [assumption|left; reflexivity]|]). exact H8.
        * apply (inv_short dn st); try assumption; try (symmetry; assumption); try reflexivity; intros _; try assumption; try discriminate.
          intros _ w [<-|W]; [split; [exact RC|intros K; contradiction]|exact (OLD eq_refl w W)].
      + apply (inv_short dn st); try assumption; try (symmetry; assumption); try reflexivity; intros _; try assumption; discriminate.
  Qed.

  (* The whole loop. *)
  Lemma amo_sym a b : at_most_one_common a b -> at_most_one_common b a.
  Proof using Type. intros H p q P P' Q Q'. apply H; assumption. Qed.
  Lemma loop_run subs : forall dn st, inv dn st -> (forall w, In w dn -> nondegenerate w) -> (forall w, In w subs -> nondegenerate w) ->
    (forall w t, In w dn -> In t subs -> at_most_one_common w t) -> ForallOrdPairs at_most_one_common subs ->
    ms_loop s st subs = None /\ (exists t, In t subs /\ (rel t = COMPONENT \/ rel t = EQUAL))
    \/ (forall t, In t subs -> rel t <> COMPONENT /\ rel t <> EQUAL) /\ exists st', ms_loop s st subs = Some st' /\ inv (rev subs ++ dn) st'.
  Proof using N.
    induction subs as [|t subs IH]; intros dn st I ND NS AM OP.
    - right. split; [intros t []|]. exists st. split; [reflexivity|exact I].
    - inversion OP as [|x l F OP' EX]; subst x l. rewrite Forall_forall in F.
      assert (M : nondegenerate t) by (apply NS; left; reflexivity).
      assert (H : forall w, In w dn -> nondegenerate w /\ at_most_one_common t w).
      { intros w W. split; [exact (ND w W)|]. apply amo_sym, AM; [exact W|left; reflexivity]. }
      assert (GO : (exists st', ms_step s st t = Some st' /\ inv (t :: dn) st') -> rel t <> COMPONENT /\ rel t <> EQUAL ->
        ms_loop s st (t :: subs) = None /\ (exists t0, In t0 (t :: subs) /\ (rel t0 = COMPONENT \/ rel t0 = EQUAL))
        \/ (forall t0, In t0 (t :: subs) -> rel t0 <> COMPONENT /\ rel t0 <> EQUAL) /\ exists st', ms_loop s st (t :: subs) = Some st' /\ inv (rev (t :: subs) ++ dn) st').
      { intros (st' & E & I') NR. cbn [ms_loop]. rewrite E.
        destruct (IH (t :: dn) st' I') as [(K & w & W & R)|(K & st'' & E' & I'')].
        - intros w [<-|W]; [exact M|exact (ND w W)].
        - intros w W. apply NS. right. exact W.
        - intros w u [<-|W] U; [exact (F u U)|apply AM; [exact W|right; exact U]].
        - exact OP'.
        - left. split; [exact K|]. exists w. split; [right; exact W|exact R].
        - right. split; [intros w [<-|W]; [exact NR|exact (K w W)]|]. exists st''. split; [exact E'|]. cbn [rev]. rewrite <- app_assoc. exact I''. }
      destruct (rel_cases t) as [R|[R|[R|[R|R]]]].
      + left. split; [|exists t; split; [left; reflexivity|left; exact R]]. cbn [ms_loop]. unfold ms_step, segment_relate_segment. rewrite R. reflexivity.
      + left. split; [|exists t; split; [left; reflexivity|right; exact R]]. cbn [ms_loop]. unfold ms_step, segment_relate_segment. rewrite R. reflexivity.
      + apply GO; [apply step_part; assumption|rewrite R; split; discriminate].
      + apply GO; [apply step_overlap; assumption|rewrite R; split; discriminate].
      + apply GO; [apply step_short; assumption|]. destruct R as [R|[R|R]]; rewrite R; split; discriminate.
  Qed.

  (* The smallest start and the largest end of the components. *)
  Lemma span_spec cs : forall c, let mm := ms_components_span c cs in
    In (fst mm) (map fst (c :: cs)) /\ In (snd mm) (map snd (c :: cs))
    /\ forall a b, In (a, b) (c :: cs) -> ple (fst mm) a /\ ple b (snd mm).
  Proof using Type.
    unfold ms_components_span.
    induction cs as [|[a b] cs IH]; intros [c d]; cbn [fold_left].
    - cbn [fst snd map]. split; [left; reflexivity|]. split; [left; reflexivity|].
      intros x y [E|[]]. injection E as <- <-. split; apply ple_refl.
    - cbn [fst snd].
      assert (X : ple (if pt_ltb a c then a else c) a /\ ple (if pt_ltb a c then a else c) c).
      { destruct (pt_ltb_spec a c) as [K|K]; split; try apply ple_refl; [left; exact K|apply not_plt_ple; exact K]. }
      assert (Y : ple b (if pt_ltb d b then b else d) /\ ple d (if pt_ltb d b then b else d)).
      { destruct (pt_ltb_spec d b) as [K|K]; split; try apply ple_refl; [left; exact K|apply not_plt_ple; exact K]. }
      assert (X' : (if pt_ltb a c then a else c) = a \/ (if pt_ltb a c then a else c) = c) by (destruct (pt_ltb a c); auto).
      assert (Y' : (if pt_ltb d b then b else d) = b \/ (if pt_ltb d b then b else d) = d) by (destruct (pt_ltb d b); auto).
      revert X Y X' Y'. generalize (if pt_ltb a c then a else c) as x, (if pt_ltb d b then b else d) as y. intros x y X Y X' Y'.
      destruct (IH (x, y)) as (H1 & H2 & H3). cbn [map fst snd In] in H1, H2 |- *.
      set (mm := fold_left _ cs (x, y)) in *. clearbody mm.
      destruct (H3 x y (or_introl eq_refl)) as [G1 G2].
      split; [destruct H1 as [<-|H1]; [destruct X' as [-> | ->]|]; tauto|].
      split; [destruct H2 as [<-|H2]; [destruct Y' as [-> | ->]|]; tauto|].
      intros u v [E|[E|E]].
      + injection E as <- <-. split; [exact (ple_trans _ _ _ G1 (proj2 X))|exact (ple_trans _ _ _ (proj2 Y) G2)].
      + injection E as <- <-. split; [exact (ple_trans _ _ _ G1 (proj1 X))|exact (ple_trans _ _ _ (proj1 Y) G2)].
      + apply H3. right. exact E.
  Qed.

  (* A list of components has a last one that starts at or before a position. *)
  Lemma last_before (cs : list (point * point)) x : (exists a b, In (a, b) cs /\ ps a <= x) ->
    exists a b, In (a, b) cs /\ ps a <= x /\ forall a' b', In (a', b') cs -> ps a' <= x -> ps a' <= ps a.
  Proof using Type.
    induction cs as [|[c d] cs IH]; intros (a & b & K & KX); [destruct K|].
    assert (D : (exists a b, In (a, b) cs /\ ps a <= x) \/ forall a b, In (a, b) cs -> x < ps a).
    { clear IH K KX a b. induction cs as [|[a b] cs IH]; [right; intros a b []|].
      destruct (Qclt_le_dec x (ps a)) as [Q|Q]; [|left; exists a, b; split; [left; reflexivity|exact Q]].
      destruct IH as [(a' & b' & K & KX)|K]; [left; exists a', b'; split; [right; exact K|exact KX]|].
      right. intros a' b' [E|E]; [injection E as <- <-; exact Q|exact (K a' b' E)]. }
    destruct D as [D|D].
    - destruct (IH D) as (a' & b' & K' & KX' & G). destruct (Qclt_le_dec x (ps c)) as [Q|Q].
      + exists a', b'. split; [right; exact K'|]. split; [exact KX'|]. intros u v [E|E] U; [injection E as <- <-; exfalso; qlra|exact (G u v E U)].
      + destruct (Qclt_le_dec (ps c) (ps a')) as [R|R].
        * exists a', b'. split; [right; exact K'|]. split; [exact KX'|]. intros u v [E|E] U; [injection E as <- <-; qlra|exact (G u v E U)].
        * exists c, d. split; [left; reflexivity|]. split; [exact Q|]. intros u v [E|E] U; [injection E as <- <-; qlra|]. assert (W := G u v E U). qlra.
    - destruct K as [E|K]; [injection E as -> ->|exfalso; assert (W := D a b K); qlra].
      exists a, b. split; [left; reflexivity|]. split; [exact KX|]. intros u v [E|E] U; [injection E as <- <-; qlra|exfalso; assert (W := D u v E); qlra].
  Qed.
  Lemma first_after (cs : list (point * point)) x : (exists a b, In (a, b) cs /\ x < ps a) ->
    exists a b, In (a, b) cs /\ x < ps a /\ forall a' b', In (a', b') cs -> x < ps a' -> ps a <= ps a'.
  Proof using Type.
    induction cs as [|[c d] cs IH]; intros (a & b & K & KX); [destruct K|].
    assert (D : (exists a b, In (a, b) cs /\ x < ps a) \/ forall a b, In (a, b) cs -> ps a <= x).
    { clear IH K KX a b. induction cs as [|[a b] cs IH]; [right; intros a b []|].
      destruct (Qclt_le_dec x (ps a)) as [Q|Q]; [left; exists a, b; split; [left; reflexivity|exact Q]|].
      destruct IH as [(a' & b' & K & KX)|K]; [left; exists a', b'; split; [right; exact K|exact KX]|].
      right. intros a' b' [E|E]; [injection E as <- <-; exact Q|exact (K a' b' E)]. }
    destruct D as [D|D].
    - destruct (IH D) as (a' & b' & K' & KX' & G). destruct (Qclt_le_dec x (ps c)) as [Q|Q].
      + destruct (Qclt_le_dec (ps a') (ps c)) as [R|R].
        * exists a', b'. split; [right; exact K'|]. split; [exact KX'|]. intros u v [E|E] U; [injection E as <- <-; qlra|exact (G u v E U)].
        * exists c, d. split; [left; reflexivity|]. split; [exact Q|]. intros u v [E|E] U; [injection E as <- <-; qlra|]. assert (W := G u v E U). qlra.
      + exists a', b'. split; [right; exact K'|]. split; [exact KX'|]. intros u v [E|E] U; [injection E as <- <-; exfalso; qlra|exact (G u v E U)].
    - destruct K as [E|K]; [injection E as -> ->|exfalso; assert (W := D a b K); qlra].
      exists a, b. split; [left; reflexivity|]. split; [exact KX|]. intros u v [E|E] U; [injection E as <- <-; qlra|exfalso; assert (W := D u v E); qlra].
  Qed.

  (* The condition computed at the end: no gap is left. *)
  Definition full (st : ms_state) : bool :=
    match ms_components st with
    | c :: cs => let (mn, mx) := ms_components_span c cs in
        pt_eqb mn (ms_start st) && pt_eqb mx (ms_end st)
        && forallb (fun ab => existsb (pt_eqb (snd ab)) (map fst (c :: cs)) || pt_eqb (snd ab) mx) (c :: cs)
    | [] => pt_eqb (ms_start st) (ms_end st)
    end.
  Lemma full_result st : ms_result st =
    if ms_no_overlap st then (if ms_no_touch st && ms_no_cross st then DISJOINT else if ms_no_cross st then TOUCH else CROSS)
    else if full st then (if ms_superset st then EQUAL else COMPONENT) else (if ms_superset st then COMPOSITE else OVERLAP).
  Proof using Type.
    unfold ms_result, full. destruct (ms_no_overlap st); [reflexivity|]. destruct (ms_components st) as [|c cs]; [reflexivity|].
    destruct (ms_components_span c cs). reflexivity.
  Qed.
  Lemma full_covers dn st : inv dn st -> full st = true -> forall p, in_segment s p -> cov dn p.
  Proof using N.
    intros I F p P. apply (i_cov dn st I p P). assert (P' := P). apply in_s in P'. destruct P' as (Op & P0 & P1).
    destruct (i_start dn st I) as [S1 S0]. destruct (i_end dn st I) as [E1 E0]. assert (LE := i_le dn st I). assert (C := i_comp dn st I).
    assert (LP := len_pos). unfold full in F. destruct (ms_components st) as [|c cs] eqn:EC.
    - destruct (pt_eqb_spec (ms_start st) (ms_end st)) as [E|E]; [|discriminate]. rewrite E in *.
      destruct (Qclt_le_dec (ps p) (ps (ms_end st))) as [K|K]; [left; split; qlra|].
      destruct (Qclt_le_dec (ps (ms_end st)) L) as [K'|K']; [right; left; split; qlra|left; split; qlra].
    - assert (Sp := span_spec cs c). cbv zeta in Sp. destruct (ms_components_span c cs) as [mn mx]. cbn [fst snd] in Sp.
      destruct Sp as (H1 & H2 & H3).
      rewrite !andb_true_iff in F. destruct F as [[F1 F2] F3].
      destruct (pt_eqb_spec mn (ms_start st)) as [->|]; [|discriminate]. destruct (pt_eqb_spec mx (ms_end st)) as [->|]; [|discriminate].
      rewrite forallb_forall in F3.
      destruct (Qclt_le_dec (ps p) (ps (ms_start st))) as [K|K]; [left; split; qlra|].
      destruct (Qclt_le_dec (ps (ms_end st)) (ps p)) as [K'|K']; [right; left; split; qlra|]. right. right.
      apply in_map_iff in H1. destruct H1 as ([a0 b0] & EA & H1). cbn [fst] in EA.
      destruct (last_before (c :: cs) (ps p)) as (a & b & IA & PA & G).
      { exists a0, b0. split; [exact H1|]. rewrite EA. exact K. }
      exists a, b. split; [exact IA|]. split; [exact PA|].
      destruct (Qclt_le_dec (ps b) (ps p)) as [Q|Q]; [exfalso|exact Q].
      destruct (C a b IA) as (_ & _ & _ & Cab & _).
      specialize (F3 (a, b) IA). cbn [snd] in F3. apply orb_true_iff in F3. destruct F3 as [F3|F3].
      + apply existsb_exists in F3. destruct F3 as (z & Z & EZ). destruct (pt_eqb_spec b z) as [<-|]; [|discriminate].
        apply in_map_iff in Z. destruct Z as ([a' b'] & EA' & Z). cbn [fst] in EA'.
        assert (W : ps a' <= ps a) by (apply (G a' b' Z); rewrite EA'; qlra). rewrite EA' in W. qlra.
      + destruct (pt_eqb_spec b (ms_end st)) as [EB|]; [|discriminate]. rewrite EB in Q. qlra.
  Qed.
  Lemma not_full_gap dn st : inv dn st -> full st = false -> exists u v, 0 <= u /\ u < v /\ v <= L
    /\ forall p, in_segment s p -> u < ps p -> ps p < v -> ~ cov dn p.
  Proof using N.
    intros I F. assert (V := i_cov dn st I).
    destruct (i_start dn st I) as [S1 S0]. destruct (i_end dn st I) as [E1 E0]. assert (LE := i_le dn st I). assert (C := i_comp dn st I). assert (Sep := i_sep dn st I).
    assert (GAP : forall u v, ps (ms_start st) <= u -> u < v -> v <= ps (ms_end st) ->
      (forall a b x, In (a, b) (ms_components st) -> u < x -> x < v -> ps a <= x -> x <= ps b -> False) ->
      exists u v, 0 <= u /\ u < v /\ v <= L /\ forall p, in_segment s p -> u < ps p -> ps p < v -> ~ cov dn p).
    { intros u v U1 U2 U3 G. exists u, v. split; [qlra|]. split; [exact U2|]. split; [qlra|].
      intros p P P1 P2 CV. apply (V p P) in CV. destruct CV as [[_ Q]|[[_ Q]|(a & b & K & Q1 & Q2)]]; [qlra|qlra|exact (G a b (ps p) K P1 P2 Q1 Q2)]. }
    unfold full in F. destruct (ms_components st) as [|c cs] eqn:EC.
    - destruct (pt_eqb_spec (ms_start st) (ms_end st)) as [E|E]; [discriminate|].
      apply (GAP (ps (ms_start st)) (ps (ms_end st))); try qlra; [|intros a b x []].
      destruct (q_trichotomy (ps (ms_start st)) (ps (ms_end st))) as [K|[K|K]]; [exact K| |exfalso; qlra].
      exfalso. apply E. exact (pos_inj A B _ _ lo_lt_hi S1 E1 K).
    - assert (Sp := span_spec cs c). cbv zeta in Sp. destruct (ms_components_span c cs) as [mn mx]. cbn [fst snd] in Sp.
      destruct Sp as (H1 & H2 & H3).
      apply in_map_iff in H1, H2. destruct H1 as ([a1 b1] & EA & H1). destruct H2 as ([a2 b2] & EB & H2). cbn [fst snd] in EA, EB. subst a1 b2.
      destruct (C mn b1 H1) as (Omn & _ & M1 & M2 & M3). destruct (C a2 mx H2) as (_ & Omx & X1 & X2 & X3).
      assert (LO : forall a b, In (a, b) (c :: cs) -> ps mn <= ps a).
      { intros a b K. apply (pos_ple A B mn a lo_lt_hi Omn); [apply (C a b K)|apply (H3 a b K)]. }
      assert (HI : forall a b, In (a, b) (c :: cs) -> ps b <= ps mx).
      { intros a b K. apply (pos_ple A B b mx lo_lt_hi); [apply (C a b K)|exact Omx|apply (H3 a b K)]. }
      destruct (pt_eqb_spec mn (ms_start st)) as [E|E].
      2: { apply (GAP (ps (ms_start st)) (ps mn)); try qlra.
           - destruct (q_trichotomy (ps (ms_start st)) (ps mn)) as [K|[K|K]]; [exact K| |exfalso; qlra].
             exfalso. apply E. symmetry. exact (pos_inj A B _ _ lo_lt_hi S1 Omn K).
           - intros a b x K U1 U2 U3 U4. assert (W := LO a b K). qlra. }
      destruct (pt_eqb_spec mx (ms_end st)) as [E'|E'].
      2: { apply (GAP (ps mx) (ps (ms_end st))); try qlra.
           - destruct (q_trichotomy (ps mx) (ps (ms_end st))) as [K|[K|K]]; [exact K| |exfalso; qlra].
             exfalso. apply E'. exact (pos_inj A B _ _ lo_lt_hi Omx E1 K).
           - intros a b x K U1 U2 U3 U4. assert (W := HI a b K). qlra. }
      cbn [andb] in F.
      assert (W : exists a b, In (a, b) (c :: cs) /\ existsb (pt_eqb b) (map fst (c :: cs)) = false /\ pt_eqb b mx = false).
      { revert F. generalize (map fst (c :: cs)) as st0. clear. induction (c :: cs) as [|[a b] l IH]; intros st0 F; [discriminate|].
        cbn [forallb snd] in F. apply andb_false_iff in F. destruct F as [F|F].
        - apply orb_false_iff in F. exists a, b. split; [left; reflexivity|exact F].
        - destruct (IH st0 F) as (a' & b' & K & K'). exists a', b'. split; [right; exact K|exact K']. }
      destruct W as (a & b & K & NB & NX). destruct (C a b K) as (Oa & Ob & Ca & Cab & Cb).
      destruct (pt_eqb_spec b mx) as [|NX']; [discriminate|].
      assert (NS : forall a' b', In (a', b') (c :: cs) -> ps a' <> ps b).
      { intros a' b' K' Q. assert (a' = b) by (apply (pos_inj A B _ _ lo_lt_hi); [apply (C a' b' K')|exact Ob|exact Q]). subst a'.
        assert (T : existsb (pt_eqb b) (map fst (c :: cs)) = true); [|congruence].
        apply existsb_exists. exists b. split; [apply in_map_iff; exists (b, b'); split; [reflexivity|exact K']|apply pt_eqb_refl]. }
      assert (BX : ps b < ps mx).
      { assert (W := HI a b K). destruct (q_trichotomy (ps b) (ps mx)) as [Q|[Q|Q]]; [exact Q| |exfalso; qlra].
        exfalso. apply NX'. exact (pos_inj A B _ _ lo_lt_hi Ob Omx Q). }
      destruct (first_after (c :: cs) (ps b)) as (a' & b' & K' & Q & G).
      { exists a2, mx. split; [exact H2|]. assert (NE := NS a2 mx H2).
        destruct (Sep a b a2 mx K H2) as [Q|[Q|Q]]; [injection Q as <- <-; exfalso; qlra| |exfalso; qlra].
        destruct (q_trichotomy (ps b) (ps a2)) as [Q'|[Q'|Q']]; [exact Q'|congruence|exfalso; qlra]. }
      destruct (C a' b' K') as (_ & _ & Ca' & Cab' & Cb').
      apply (GAP (ps b) (ps a')); try qlra. intros u v x KU U1 U2 U3 U4.
      assert (NE := NS u v KU).
      assert (UB : ps u < ps b).
      { destruct (q_trichotomy (ps u) (ps b)) as [Z|[Z|Z]]; [exact Z|contradiction|]. assert (Y := G u v KU Z). exfalso; qlra. }
      destruct (Sep a b u v K KU) as [Z|[Z|Z]]; [injection Z as <- <-; qlra|qlra|qlra].
  Qed.
End OneSegment.
