(* Every query gives the same answer, or fails alike, after moving and
   stretching both arguments along the axes. *)
From Coq Require Import QArith Qcanon List Bool ZArith Lia.
From Verif Require Import Scalar Base Ground MLinear MSweep MCompound Spec SpecMore SpecMoved SweepStore Moved MovedSweep.
Import ListNotations.
Open Scope Qc_scope.

Section MovedQueries.
  Variables (a b t u : Qc).
  Hypothesis (Ha : 0 < a) (Hb : 0 < b).
  Notation fm := (Moved.fm a b t u).
  Notation fs := (Moved.fs a b t u).
  Notation fe := (Moved.fe a b t u).
  Notation fc := (Moved.fc a b t u).
  Notation fb := (Moved.fb a b t u).
  Notation fp := (Moved.fp a b t u).
  Notation fms := (Moved.fms a b t u).
  Notation fmp := (Moved.fmp a b t u).
  Notation mq := (MovedSweep.mq a b t u).
  Notation g := (gx a t).
  Ltac f_ := rewrite ?fp_border, ?fp_holes, ?fmp_polygons, ?(f_contour_box a b t u Ha Hb), ?(f_contours_box a b t u Ha Hb), ?(f_polygon_box a b t u Ha Hb), ?(f_polygons_box a b t u Ha Hb), ?(f_segments_box a b t u Ha Hb), ?(f_oriented a b t u Ha Hb), ?(f_regions_edges a b t u Ha Hb), ?(f_polygon_edges a b t u Ha Hb), ?(f_polygons_edges a b t u Ha Hb), ?(f_equal_contours a b t u Ha Hb), ?(f_ends a b t u), ?(f_edges a b t u), ?(f_disjoint a b t u Ha Hb).
  Ltac go := repeat (f_; rewrite ?bind_map; apply bind_ext; intros ?); f_.
  Lemma f_segs m : segments (fms m) = map fs (segments m). Proof using Type. reflexivity. Qed.
  Lemma two_runs ge te x : mq (register (register q_empty ge x) te (negb x)) = register (register q_empty (map fe ge) x) (map fe te) (negb x) /\ okm (register (register q_empty ge x) te (negb x)).
  Proof using Ha Hb.
    destruct (m_register a b t u Ha Hb ge x q_empty okm_empty) as [E K]. destruct (m_register a b t u Ha Hb te (negb x) _ K) as [E' K']. split; [|exact K'].
    rewrite <- E', <- E, mq_empty. reflexivity.
  Qed.
  Lemma min_g x y : qmin (g x) (g y) = g (qmin x y). Proof using Ha Hb. apply (gx_min a b t Ha Hb). Qed.
  Lemma fb_max x : max_x (fb x) = g (max_x x). Proof using Type. reflexivity. Qed.
  Lemma run_open_m ge te x y : a = b -> run_open (register (register q_empty (map fe ge) false) (map fe te) true) (qmin (max_x (fb x)) (max_x (fb y))) = run_open (register (register q_empty ge false) te true) (qmin (max_x x) (max_x y)).
  Proof using Ha Hb. intros E. destruct (two_runs ge te false) as [Q K]. cbn [negb] in *. rewrite <- Q, !fb_max, min_g. apply m_run_open; assumption. Qed.
  Lemma run_closed_m ge te x y : run_closed (register (register q_empty (map fe ge) false) (map fe te) true) (qmin (max_x (fb x)) (max_x (fb y))) = run_closed (register (register q_empty ge false) te true) (qmin (max_x x) (max_x y)).
  Proof using Ha Hb. destruct (two_runs ge te false) as [Q K]. cbn [negb] in *. rewrite <- Q, !fb_max, min_g. apply m_run_closed; assumption. Qed.
  Lemma run_lc_m ge te x y : run_linear_compound (register (register q_empty (map fe ge) false) (map fe te) true) (qmin (max_x (fb x)) (max_x (fb y))) = run_linear_compound (register (register q_empty ge false) te true) (qmin (max_x x) (max_x y)).
  Proof using Ha Hb. destruct (two_runs ge te false) as [Q K]. cbn [negb] in *. rewrite <- Q, !fb_max, min_g. apply m_run_lc; assumption. Qed.
  Lemma run_compound_m ge te x y : run_compound (register (register q_empty (map fe ge) false) (map fe te) true) (qmin (max_x (fb x)) (max_x (fb y))) = run_compound (register (register q_empty ge false) te true) (qmin (max_x x) (max_x y)).
  Proof using Ha Hb. destruct (two_runs ge te false) as [Q K]. cbn [negb] in *. rewrite <- Q, !fb_max, min_g. apply m_run_compound; assumption. Qed.
  Ltac dis := match goal with |- (if ?c then _ else _) = _ => destruct c; [reflexivity|] end.

  (** * Multisegments, contours, regions *)
  Lemma q_ms_ms m m' : a = b -> multisegment_relate_multisegment (fms m) (fms m') = multisegment_relate_multisegment m m'.
  Proof using Ha Hb. intros E. unfold multisegment_relate_multisegment. rewrite !f_segs. go. dis. cbv zeta. f_. apply run_open_m, E. Qed.
  Lemma q_c_ms c m : a = b -> contour_relate_multisegment (fc c) (fms m) = contour_relate_multisegment c m.
  Proof using Ha Hb. intros E. unfold contour_relate_multisegment. rewrite !f_segs. go. dis. cbv zeta. f_. apply run_open_m, E. Qed.
  Lemma q_c_c c c' : contour_relate_contour (fc c) (fc c') = contour_relate_contour c c'.
  Proof using Ha Hb. unfold contour_relate_contour. go. dis. go. dis. go. apply run_closed_m. Qed.
  Lemma q_r_ms r m : region_relate_multisegment (fc r) (fms m) = region_relate_multisegment r m.
  Proof using Ha Hb. unfold region_relate_multisegment. rewrite !f_segs. go. dis. go. apply run_lc_m. Qed.
  Lemma q_r_c_ r c x : region_relate_contour_ (fc r) (fc c) (fb x) = region_relate_contour_ r c x.
  Proof using Ha Hb. unfold region_relate_contour_. go. dis. go. dis. go. apply run_lc_m. Qed.
  Lemma q_r_c r c : region_relate_contour (fc r) (fc c) = region_relate_contour r c.
  Proof using Ha Hb. unfold region_relate_contour. go. apply q_r_c_. Qed.
  Lemma q_r_r_ r r' x y : region_relate_region_ (fc r) (fc r') (fb x) (fb y) = region_relate_region_ r r' x y.
  Proof using Ha Hb. unfold region_relate_region_. f_. dis. go. dis. go. apply run_compound_m. Qed.
  Lemma q_r_r r r' : region_relate_region (fc r) (fc r') = region_relate_region r r'.
  Proof using Ha Hb. unfold region_relate_region. go. apply q_r_r_. Qed.

  (** * Collections *)
  Definition macc (o : option (Qc * qstate)) : option (Qc * qstate) := match o with None => None | Some (x, q) => Some (g x, mq q) end.
  Definition okacc (o : option (Qc * qstate)) : Prop := match o with None => True | Some (_, q) => okm q end.
  Lemma m_gather {A} (f : A -> A) pb pe x te te' parts :
    (forall p, pb (f p) = map_res fb (pb p)) -> (forall p, pe (f p) = map_res (map fe) (pe p)) -> te' = map_res (map fe) te -> forall nd acc, okacc acc ->
    gather pb pe (fb x) te' (map f parts) nd (macc acc) = map_res (fun r => (fst r, macc (snd r))) (gather pb pe x te parts nd acc) /\
    (forall r, gather pb pe x te parts nd acc = Ok r -> okacc (snd r)).
  Proof using Ha Hb.
    intros Hpb Hpe ->. induction parts as [|p parts IH]; intros nd acc K; [split; [reflexivity|intros r Q; injection Q as <-; exact K]|]. cbn [map gather]. rewrite Hpb, bind_map.
    destruct (pb p) as [y|ex]; [|split; [reflexivity|discriminate]]. cbn [bind]. rewrite (f_disjoint a b t u Ha Hb). destruct (disjoint_with y x); [apply IH; exact K|].
    assert (X : forall mx q, okm q ->
      (do e <- pe (f p); gather pb pe (fb x) (map_res (map fe) te) (map f parts) nd (Some (g mx, register (mq q) e false))) =
        map_res (fun r => (fst r, macc (snd r))) (do e <- pe p; gather pb pe x te parts nd (Some (mx, register q e false))) /\
      (forall r, (do e <- pe p; gather pb pe x te parts nd (Some (mx, register q e false))) = Ok r -> okacc (snd r))).
    { intros mx q Kq. rewrite Hpe, bind_map. destruct (pe p) as [e|ex]; [|split; [reflexivity|discriminate]]. cbn [bind]. destruct (m_register a b t u Ha Hb e false q Kq) as [Q Kr]. rewrite Q. apply (IH nd (Some (mx, register q e false))). exact Kr. }
    destruct acc as [[mx q]|]; cbn [macc bind fst snd].
    - rewrite fb_max, (gx_max a b t Ha Hb). apply X, K.
    - destruct te as [e|ex]; [|split; [reflexivity|discriminate]]. cbn [map_res bind fst snd]. destruct (m_register a b t u Ha Hb e true q_empty okm_empty) as [Q Kr]. rewrite mq_empty in Q. rewrite Q, fb_max. apply X, Kr.
  Qed.
  Lemma gather_run {A} (f : A -> A) pb pe x te te' parts (k k' : bool * option (Qc * qstate) -> res relation) :
    (forall p, pb (f p) = map_res fb (pb p)) -> (forall p, pe (f p) = map_res (map fe) (pe p)) -> te' = map_res (map fe) te ->
    (forall nd acc, okacc acc -> k' (nd, macc acc) = k (nd, acc)) ->
    bind (gather pb pe (fb x) te' (map f parts) true None) k' = bind (gather pb pe x te parts true None) k.
  Proof using Ha Hb.
    intros H1 H2 H3 Hk. destruct (m_gather f pb pe x te te' parts H1 H2 H3 true None I) as [E K]. cbn [macc] in E. rewrite E. destruct (gather pb pe x te parts true None) as [[nd acc]|ex]; [|reflexivity]. cbn [map_res bind fst snd]. apply Hk, (K (nd, acc)). reflexivity.
  Qed.
  Tactic Notation "gat" constr(f) := apply (gather_run f); [intros ?; f_; reflexivity|intros ?; f_; reflexivity|f_; reflexivity|];
    intros nd [[mx q]|] K; cbn [macc snd fst]; [|reflexivity]; cbn [okacc] in K; rewrite fb_max, min_g.
  Lemma q_mr_ms_ rs m x : multiregion_relate_multisegment_ (map fc rs) (fms m) (fb x) = multiregion_relate_multisegment_ rs m x.
  Proof using Ha Hb. unfold multiregion_relate_multisegment_. gat (Moved.fc a b t u). apply m_run_lc; assumption. Qed.
  Lemma q_mr_s rs s : multiregion_relate_segment (map fc rs) (fs s) = multiregion_relate_segment rs s.
  Proof using Ha Hb. unfold multiregion_relate_segment. rewrite (f_segment_box a b t u Ha Hb). apply (q_mr_ms_ rs (MSeg [s])). Qed.
  Lemma q_mr_ms rs m : multiregion_relate_multisegment (map fc rs) (fms m) = multiregion_relate_multisegment rs m.
  Proof using Ha Hb. unfold multiregion_relate_multisegment. rewrite f_segs. go. apply q_mr_ms_. Qed.
  Lemma q_mr_c_ rs c x : multiregion_relate_contour_ (map fc rs) (fc c) (fb x) = multiregion_relate_contour_ rs c x.
  Proof using Ha Hb. unfold multiregion_relate_contour_. gat (Moved.fc a b t u). apply m_run_lc; assumption. Qed.
  Lemma q_mr_c rs c : multiregion_relate_contour (map fc rs) (fc c) = multiregion_relate_contour rs c.
  Proof using Ha Hb. unfold multiregion_relate_contour. go. apply q_mr_c_. Qed.
  Lemma q_mr_r_ rs r x : multiregion_relate_region_ (map fc rs) (fc r) (fb x) = multiregion_relate_region_ rs r x.
  Proof using Ha Hb. unfold multiregion_relate_region_. gat (Moved.fc a b t u). rewrite m_run_compound by assumption. reflexivity. Qed.
  Lemma q_mr_r rs r : multiregion_relate_region (map fc rs) (fc r) = multiregion_relate_region rs r.
  Proof using Ha Hb. unfold multiregion_relate_region. go. apply q_mr_r_. Qed.
  Lemma q_mr_mr rs rs' : multiregion_relate_multiregion (map fc rs) (map fc rs') = multiregion_relate_multiregion rs rs'.
  Proof using Ha Hb. unfold multiregion_relate_multiregion. go. dis. go. apply run_compound_m. Qed.

  (** * Polygons *)
  Lemma nonempty_map {A B} (h : A -> B) l : nonempty (map h l) = nonempty l. Proof using Type. destruct l; reflexivity. Qed.
  Lemma q_p_s pg s : polygon_relate_segment (fp pg) (fs s) = polygon_relate_segment pg s.
  Proof using Ha Hb. unfold polygon_relate_segment. f_. rewrite nonempty_map, (f_region_segment a b t u Ha Hb). apply bind_ext; intros r. rewrite q_mr_s. reflexivity. Qed.
  Lemma q_p_ms pg m : polygon_relate_multisegment (fp pg) (fms m) = polygon_relate_multisegment pg m.
  Proof using Ha Hb. unfold polygon_relate_multisegment. rewrite f_segs. go. dis. go. apply run_lc_m. Qed.
  Lemma q_p_c pg c : polygon_relate_contour (fp pg) (fc c) = polygon_relate_contour pg c.
  Proof using Ha Hb. unfold polygon_relate_contour. f_. rewrite bind_map. apply bind_ext; intros x. rewrite nonempty_map, q_r_c_. apply bind_ext; intros r. rewrite q_mr_c_. reflexivity. Qed.
  Lemma q_p_r pg r : polygon_relate_region (fp pg) (fc r) = polygon_relate_region pg r.
  Proof using Ha Hb. unfold polygon_relate_region. f_. rewrite bind_map. apply bind_ext; intros x. rewrite bind_map. apply bind_ext; intros y. rewrite nonempty_map, q_r_r_. apply bind_ext; intros rel. rewrite q_mr_r_. reflexivity. Qed.
  Definition msum (r : relation + (bool * list contour)) : relation + (bool * list contour) := match r with inl x => inl x | inr (n, l) => inr (n, map fc l) end.
  Lemma m_mr_loop bd bb rs : forall nt sub, polygon_multiregion_loop (fc bd) (fb bb) (map fc rs) nt (map fc sub) = map_res msum (polygon_multiregion_loop bd bb rs nt sub).
  Proof using Ha Hb.
    induction rs as [|r rs IH]; intros nt sub; [reflexivity|]. cbn [map polygon_multiregion_loop]. f_. rewrite bind_map. destruct (contour_box r) as [rb|ex]; [|reflexivity]. cbn [bind]. rewrite q_r_r_. destruct (region_relate_region_ bd r bb rb) as [rel|ex]; [|reflexivity]. cbn [bind].
    destruct (relation_eqb rel TOUCH); [apply IH|]. destruct (rel_in rel _); [reflexivity|]. destruct (_ || _); [reflexivity|]. destruct (negb _); [|apply IH]. rewrite <- IH, map_app. reflexivity.
  Qed.
  Lemma q_p_mr pg rs : polygon_relate_multiregion (fp pg) (map fc rs) = polygon_relate_multiregion pg rs.
  Proof using Ha Hb.
    unfold polygon_relate_multiregion. f_. rewrite bind_map. apply bind_ext; intros bb. rewrite nonempty_map. destruct (negb _); [rewrite q_mr_r_; reflexivity|].
    change (@nil region) with (map fc []) at 1. rewrite m_mr_loop, bind_map. apply bind_ext; intros [r|[nt sub]]; [reflexivity|]. destruct sub as [|s sub]; [reflexivity|]. cbn [msum map]. cbv zeta. rewrite !map_length. cbn [length]. rewrite !map_length.
    assert (E : (if Nat.eqb (S (length sub)) (length rs) then map fc rs else fc s :: map fc sub) = map fc (if Nat.eqb (S (length sub)) (length rs) then rs else s :: sub)) by (destruct (Nat.eqb _ _); reflexivity).
    unfold multiregion, region in *. rewrite E, q_mr_mr. reflexivity.
  Qed.
  Lemma m_h_loop bd bb rs : forall nt sub, polygon_holes_loop (fc bd) (fb bb) (map fc rs) nt (map fc sub) = map_res msum (polygon_holes_loop bd bb rs nt sub).
  Proof using Ha Hb.
    induction rs as [|r rs IH]; intros nt sub; [reflexivity|]. cbn [map polygon_holes_loop]. f_. rewrite bind_map. destruct (contour_box r) as [rb|ex]; [|reflexivity]. cbn [bind]. rewrite q_r_r_. destruct (region_relate_region_ bd r bb rb) as [rel|ex]; [|reflexivity]. cbn [bind].
    destruct (relation_eqb rel TOUCH); [apply IH|]. destruct (relation_eqb rel OVERLAP); [reflexivity|]. destruct (relation_eqb rel COVER); [reflexivity|]. destruct (rel_in rel _); [reflexivity|]. destruct (negb _); [|apply IH]. rewrite <- IH, map_app. reflexivity.
  Qed.
  Lemma m_h_result br st wk bd bb oh ih : polygon_holes_result br st wk (fc bd) (fb bb) (map fc oh) (map fc ih) = polygon_holes_result br st wk bd bb oh ih.
  Proof using Ha Hb.
    unfold polygon_holes_result. change (@nil contour) with (map fc []) at 1. rewrite m_h_loop, bind_map. apply bind_ext; intros [r|[nt sub]]; [reflexivity|]. destruct sub as [|s sub]; [reflexivity|]. cbn [msum map]. rewrite nonempty_map. cbn [length]. rewrite !map_length.
    assert (E : (if Nat.eqb (S (length sub)) (length oh) then map fc oh else fc s :: map fc sub) = map fc (if Nat.eqb (S (length sub)) (length oh) then oh else s :: sub)) by (destruct (Nat.eqb _ _); reflexivity).
    unfold multiregion, region in *. rewrite E, q_mr_mr. reflexivity.
  Qed.
  Lemma q_p_p pg pg' : polygon_relate_polygon (fp pg) (fp pg') = polygon_relate_polygon pg pg'.
  Proof using Ha Hb.
    unfold polygon_relate_polygon. f_. rewrite bind_map. apply bind_ext; intros x. rewrite bind_map. apply bind_ext; intros y. rewrite !nonempty_map, q_r_r_. apply bind_ext; intros br. rewrite q_mr_mr, !m_h_result. reflexivity.
  Qed.

  (** * Multipolygons *)
  Lemma q_mp_ms mp m : multipolygon_relate_multisegment (fmp mp) (fms m) = multipolygon_relate_multisegment mp m.
  Proof using Ha Hb. unfold multipolygon_relate_multisegment. rewrite f_segs. f_. rewrite bind_map. apply bind_ext; intros x. gat (Moved.fp a b t u). apply m_run_lc; assumption. Qed.
  Lemma q_mp_s mp s : multipolygon_relate_segment (fmp mp) (fs s) = multipolygon_relate_segment mp s.
  Proof using Ha Hb. apply (q_mp_ms mp (MSeg [s])). Qed.
  Lemma q_mp_c mp c : multipolygon_relate_contour (fmp mp) (fc c) = multipolygon_relate_contour mp c.
  Proof using Ha Hb. unfold multipolygon_relate_contour. f_. rewrite bind_map. apply bind_ext; intros x. gat (Moved.fp a b t u). apply m_run_lc; assumption. Qed.
  Lemma q_mp_r mp r : multipolygon_relate_region (fmp mp) (fc r) = multipolygon_relate_region mp r.
  Proof using Ha Hb. unfold multipolygon_relate_region. f_. rewrite bind_map. apply bind_ext; intros x. gat (Moved.fp a b t u). rewrite m_run_compound by assumption. reflexivity. Qed.
  Lemma q_mp_mr mp rs : multipolygon_relate_multiregion (fmp mp) (map fc rs) = multipolygon_relate_multiregion mp rs.
  Proof using Ha Hb. unfold multipolygon_relate_multiregion. go. dis. go. apply run_compound_m. Qed.
  Lemma q_mp_p mp pg : multipolygon_relate_polygon (fmp mp) (fp pg) = multipolygon_relate_polygon mp pg.
  Proof using Ha Hb. unfold multipolygon_relate_polygon. f_. rewrite bind_map. apply bind_ext; intros x. gat (Moved.fp a b t u). rewrite m_run_compound by assumption. reflexivity. Qed.
  Lemma q_mp_mp mp mp' : multipolygon_relate_multipolygon (fmp mp) (fmp mp') = multipolygon_relate_multipolygon mp mp'.
  Proof using Ha Hb. unfold multipolygon_relate_multipolygon. go. apply run_compound_m. Qed.
End MovedQueries.
