(* Queries over any correct containers answer what the queries over lists answer. *)
From Coq Require Import QArith Qcanon List Bool ZArith Lia Permutation.
From Verif Require Import Scalar Base Ground MLinear MSweep MCompound Planar Spec Geom RayParity SegProofs
  SweepStore SweepDetect SweepSteps Termination SweepSafe SweepTime SweepOrder SweepMoves SweepAdvance SweepLoop SweepEmit SweepRun
  NoFail MContainers SpecContainers QueueOrder AnyDetect AnySweep.
Import ListNotations.
Open Scope Qc_scope.

Section AnyRun.
  Variable (Q : pq_impl) (T : set_impl) (KQ : pq_correct Q) (KT : set_correct T).
  Notation sim := (sim Q KQ).

  (** * Registration *)
  Lemma init_okq inp : items_ok inp -> apart inp -> okq inp (init_state inp).
  Proof using Type.
    intros IO AP. split; [apply init_pieces, IO|]. split; [apply init_partitioned, apart_nodup; assumption|apply init_queue].
  Qed.
  Lemma sim_empty : sim (c_empty Q) q_empty.
  Proof using Type. split; [reflexivity|]. apply (pqc_empty _ KQ). Qed.
  Lemma items_ok_pre a b : items_ok (a ++ b) -> items_ok a.
  Proof using Type. intros H x I. apply H, in_app_iff. left. exact I. Qed.
  Lemma apart_pre a b : apart (a ++ b) -> apart a.
  Proof using Type. intros H. apply fop_app in H. apply H. Qed.
  Lemma init_keeps inp x e : valid_ref (q_store (init_state inp)) e ->
    let s := q_store (init_state inp) in let s' := q_store (init_state (inp ++ [x])) in
    valid_ref s' e /\ estart s' e = estart s e /\ ekey s' e = ekey s e.
  Proof using Type.
    intros V s s'. unfold s, s'. clear s s'. destruct e as [i|i]; cbn [valid_ref estart] in *; unfold ekey; cbn [left_of];
      rewrite ?init_nl, ?init_nr in V.
    - assert (V' : (i < length (inp ++ [x]))%nat) by (rewrite app_length; lia). rewrite init_nl. split; [exact V'|].
      rewrite !init_lstart, !init_orig by assumption. rewrite app_nth1 by exact V. auto.
    - assert (V' : (i < length (inp ++ [x]))%nat) by (rewrite app_length; lia). rewrite init_nr. split; [exact V'|].
      rewrite !init_gr by assumption. cbn [r_left r_start]. rewrite !init_orig by assumption. rewrite app_nth1 by exact V. auto.
  Qed.
  Lemma sim_register ft ends : forall inp g, items_ok (inp ++ map (item_of ft) ends) -> apart (inp ++ map (item_of ft) ends) ->
    sim g (init_state inp) -> sim (c_register Q g ends ft) (init_state (inp ++ map (item_of ft) ends)).
  Proof using Type.
    unfold c_register. induction ends as [|e l IH]; intros inp g IO AP S.
    - cbn [map fold_left]. rewrite app_nil_r. exact S.
    - cbn [map fold_left] in *. replace (inp ++ item_of ft e :: map (item_of ft) l) with ((inp ++ [item_of ft e]) ++ map (item_of ft) l) in *
        by (rewrite <- app_assoc; reflexivity).
      apply IH; [exact IO|exact AP|]. clear IH.
      pose proof (items_ok_pre _ _ IO) as IO'. pose proof (apart_pre _ _ AP) as AP'.
      pose proof (init_okq _ IO' AP') as Ok'. pose proof (register_init inp [e] ft) as R. cbn [map register fold_left] in R.
      pose proof (fun f => init_keeps inp (item_of ft e) f) as KP. cbv zeta in KP.
      destruct S as [E H]. rewrite E. rewrite <- R in Ok', KP |- *.
      destruct (from_endpoints (q_store (init_state inp)) e ft) as [[s' i] j].
      cbn [q_store q_queue] in *. split; [reflexivity|]. cbn [c_heap q_store q_queue].
      apply (push2 Q KQ (inp ++ [item_of ft e]) IO' AP' (queue_lt (q_store (init_state inp)))); [exact Ok'|exact H|].
      intros x y Ix Iy _. apply (qo_valid _ (init_queue inp)) in Ix, Iy.
      destruct (KP x Ix) as (A1 & A2 & A3), (KP y Iy) as (B1 & B2 & B3).
      apply (queue_lt_keep inp (inp ++ [item_of ft e])); try assumption.
      + exact (items_ok_pre _ _ IO'). + apply init_pieces. exact (items_ok_pre _ _ IO'). + apply Ok'.
  Qed.

  (** * Sweeps *)
  Lemma run_same {A} f (acc : A) fin linear inp g stop : items_ok inp -> apart inp -> sim g (init_state inp) ->
    c_process Q f acc fin (c_sweep Q T linear (c_fuel Q g) stop g)
    = process f acc fin (sweep linear (sweep_fuel (init_state inp)) stop (init_state inp)).
  Proof using KT.
    intros IO AP S. pose proof (init_okq inp IO AP) as Okq.
    assert (Fu : c_fuel Q g = sweep_fuel (init_state inp)) by (unfold c_fuel, sweep_fuel; rewrite (proj1 S); reflexivity).
    rewrite Fu. pose proof (sweep_returns inp linear stop IO AP) as (q' & Rt).
    assert (X : exists g', c_sweep Q T linear (sweep_fuel (init_state inp)) stop g
        = (fst (sweep linear (sweep_fuel (init_state inp)) stop (init_state inp)), Ok g') /\ sim g' q' /\ okq inp q').
    { clear Fu. generalize (sweep_fuel (init_state inp)) Rt. intros fuel Rt'. clear Rt.
      destruct (sweep linear fuel stop (init_state inp)) as [outs r] eqn:Sw. cbn [fst snd] in *. subst r.
      unfold c_sweep. unfold sweep in Sw. rewrite (sim_peek Q KQ inp IO AP g _ S Okq). rewrite (proj1 S).
      destruct (ordered_exists (candidates inp)) as [eps O].
      destruct (q_peek (q_store (init_state inp)) (q_queue (init_state inp))) as [e|] eqn:Pk.
      - exact (sim_loop Q T KQ KT eps inp O IO AP linear stop fuel _ _ [] [] g (set_empty T) outs q'
                 (stage_init eps inp O IO AP e Pk) (group_init inp _) S (sc_empty _ KT) Sw).
      - destruct fuel as [|fuel]; [discriminate|]. cbn [sw_loop sw_q sw_same c_loop cs_q cs_same] in Sw |- *.
        rewrite (sim_peek Q KQ inp IO AP g _ S Okq), (proj1 S). rewrite Pk in *.
        assert (Ei : inp = []) by (destruct inp; [reflexivity|discriminate]).
        assert (Dc : forall s, detect_crossing_angles s [] = s) by reflexivity. rewrite Dc in *.
        replace (if linear then q_store (init_state inp) else q_store (init_state inp)) with (q_store (init_state inp)) in * by (destruct linear; reflexivity).
        cbn [complete_events_relations] in *. injection Sw as <- <-. eexists. split; [reflexivity|]. split; [|exact Okq].
        split; [reflexivity|]. exact (proj2 S). }
    destruct X as (g' & Ec & Sg & Ok'). rewrite Ec.
    destruct (sweep linear (sweep_fuel (init_state inp)) stop (init_state inp)) as [outs r]. cbn [fst snd] in *. subst r.
    unfold c_process, process. destruct (consume f acc outs); [reflexivity|]. cbn [bind]. f_equal. f_equal.
    unfold c_queue_rest, queue_rest. rewrite (sim_peek Q KQ inp IO AP g' q' Sg Ok'), (proj1 Sg). reflexivity.
  Qed.
  Lemma sim_two a b fa fb : items_ok (map (item_of fa) a ++ map (item_of fb) b) -> apart (map (item_of fa) a ++ map (item_of fb) b) ->
    sim (c_register Q (c_register Q (c_empty Q) a fa) b fb) (init_state (map (item_of fa) a ++ map (item_of fb) b)).
  Proof using Type.
    intros IO AP. apply sim_register; [exact IO|exact AP|].
    apply (sim_register fa a [] (c_empty Q)); [exact (items_ok_pre _ _ IO)|exact (apart_pre _ _ AP)|exact sim_empty].
  Qed.
  Lemma two_same {A} f (acc : A) fin linear a b stop : tidy a -> tidy b ->
    let q := register (register q_empty a false) b true in let g := c_register Q (c_register Q (c_empty Q) a false) b true in
    c_process Q f acc fin (c_sweep Q T linear (c_fuel Q g) stop g) = process f acc fin (sweep linear (sweep_fuel q) stop q).
  Proof using KT KQ.
    intros [Na Ca] [Nb Cb] q g. unfold q. rewrite registered.
    assert (IO : items_ok (map (item_of false) a ++ map (item_of true) b)) by (apply items_ok_app; apply items_ok_of; assumption).
    pose proof (apart_two a b Ca Cb) as AP. apply run_same; [exact IO|exact AP|]. apply sim_two; assumption.
  Qed.

  (** * Queries *)
  Lemma bind_same {A B} (r : res A) (k' k : A -> res B) : (forall x, r = Ok x -> k' x = k x) -> bind r k' = bind r k.
  Proof using Type. intros H. destruct r as [x|]; [apply H; reflexivity|reflexivity]. Qed.
  Lemma given {A} (W : A -> Prop) r x : gives W r -> r = Ok x -> W x.
  Proof using Type. intros (y & E & H) K. rewrite K in E. injection E as <-. exact H. Qed.

  Ltac go :=
    cbv zeta;
    repeat first
      [ reflexivity
      | match goal with |- bind ?r _ = bind ?r _ => apply bind_same; intros ? ? end
      | match goal with |- (if ?c then _ else _) = (if ?c then _ else _) => destruct c end
      | match goal with |- c_run_open _ _ _ _ = _ => unfold c_run_open, run_open; apply two_same
                      | |- c_run_closed _ _ _ _ = _ => unfold c_run_closed, run_closed; apply two_same
                      | |- c_run_linear_compound _ _ _ _ = _ => unfold c_run_linear_compound, run_linear_compound; apply two_same
                      | |- c_run_compound _ _ _ _ = _ => unfold c_run_compound, run_compound; apply two_same end ].
  Ltac tid :=
    first [ assumption | apply edges_tidy; assumption
          | match goal with
            | H : to_oriented_edges_endpoints ?c ?b = Ok ?x |- tidy ?x => apply (given _ _ _ (oriented_gives c b ltac:(assumption)) H)
            | H : multiregion_oriented_edges ?c ?b = Ok ?x |- tidy ?x => apply (given _ _ _ (multiregion_gives c b ltac:(assumption)) H)
            | H : polygon_oriented_edges ?c ?b = Ok ?x |- tidy ?x => apply (given _ _ _ (polygon_gives c b ltac:(assumption)) H)
            | H : polygons_oriented_edges ?c ?b = Ok ?x |- tidy ?x => apply (given _ _ _ (polygons_gives c b ltac:(assumption)) H)
            end ].
  Lemma ms_ms_same g t : good_ms g -> good_ms t ->
    c_multisegment_relate_multisegment Q T g t = multisegment_relate_multisegment g t.
  Proof using KQ KT. intros [G1 G2] [T1 T2]. unfold c_multisegment_relate_multisegment, multisegment_relate_multisegment. go; tid. Qed.
  Lemma c_ms_same c m : simple_contour c -> good_ms m -> c_contour_relate_multisegment Q T c m = contour_relate_multisegment c m.
  Proof using KQ KT. intros C [T1 T2]. unfold c_contour_relate_multisegment, contour_relate_multisegment. go; tid. Qed.
  Lemma c_c_same g t : simple_contour g -> simple_contour t -> c_contour_relate_contour Q T g t = contour_relate_contour g t.
  Proof using KQ KT. intros G H. unfold c_contour_relate_contour, contour_relate_contour. go; tid. Qed.
  Lemma r_ms_same r m : simple_contour r -> good_ms m -> c_region_relate_multisegment Q T r m = region_relate_multisegment r m.
  Proof using KQ KT. intros G [T1 T2]. unfold c_region_relate_multisegment, region_relate_multisegment. go; tid. Qed.
  Lemma r_c_same_ r c cb : simple_contour r -> simple_contour c -> c_region_relate_contour_ Q T r c cb = region_relate_contour_ r c cb.
  Proof using KQ KT. intros G H. unfold c_region_relate_contour_, region_relate_contour_. go; tid. Qed.
  Lemma r_c_same r c : simple_contour r -> simple_contour c -> c_region_relate_contour Q T r c = region_relate_contour r c.
  Proof using KQ KT. intros G H. unfold c_region_relate_contour, region_relate_contour. go. apply r_c_same_; assumption. Qed.
  Lemma r_r_same_ g t gb tb : simple_contour g -> simple_contour t -> c_region_relate_region_ Q T g t gb tb = region_relate_region_ g t gb tb.
  Proof using KQ KT. intros G H. unfold c_region_relate_region_, region_relate_region_. go; tid. Qed.
  Lemma r_r_same r c : simple_contour r -> simple_contour c -> c_region_relate_region Q T r c = region_relate_region r c.
  Proof using KQ KT. intros G H. unfold c_region_relate_region, region_relate_region. go. apply r_r_same_; assumption. Qed.

  (** ** Gathering *)
  Definition sim_acc (o' : option (Qc * cstate Q)) (o : option (Qc * qstate)) : Prop :=
    match o', o with
    | None, None => True
    | Some (mx', g), Some (mx, q) => mx' = mx /\ exists inp, q = init_state inp /\ items_ok inp /\ apart inp /\ sim g q
    | _, _ => False
    end.
  Lemma gather_same {A} pbox pedges (W : A -> A -> Prop) (V : A -> Prop) tb te parts :
    gives tidy te ->
    (forall a, V a -> returns (pbox a)) ->
    (forall a, V a -> gives tidy (pedges a)) ->
    (forall a b la lb, W a b -> pedges a = Ok la -> pedges b = Ok lb -> forall x y, In x la -> In y lb -> seg_apart x y) ->
    Forall V parts -> ForallOrdPairs W parts ->
    exists r' r, c_gather Q pbox pedges tb te parts true None = Ok r' /\ gather pbox pedges tb te parts true None = Ok r
      /\ fst r' = fst r /\ sim_acc (snd r') (snd r).
  Proof using Type.
    intros (tl & -> & [Nt Ct]) Hb He Hw.
    assert (G : forall parts nd acc acc' g, Forall V parts -> ForallOrdPairs W parts -> tidy g ->
      (forall a la, In a parts -> pedges a = Ok la -> forall x y, In x g -> In y la -> seg_apart x y) ->
      clean_queue acc tl g -> sim_acc acc' acc ->
      exists r' r, c_gather Q pbox pedges tb (Ok tl) parts nd acc' = Ok r' /\ gather pbox pedges tb (Ok tl) parts nd acc = Ok r
        /\ fst r' = fst r /\ sim_acc (snd r') (snd r)).
    { clear parts. induction parts as [|a parts IH]; intros nd acc acc' g Hv Ho Tg Hg Ca Sa; cbn [gather c_gather].
      - eexists _, _. split; [reflexivity|]. split; [reflexivity|]. split; [reflexivity|exact Sa].
      - inversion Hv as [|? ? Va Hv']; subst. inversion Ho as [|? ? Wa Ho']; subst.
        destruct (Hb a Va) as (bx & ->). cbn [bind].
        destruct (disjoint_with bx tb).
        + apply (IH _ _ _ g); try assumption. intros b lb Ib. apply (Hg b lb). right; exact Ib.
        + destruct (He a Va) as (e & E & [Ne Ce]). destruct Tg as [Ng Cg].
          assert (Cge : clean (g ++ e)).
          { apply fop_app. split; [exact Cg|]. split; [exact Ce|]. apply (Hg a e); [left; reflexivity|exact E]. }
          assert (IO : items_ok (map (item_of true) tl ++ map (item_of false) (g ++ e)))
            by (apply items_ok_app; apply items_ok_of; [exact Nt|apply no_loops_app; assumption]).
          assert (AP : apart (map (item_of true) tl ++ map (item_of false) (g ++ e))) by (apply apart_two'; assumption).
          rewrite map_app, app_assoc in IO, AP.
          assert (X : exists st' st, match acc' with
                   | None => Ok (max_x bx, c_register Q (c_empty Q) tl true)
                   | Some (mx, q) => Ok (qmax mx (max_x bx), q)
                   end = Ok st' /\
                   match acc with
                   | None => Ok (max_x bx, register q_empty tl true)
                   | Some (mx, q) => Ok (qmax mx (max_x bx), q)
                   end = Ok st /\ fst st' = fst st /\ snd st = init_state (map (item_of true) tl ++ map (item_of false) g) /\ sim (snd st') (snd st)).
          { destruct acc as [[mx q]|], acc' as [[mx' q']|]; cbn [clean_queue sim_acc] in Ca, Sa; try contradiction.
            - destruct Sa as (-> & inp & Eq & _ & _ & Sg). eexists _, _. split; [reflexivity|]. split; [reflexivity|]. cbn [fst snd].
              split; [reflexivity|]. split; [exact Ca|exact Sg].
            - subst g. eexists _, _. split; [reflexivity|]. split; [reflexivity|]. cbn [fst snd map]. rewrite register_empty, app_nil_r.
              split; [reflexivity|]. split; [reflexivity|].
              apply (sim_register true tl [] (c_empty Q)); [| |exact sim_empty].
              + exact (items_ok_pre _ _ (items_ok_pre _ _ IO)). + exact (apart_pre _ _ (apart_pre _ _ AP)). }
          destruct X as (st' & st & E1 & E2 & E3 & E4 & E5).
          destruct acc as [[mx q]|], acc' as [[mx' q']|]; cbn [sim_acc] in Sa; try contradiction; cbn [bind];
            injection E1 as <-; injection E2 as <-; cbn [bind fst snd] in *; rewrite E; cbn [bind fst snd];
            (apply (IH _ _ _ (g ++ e)); try assumption;
             [split; [apply no_loops_app; assumption|exact Cge]
             |intros b lb Ib Eb x y Ix Iy; apply in_app_or in Ix; destruct Ix as [Ix|Ix];
                [apply (Hg b lb (or_intror Ib) Eb x y Ix Iy)|apply (Hw a b e lb); try assumption; exact (proj1 (Forall_forall _ _) Wa b Ib)]
             |cbn [clean_queue]; rewrite E4, register_init, map_app, app_assoc; reflexivity
             |cbn [sim_acc]; split; [exact E3|]; eexists; rewrite E4, register_init in *; split; [reflexivity|];
              split; [exact IO|]; split; [exact AP|]; apply sim_register; assumption]). }
    intros Hv Ho. apply (G parts true None None [] Hv Ho).
    - split; [intros ? ? []|constructor].
    - intros ? ? ? ? ? ? [].
    - reflexivity.
    - exact I.
  Qed.

  Lemma gathered {B} r' r (k' : bool * option (Qc * cstate Q) -> res B) k :
    (exists x' x, r' = Ok x' /\ r = Ok x /\ fst x' = fst x /\ sim_acc (snd x') (snd x)) ->
    (forall nd, k' (nd, None) = k (nd, None)) ->
    (forall nd mx g inp, items_ok inp -> apart inp -> sim g (init_state inp) -> k' (nd, Some (mx, g)) = k (nd, Some (mx, init_state inp))) ->
    bind r' k' = bind r k.
  Proof using Type.
    intros ([nd' o'] & [nd o] & -> & -> & E & S) K1 K2. cbn [fst snd bind] in *. subst nd'.
    destruct o as [[mx q]|], o' as [[mx' g]|]; cbn [sim_acc] in S; try contradiction; [|apply K1].
    destruct S as (-> & inp & -> & IO & AP & S). apply K2; assumption.
  Qed.
  Lemma regions_same {B} tb te rs (k' : bool * option (Qc * cstate Q) -> res B) k :
    valid_contours rs -> gives tidy te ->
    (forall nd, k' (nd, None) = k (nd, None)) ->
    (forall nd mx g inp, items_ok inp -> apart inp -> sim g (init_state inp) -> k' (nd, Some (mx, g)) = k (nd, Some (mx, init_state inp))) ->
    bind (c_gather Q contour_box (fun r => to_oriented_edges_endpoints r false) tb te rs true None) k'
    = bind (gather contour_box (fun r => to_oriented_edges_endpoints r false) tb te rs true None) k.
  Proof using KQ.
    intros [S U] Te K1 K2. apply gathered; [|exact K1|exact K2].
    apply (gather_same contour_box (fun r => to_oriented_edges_endpoints r false) unshared simple_contour); try assumption.
    - apply contour_box_returns.
    - intros a. apply oriented_gives.
    - intros a b la lb N Ea Eb [x y] [u v] I J. apply (no_share_apart (on_contour a) (on_contour b)); cbn [fst snd].
      + intros p. eapply oriented_on_contour; eassumption.
      + intros p. eapply oriented_on_contour; eassumption.
      + exact N.
  Qed.
  Lemma polygons_same {B} tb te ps (k' : bool * option (Qc * cstate Q) -> res B) k :
    valid_polygons ps -> gives tidy te ->
    (forall nd, k' (nd, None) = k (nd, None)) ->
    (forall nd mx g inp, items_ok inp -> apart inp -> sim g (init_state inp) -> k' (nd, Some (mx, g)) = k (nd, Some (mx, init_state inp))) ->
    bind (c_gather Q polygon_box (fun pg => polygon_oriented_edges pg false) tb te ps true None) k'
    = bind (gather polygon_box (fun pg => polygon_oriented_edges pg false) tb te ps true None) k.
  Proof using KQ.
    intros [S U] Te K1 K2. apply gathered; [|exact K1|exact K2].
    apply (gather_same polygon_box (fun pg => polygon_oriented_edges pg false)
             (fun a b => ~ share_segment (polygon_boundary a) (polygon_boundary b))
             (fun pg => valid_contours (border pg :: holes pg))); try assumption.
    - intros pg [V _]. apply contour_box_returns. inversion V; assumption.
    - intros pg. apply polygon_gives.
    - intros a b la lb N Ea Eb [x y] [u v] I J. apply (no_share_apart (polygon_boundary a) (polygon_boundary b)); cbn [fst snd].
      + intros p. eapply polygon_edges_on; eassumption.
      + intros p. eapply polygon_edges_on; eassumption.
      + exact N.
  Qed.
  Lemma mr_ms_same_ rs m mb : valid_contours rs -> tidy (to_segments_endpoints m) ->
    c_multiregion_relate_multisegment_ Q T rs m mb = multiregion_relate_multisegment_ rs m mb.
  Proof using KQ KT.
    intros R M. apply regions_same; [exact R|apply ok_gives, M|reflexivity|].
    intros nd mx g inp IO AP S. cbn [snd]. apply run_same; assumption.
  Qed.
  Lemma mr_s_same rs s : valid_contours rs -> nondegenerate s -> c_multiregion_relate_segment Q T rs s = multiregion_relate_segment rs s.
  Proof using KQ KT. intros R S. apply mr_ms_same_; [exact R|apply one_good, S]. Qed.
  Lemma mr_ms_same rs m : valid_contours rs -> good_ms m -> c_multiregion_relate_multisegment Q T rs m = multiregion_relate_multisegment rs m.
  Proof using KQ KT.
    intros R [T1 T2]. unfold c_multiregion_relate_multisegment, multiregion_relate_multisegment. apply bind_same. intros mb _.
    apply mr_ms_same_; assumption.
  Qed.
  Lemma mr_c_same_ rs c cb : valid_contours rs -> simple_contour c -> c_multiregion_relate_contour_ Q T rs c cb = multiregion_relate_contour_ rs c cb.
  Proof using KQ KT.
    intros R M. apply regions_same; [exact R|apply ok_gives, edges_tidy, M|reflexivity|].
    intros nd mx g inp IO AP S. cbn [snd]. apply run_same; assumption.
  Qed.
  Lemma mr_c_same rs c : valid_contours rs -> simple_contour c -> c_multiregion_relate_contour Q T rs c = multiregion_relate_contour rs c.
  Proof using KQ KT.
    intros R C. unfold c_multiregion_relate_contour, multiregion_relate_contour. apply bind_same. intros mb _. apply mr_c_same_; assumption.
  Qed.
  Lemma mr_r_same_ rs r rb : valid_contours rs -> simple_contour r -> c_multiregion_relate_region_ Q T rs r rb = multiregion_relate_region_ rs r rb.
  Proof using KQ KT.
    intros R M. apply regions_same; [exact R|apply oriented_gives, M|reflexivity|].
    intros nd mx g inp IO AP S. cbn [fst snd]. unfold c_run_compound, run_compound.
    rewrite (run_same cc_step _ cc_finish false inp g _ IO AP S). reflexivity.
  Qed.
  Lemma mr_r_same rs c : valid_contours rs -> simple_contour c -> c_multiregion_relate_region Q T rs c = multiregion_relate_region rs c.
  Proof using KQ KT.
    intros R C. unfold c_multiregion_relate_region, multiregion_relate_region. apply bind_same. intros mb _. apply mr_r_same_; assumption.
  Qed.
  Lemma mr_mr_same g t : valid_contours g -> valid_contours t -> c_multiregion_relate_multiregion Q T g t = multiregion_relate_multiregion g t.
  Proof using KQ KT. intros G H. unfold c_multiregion_relate_multiregion, multiregion_relate_multiregion. go; tid. Qed.

  Lemma p_s_same pg s : valid_contours (border pg :: holes pg) -> nondegenerate s -> c_polygon_relate_segment Q T pg s = polygon_relate_segment pg s.
  Proof using KQ KT.
    intros V S. unfold c_polygon_relate_segment, polygon_relate_segment. rewrite (mr_s_same _ s (valid_tail _ _ V) S). reflexivity.
  Qed.
  Lemma p_ms_same pg m : valid_contours (border pg :: holes pg) -> good_ms m -> c_polygon_relate_multisegment Q T pg m = polygon_relate_multisegment pg m.
  Proof using KQ KT. intros V [T1 T2]. unfold c_polygon_relate_multisegment, polygon_relate_multisegment. go; tid. Qed.
  Lemma p_c_same pg c : valid_contours (border pg :: holes pg) -> simple_contour c -> c_polygon_relate_contour Q T pg c = polygon_relate_contour pg c.
  Proof using KQ KT.
    intros V C. unfold c_polygon_relate_contour, polygon_relate_contour. apply bind_same. intros cb _.
    rewrite (r_c_same_ _ c cb (valid_head _ _ V) C), (mr_c_same_ _ c cb (valid_tail _ _ V) C). reflexivity.
  Qed.
  Lemma p_r_same pg r : valid_contours (border pg :: holes pg) -> simple_contour r -> c_polygon_relate_region Q T pg r = polygon_relate_region pg r.
  Proof using KQ KT.
    intros V C. unfold c_polygon_relate_region, polygon_relate_region. apply bind_same. intros rb _. apply bind_same. intros bb _.
    rewrite (r_r_same_ _ r bb rb (valid_head _ _ V) C), (mr_r_same_ _ r rb (valid_tail _ _ V) C). reflexivity.
  Qed.
  Lemma p_loop_same bd bb rs nt sub : simple_contour bd -> Forall simple_contour rs ->
    c_polygon_multiregion_loop Q T bd bb rs nt sub = polygon_multiregion_loop bd bb rs nt sub.
  Proof using KQ KT.
    intros B V. revert nt sub. induction V as [|r rs Sr V IH]; intros nt sub; cbn [c_polygon_multiregion_loop polygon_multiregion_loop]; [reflexivity|].
    apply bind_same. intros rb _. rewrite (r_r_same_ bd r bb rb B Sr). apply bind_same. intros rel _. rewrite !IH. reflexivity.
  Qed.
  Lemma p_mr_same pg rs : valid_contours (border pg :: holes pg) -> valid_contours rs -> c_polygon_relate_multiregion Q T pg rs = polygon_relate_multiregion pg rs.
  Proof using KQ KT.
    intros V R. assert (B := valid_head _ _ V). unfold c_polygon_relate_multiregion, polygon_relate_multiregion.
    apply bind_same. intros bb _. rewrite (mr_r_same_ rs _ bb R B). rewrite (p_loop_same _ bb rs true [] B (proj1 R)).
    destruct (negb (nonempty (holes pg))); [reflexivity|]. apply bind_same. intros st E.
    assert (K : kept st) by (apply (given _ _ _ (p_loop_returns (border pg) bb rs true [] B R)); exact E).
    destruct st as [r|[nt sub]]; [reflexivity|]. cbn [kept] in K. destruct sub as [|x sub]; [reflexivity|]. cbv zeta.
    rewrite mr_mr_same; [reflexivity|apply (valid_tail _ _ V)|]. destruct (Nat.eqb _ _); assumption.
  Qed.
  Lemma p_holes_same ib ibb hs nt sub : simple_contour ib -> Forall simple_contour hs ->
    c_polygon_holes_loop Q T ib ibb hs nt sub = polygon_holes_loop ib ibb hs nt sub.
  Proof using KQ KT.
    intros B V. revert nt sub. induction V as [|r rs Sr V IH]; intros nt sub; cbn [c_polygon_holes_loop polygon_holes_loop]; [reflexivity|].
    apply bind_same. intros rb _. rewrite (r_r_same_ ib r ibb rb B Sr). apply bind_same. intros rel _. rewrite !IH. reflexivity.
  Qed.
  Lemma p_result_same br st wk ib ibb oh ih : simple_contour ib -> valid_contours oh -> valid_contours ih ->
    c_polygon_holes_result Q T br st wk ib ibb oh ih = polygon_holes_result br st wk ib ibb oh ih.
  Proof using KQ KT.
    intros B O I. unfold c_polygon_holes_result, polygon_holes_result. rewrite (p_holes_same ib ibb oh true [] B (proj1 O)).
    apply bind_same. intros s E.
    assert (K : kept s) by (apply (given _ _ _ (p_holes_returns ib ibb oh true [] B O)); exact E).
    destruct s as [r|[nt sub]]; [reflexivity|]. cbn [kept] in K. destruct sub as [|x sub]; [reflexivity|].
    rewrite mr_mr_same; [reflexivity|exact I|]. destruct (Nat.eqb _ _); assumption.
  Qed.
  Lemma p_p_same g t : valid_contours (border g :: holes g) -> valid_contours (border t :: holes t) ->
    c_polygon_relate_polygon Q T g t = polygon_relate_polygon g t.
  Proof using KQ KT.
    intros G H. assert (Bg := valid_head _ _ G). assert (Bt := valid_head _ _ H).
    assert (Hg := valid_tail _ _ G). assert (Ht := valid_tail _ _ H). unfold c_polygon_relate_polygon, polygon_relate_polygon.
    apply bind_same. intros gb _. apply bind_same. intros tb _. rewrite (r_r_same_ _ _ gb tb Bg Bt). apply bind_same. intros br _.
    rewrite (mr_mr_same _ _ Ht Hg), !p_result_same by assumption. reflexivity.
  Qed.
  Lemma mp_ms_same mp m : valid_polygons (polygons mp) -> tidy (to_segments_endpoints m) ->
    c_multipolygon_relate_multisegment Q T mp m = multipolygon_relate_multisegment mp m.
  Proof using KQ KT.
    intros R M. unfold c_multipolygon_relate_multisegment, multipolygon_relate_multisegment. apply bind_same. intros mb _.
    apply polygons_same; [exact R|apply ok_gives, M|reflexivity|].
    intros nd mx g inp IO AP S. cbn [snd]. apply run_same; assumption.
  Qed.
  Lemma mp_s_same mp s : valid_polygons (polygons mp) -> nondegenerate s -> c_multipolygon_relate_segment Q T mp s = multipolygon_relate_segment mp s.
  Proof using KQ KT. intros R S. apply mp_ms_same; [exact R|apply one_good, S]. Qed.
  Lemma mp_c_same mp c : valid_polygons (polygons mp) -> simple_contour c -> c_multipolygon_relate_contour Q T mp c = multipolygon_relate_contour mp c.
  Proof using KQ KT.
    intros R M. unfold c_multipolygon_relate_contour, multipolygon_relate_contour. apply bind_same. intros mb _.
    apply polygons_same; [exact R|apply ok_gives, edges_tidy, M|reflexivity|].
    intros nd mx g inp IO AP S. cbn [snd]. apply run_same; assumption.
  Qed.
  Lemma mp_r_same mp c : valid_polygons (polygons mp) -> simple_contour c -> c_multipolygon_relate_region Q T mp c = multipolygon_relate_region mp c.
  Proof using KQ KT.
    intros R M. unfold c_multipolygon_relate_region, multipolygon_relate_region. apply bind_same. intros mb _.
    apply polygons_same; [exact R|apply oriented_gives, M|reflexivity|].
    intros nd mx g inp IO AP S. cbn [fst snd]. unfold c_run_compound, run_compound.
    rewrite (run_same cc_step _ cc_finish false inp g _ IO AP S). reflexivity.
  Qed.
  Lemma mp_p_same mp pg : valid_polygons (polygons mp) -> valid_contours (border pg :: holes pg) ->
    c_multipolygon_relate_polygon Q T mp pg = multipolygon_relate_polygon mp pg.
  Proof using KQ KT.
    intros R M. unfold c_multipolygon_relate_polygon, multipolygon_relate_polygon. apply bind_same. intros mb _.
    apply polygons_same; [exact R|apply polygon_gives, M|reflexivity|].
    intros nd mx g inp IO AP S. cbn [fst snd]. unfold c_run_compound, run_compound.
    rewrite (run_same cc_step _ cc_finish false inp g _ IO AP S). reflexivity.
  Qed.
  Lemma mp_mr_same mp rs : valid_polygons (polygons mp) -> valid_contours rs ->
    c_multipolygon_relate_multiregion Q T mp rs = multipolygon_relate_multiregion mp rs.
  Proof using KQ KT. intros R H. unfold c_multipolygon_relate_multiregion, multipolygon_relate_multiregion. go; tid. Qed.
  Lemma mp_mp_same g t : valid_polygons (polygons g) -> valid_polygons (polygons t) ->
    c_multipolygon_relate_multipolygon Q T g t = multipolygon_relate_multipolygon g t.
  Proof using KQ KT. intros R H. unfold c_multipolygon_relate_multipolygon, multipolygon_relate_multipolygon. go; tid. Qed.
End AnyRun.

(** * The statements of PropsContainers.v *)
Lemma linear_queries_any_containers_l : forall Q T m m' c c',
  pq_correct Q -> set_correct T ->
  valid_multisegment m -> valid_multisegment m' -> simple_contour c -> simple_contour c' ->
  c_multisegment_relate_multisegment Q T m' m = multisegment_in_multisegment m m'
  /\ c_contour_relate_multisegment Q T c m = multisegment_in_contour m c
  /\ c_contour_relate_contour Q T c' c = contour_in_contour c c'.
Proof.
  intros Q T m m' c c'.
  intros KQ KT M M' C C'. apply ms_good in M, M'.
  split; [apply ms_ms_same; assumption|]. split; [apply c_ms_same; assumption|apply c_c_same; assumption].
Qed.
Lemma region_queries_any_containers_l : forall Q T s m c r rs rs',
  pq_correct Q -> set_correct T ->
  nondegenerate s -> valid_multisegment m -> simple_contour c -> simple_contour r ->
  valid_multiregion rs -> valid_multiregion rs' ->
  c_region_relate_multisegment Q T r m = multisegment_in_region m r
  /\ c_region_relate_contour Q T r c = contour_in_region c r
  /\ c_region_relate_region Q T r c = region_in_region c r
  /\ c_multiregion_relate_segment Q T rs s = segment_in_multiregion s rs
  /\ c_multiregion_relate_multisegment Q T rs m = multisegment_in_multiregion m rs
  /\ c_multiregion_relate_contour Q T rs c = contour_in_multiregion c rs
  /\ c_multiregion_relate_region Q T rs r = region_in_multiregion r rs
  /\ c_multiregion_relate_multiregion Q T rs' rs = multiregion_in_multiregion rs rs'.
Proof.
  intros Q T s m c r rs rs'.
  intros KQ KT S M C R V V'. apply ms_good in M. apply multiregion_contours in V, V'.
  split; [apply r_ms_same; assumption|].
  split; [apply r_c_same; assumption|]. split; [apply r_r_same; assumption|].
  split; [apply mr_s_same; assumption|]. split; [apply mr_ms_same; assumption|].
  split; [apply mr_c_same; assumption|]. split; [apply mr_r_same; assumption|]. apply mr_mr_same; assumption.
Qed.
Lemma polygon_queries_any_containers_l : forall Q T s m c r rs pg pg' mp mp',
  pq_correct Q -> set_correct T ->
  nondegenerate s -> valid_multisegment m -> simple_contour c -> simple_contour r -> valid_multiregion rs ->
  valid_polygon pg -> valid_polygon pg' -> valid_multipolygon mp -> valid_multipolygon mp' ->
  c_polygon_relate_segment Q T pg s = segment_in_polygon s pg
  /\ c_polygon_relate_multisegment Q T pg m = multisegment_in_polygon m pg
  /\ c_polygon_relate_contour Q T pg c = contour_in_polygon c pg
  /\ c_polygon_relate_region Q T pg r = region_in_polygon r pg
  /\ c_polygon_relate_multiregion Q T pg rs = multiregion_in_polygon rs pg
  /\ c_polygon_relate_polygon Q T pg' pg = polygon_in_polygon pg pg'
  /\ c_multipolygon_relate_segment Q T mp s = segment_in_multipolygon s mp
  /\ c_multipolygon_relate_multisegment Q T mp m = multisegment_in_multipolygon m mp
  /\ c_multipolygon_relate_contour Q T mp c = contour_in_multipolygon c mp
  /\ c_multipolygon_relate_region Q T mp r = region_in_multipolygon r mp
  /\ c_multipolygon_relate_multiregion Q T mp rs = multiregion_in_multipolygon rs mp
  /\ c_multipolygon_relate_polygon Q T mp pg = polygon_in_multipolygon pg mp
  /\ c_multipolygon_relate_multipolygon Q T mp' mp = multipolygon_in_multipolygon mp mp'.
Proof.
  intros Q T s m c r rs pg pg' mp mp'.
  intros KQ KT S M C R V P P' MP MP'. apply ms_good in M. apply multiregion_contours in V.
  apply polygon_contours in P, P'. apply multipolygon_polygons in MP, MP'.
  split; [apply p_s_same; assumption|]. split; [apply p_ms_same; assumption|].
  split; [apply p_c_same; assumption|]. split; [apply p_r_same; assumption|].
  split; [apply p_mr_same; assumption|]. split; [apply p_p_same; assumption|].
  split; [apply mp_s_same; assumption|]. split; [apply mp_ms_same; [..|apply M]; assumption|].
  split; [apply mp_c_same; assumption|]. split; [apply mp_r_same; assumption|].
  split; [apply mp_mr_same; assumption|]. split; [apply mp_p_same; assumption|]. apply mp_mp_same; assumption.
Qed.
