(* Each answer of the one-sweep queries for areas, exactly. *)
From Coq Require Import QArith Qcanon List Bool ZArith Lia.
From Verif Require Import Scalar Base Ground MLinear MSweep MCompound Planar Spec SpecAreas SpecMore SpecSeen SpecContact SpecSelf SpecEach Geom RayParity SegProofs BoxProofs PointProofs EqualProofs Check
  NoFail OpenProofs Orient Area SegRegion AreaAnswer Drawn Gather Cover Sector AreaQueries ClosedProofs Polygons Inner PolyQueries Areas PolyArea Corner Pieces ContactProofs JoinLines JoinQueries EdgeByEdge SelfProofs Located SeenProofs.
Import ListNotations.
Open Scope Qc_scope.

Definition wide (l : list (point * point)) : Prop := forall e, In e l -> fst e <> snd e.
Lemma some_dec {A} (P : A -> Prop) l : (forall x, In x l -> P x \/ ~ P x) -> (exists x, In x l /\ P x) \/ ~ (exists x, In x l /\ P x).
Proof.
  induction l as [|a l IH]; intros D; [right; intros (x & [] & _)|]. destruct (D a (or_introl eq_refl)) as [K|K]; [left; exists a; split; [left; reflexivity|exact K]|].
  destruct (IH (fun x I => D x (or_intror I))) as [(x & I & Hx)|N]; [left; exists x; split; [right; exact I|exact Hx]|right; intros (x & [<-|I] & Hx); [exact (K Hx)|apply N; exists x; auto]].
Qed.
Lemma on_seg_dec a b p : on_segment a b p \/ ~ on_segment a b p.
Proof.
  pose proof (point_in_segment_exact_l p (Seg a b)) as [E _]. destruct (point_in_segment p (Seg a b)); [right|left; apply E; reflexivity|right]; intros K; apply E in K; discriminate K.
Qed.
(* Two common points of segments with more than one. *)
Lemma more_common s t : nondegenerate s -> nondegenerate t -> discreteb (segments_relation s t) = false -> share_segment (in_segment s) (in_segment t).
Proof.
  intros Ns Nt D. pose proof (segments_relation_sound s t Ns Nt) as K. destruct (segments_relation s t); cbn [discreteb] in D; try discriminate D; cbn [segments_spec] in K; try (destruct K; fail).
  - exact (proj1 K).
  - exists (s_start t), (s_end t). split; [exact Nt|]. intros p Hp. split; [apply K; exact Hp|exact Hp].
  - exists (s_start s), (s_end s). split; [exact Ns|]. intros p Hp. split; [exact Hp|apply K; exact Hp].
  - exists (s_start s), (s_end s). split; [exact Ns|]. intros p Hp. split; [exact Hp|apply K; exact Hp].
Qed.
Lemma cut_dec e e' : fst e <> snd e -> fst e' <> snd e' -> (exists p, cuts_at e e' p) \/ ~ (exists p, cuts_at e e' p).
Proof.
  intros N N'. pose proof (segments_relation_sound (Seg (fst e) (snd e)) (Seg (fst e') (snd e')) N N') as K.
  destruct (discreteb (segments_relation (Seg (fst e) (snd e)) (Seg (fst e') (snd e')))) eqn:D.
  - destruct (segments_relation _ _); try discriminate D; cbn [segments_spec] in K.
    + right. intros (p & C1 & C2 & _). apply K. exists p. auto.
    + right. destruct K as (q & (M1 & M2 & M3) & X). intros (p & C1 & C2 & C3 & C4 & C5 & C6 & _). pose proof (M3 p C1 C2) as ->. destruct X as [[X|X]|[X|X]]; cbn in X; auto.
    + left. destruct K as (q & (M1 & M2 & M3) & (_ & X1 & X2) & (_ & X3 & X4)). exists q. repeat (split; [assumption|]). exact M3.
  - right. intros (p & C). destruct (more_common (Seg (fst e) (snd e)) (Seg (fst e') (snd e')) N N' D) as (a & b & Nab & H). apply Nab. destruct C as (_ & _ & _ & _ & _ & _ & C).
    rewrite (C a); [symmetry; apply C|..]; apply H; first [apply on_segment_end|apply on_segment_start].
Qed.
Lemma free_dec l p h : wide l -> p <> h -> free_way l p h \/ ~ free_way l p h.
Proof.
  intros W N. destruct (some_dec (fun f => exists d, on_segment (fst f) (snd f) p /\ on_segment (fst f) (snd f) d /\ d <> p /\ on_segment p h d) l) as [(f & I & d & K)|K].
  - intros f I. destruct (on_seg_dec (fst f) (snd f) p) as [O|O]; [|right; intros (d & K & _); exact (O K)]. destruct (discreteb (segments_relation (Seg p h) (Seg (fst f) (snd f)))) eqn:D.
    + right. intros (d & _ & K1 & K2 & K3). apply K2. exact (discrete_at_most_one (Seg p h) (Seg (fst f) (snd f)) N (W f I) D d p K3 K1 (on_segment_start _ _) O).
    + left. destruct (more_common (Seg p h) (Seg (fst f) (snd f)) N (W f I) D) as (a & b & Nab & H). destruct (H a (on_segment_start _ _)) as [A1 A2]. destruct (H b (on_segment_end _ _)) as [B1 B2].
      destruct (pt_eqb_spec a p) as [->|Na]; [exists b|exists a]; repeat (split; [assumption|]); [|exact A1]. split; [congruence|exact B1].
  - right. intros F. destruct K as (K1 & K2 & K3 & K4). exact (F f d I K1 K2 K3 K4).
  - left. intros f d I K1 K2 K3 K4. apply K. exists f. split; [exact I|]. exists d. auto.
Qed.
Lemma cuts_only e e' p q : cuts_at e e' p -> cuts_at e e' q -> p = q.
Proof. intros (A & B & _) (_ & _ & _ & _ & _ & _ & C). exact (C p A B). Qed.
Lemma seen_dec l l' : wide l -> wide l' -> seen_cut l l' \/ ~ seen_cut l l'.
Proof.
  intros W W'. set (F := fun e e' p => exists h, (h = fst e \/ h = snd e) /\ free_way l' p h \/ (h = fst e' \/ h = snd e') /\ free_way l p h).
  destruct (some_dec (fun e => exists e', In e' l' /\ exists p, cuts_at e e' p /\ F e e' p) l) as [(e & I & e' & I' & p & K)|K].
  - intros e I. apply some_dec. intros e' I'. destruct (cut_dec e e' (W e I) (W' e' I')) as [(p & C)|C]; [|right; intros (p & K & _); apply C; exists p; exact K].
    assert (D : F e e' p \/ ~ F e e' p).
    { destruct C as (_ & _ & C1 & C2 & C3 & C4 & _). unfold F.
      destruct (free_dec l' p (fst e) W' C1) as [X1|X1]; [left; exists (fst e); auto|]. destruct (free_dec l' p (snd e) W' C2) as [X2|X2]; [left; exists (snd e); auto|].
      destruct (free_dec l p (fst e') W C3) as [X3|X3]; [left; exists (fst e'); auto|]. destruct (free_dec l p (snd e') W C4) as [X4|X4]; [left; exists (snd e'); auto|].
      right. intros (h & [[[->| ->] Y]|[[->| ->] Y]]); auto. }
    destruct D as [D|D]; [left; exists p; auto|right]. intros (q & C' & K). rewrite <- (cuts_only _ _ _ _ C C') in K. exact (D K).
  - left. exists e, e', p. split; [exact I|]. split; [exact I'|]. exact K.
  - right. intros (e & e' & p & I & I' & C & H). apply K. exists e. split; [exact I|]. exists e'. split; [exact I'|]. exists p. split; [exact C|exact H].
Qed.
(* A way that no edge runs along leaves all of them. *)
Lemma free_off l p h : p <> h -> free_way l p h -> exists d, on_segment p h d /\ ~ ends_set l d.
Proof.
  intros N F. destruct (all_far l p) as (k & K & H). destruct (near_point p h k K N) as (q & Nq & Oq & B). exists q. split; [exact Oq|].
  intros (f & I & O). destruct (on_seg_dec (fst f) (snd f) p) as [X|X]; [exact (F f q I X O Nq Oq)|exact (H f q I X (B q (on_segment_end _ _)) O)].
Qed.
Lemma seen_off l l' : seen_cut l l' -> meets (ends_set l) (ends_set l') /\ ((exists d, ends_set l d /\ ~ ends_set l' d) \/ exists d, ends_set l' d /\ ~ ends_set l d).
Proof.
  intros (e & e' & p & I & I' & (C1 & C2 & C3 & C4 & C5 & C6 & _) & h & H). split; [exists p; split; [exists e|exists e']; auto|].
  assert (Part : forall a b d, on_segment a b p -> on_segment p a d \/ on_segment p b d -> on_segment a b d).
  { intros a b d O [D|D]; [apply (on_segment_convex a b p a d O (on_segment_start _ _) D)|apply (on_segment_convex a b p b d O (on_segment_end _ _) D)]. }
  destruct H as [[E F]|[E F]]; [left|right].
  - assert (N : p <> h) by (destruct E as [->| ->]; auto). destruct (free_off l' p h N F) as (d & D1 & D2). exists d. split; [|exact D2]. exists e. split; [exact I|]. apply (Part _ _ d C1). destruct E as [->| ->]; auto.
  - assert (N : p <> h) by (destruct E as [->| ->]; auto). destruct (free_off l p h N F) as (d & D1 & D2). exists d. split; [|exact D2]. exists e'. split; [exact I'|]. apply (Part _ _ d C2). destruct E as [->| ->]; auto.
Qed.
Lemma seen_each A B l l' r : shaped A -> shaped B -> wide l -> wide l' -> (forall p, a_on A p <-> ends_set l p) -> (forall p, a_on B p <-> ends_set l' p) ->
  told_by (areal_spec A B) OVERLAP (seen_cut l l') r -> each_sweep_answer A B (seen_cut l l') r.
Proof.
  intros SA SB W W' EA EB [T1 T2]. destruct (sh_total A B SA SB) as (y & Y). destruct (sh_of A B SA SB y Y) as (z & Ez & _ & U). injection Ez as <-.
  assert (Q : forall a b : relation, Ok a = Ok b -> a = b) by (intros a b Z; injection Z; auto).
  destruct (seen_dec l l' W W') as [C|C].
  - rewrite (T1 C). destruct (seen_off l l' C) as [(p & P1 & P2) D].
    assert (M : meets (a_on A) (a_on B)) by (exists p; split; [apply EA, P1|apply EB, P2]).
    split; [|split].
    + intros rel I. split; [intros Z; apply Q in Z; subst rel; cbn in I; intuition discriminate|]. intros Z. exfalso. destruct I as [<-|[<-|[<-|[<-|[]]]]]; cbn [areal_spec] in Z.
      * apply Z. exists p. split; right; [apply EA, P1|apply EB, P2].
      * exact (proj2 Z M).
      * destruct M as (x & X1 & X2). apply (proj2 Z). exists x. auto.
      * destruct D as [(d & D1 & D2)|(d & D1 & D2)]; apply D2.
        -- apply EB. apply (sh_equal_on A B SA SB Z). apply EA, D1.
        -- apply EA. apply (sh_equal_on B A SB SA (fun q => iff_sym (Z q))). apply EB, D1.
    + intros rel I. split; [intros Z; apply Q in Z; subst rel; cbn in I; intuition discriminate|]. intros [_ Z]. destruct (Z C).
    + split; [auto|reflexivity].
  - destruct (T2 C) as (x & -> & X & _). pose proof (U x X) as ->. split; [|split].
    + intros rel _. split; [intros Z; apply Q in Z; subst rel; exact X|intros Z; rewrite (U rel Z); reflexivity].
    + intros rel _. split; [intros Z; apply Q in Z; subst rel; auto|intros [Z _]; rewrite (U rel Z); reflexivity].
    + split; [intros Z; apply Q in Z; subst y; auto|intros [Z|Z]; [rewrite (U _ Z); reflexivity|destruct (C Z)]].
Qed.
Lemma wide_contours cs : Forall simple_contour cs -> wide (contours_edges cs).
Proof.
  intros F (a, b) I. unfold contours_edges in I. apply in_flat_map in I. destruct I as (c & I & J). rewrite Forall_forall in F. exact (simple_step c a b (F c I) J).
Qed.
Lemma wide_polygons mp : valid_multipolygon mp -> wide (multipolygon_edges mp).
Proof.
  intros [F _] e I. unfold multipolygon_edges in I. apply in_flat_map in I. destruct I as (pg & I & J). rewrite Forall_forall in F. pose proof (F pg I) as V.
  refine (wide_contours (border pg :: holes pg) _ e J). apply Forall_cons; [exact (pg_border pg V)|apply Forall_forall; exact (pg_hole pg V)].
Qed.
Lemma ends_multipolygon mp p : a_on (multipolygon_area mp) p <-> ends_set (multipolygon_edges mp) p.
Proof. split; [apply polygons_ends|intros (e & I & O); exact (EdgeByEdge.polygon_edges_on mp e p I O)]. Qed.
Lemma ends_multiregion rs p : a_on (multiregion_area rs) p <-> ends_set (contours_edges rs) p.
Proof.
  cbn [a_on multiregion_area]. split.
  - intros (r & I & O). apply cyc_ends in O. destruct O as (e & J & O). exists e. split; [unfold contours_edges; apply in_flat_map; exists r; auto|exact O].
  - intros (e & I & O). unfold contours_edges in I. apply in_flat_map in I. destruct I as (r & I & J). exists r. split; [exact I|]. apply cyc_ends. exists e. auto.
Qed.
Lemma polygon_in_multipolygon_each_l pg mp : valid_polygon pg -> valid_multipolygon mp -> polygons mp <> [] ->
  each_sweep_answer (polygon_area pg) (multipolygon_area mp) (seen_cut (polygon_edges pg) (multipolygon_edges mp)) (polygon_in_multipolygon pg mp).
Proof.
  intros V W N. apply seen_each; [exact (shaped_polygon pg V)|exact (shaped_multipolygon mp W N)| |exact (wide_polygons mp W)| |exact (ends_multipolygon mp)|exact (polygon_in_multipolygon_seen_l pg mp V W N)].
  - apply (wide_contours (border pg :: holes pg)). apply Forall_cons; [exact (pg_border pg V)|apply Forall_forall; exact (pg_hole pg V)].
  - intros p. pose proof (ends_multiregion (border pg :: holes pg) p) as E. unfold polygon_edges. rewrite <- E. cbn [a_on polygon_area multiregion_area]. unfold polygon_boundary, on_contours. cbn [In]. split.
    + intros [O|(h & I & O)]; [exists (border pg)|exists h]; auto.
    + intros (c & [<-|I] & O); [left; exact O|right; exists c; auto].
Qed.
Lemma multiregion_in_multipolygon_each_l rs mp : valid_multiregion rs -> rs <> [] -> valid_multipolygon mp -> polygons mp <> [] ->
  each_sweep_answer (multiregion_area rs) (multipolygon_area mp) (seen_cut (contours_edges rs) (multipolygon_edges mp)) (multiregion_in_multipolygon rs mp).
Proof.
  intros V M W N. apply seen_each; [exact (shaped_multiregion rs V M)|exact (shaped_multipolygon mp W N)|exact (wide_contours rs (proj1 V))|exact (wide_polygons mp W)|exact (ends_multiregion rs)|exact (ends_multipolygon mp)|exact (multiregion_in_multipolygon_seen_l rs mp V M W N)].
Qed.
Lemma multipolygon_in_multipolygon_each_l mp mq : valid_multipolygon mp -> polygons mp <> [] -> valid_multipolygon mq -> polygons mq <> [] ->
  each_sweep_answer (multipolygon_area mp) (multipolygon_area mq) (seen_cut (multipolygon_edges mp) (multipolygon_edges mq)) (multipolygon_in_multipolygon mp mq).
Proof.
  intros V M W N. apply seen_each; [exact (shaped_multipolygon mp V M)|exact (shaped_multipolygon mq W N)|exact (wide_polygons mp V)|exact (wide_polygons mq W)|exact (ends_multipolygon mp)|exact (ends_multipolygon mq)|exact (multipolygon_in_multipolygon_seen_l mp mq V M W N)].
Qed.
(* Equal point sets are found to be equal. *)
Lemma equal_located A B f g : shaped A -> shaped B -> area_eq (located_area f) A -> area_eq (located_area g) B -> (areal_spec A B EQUAL <-> forall p, f p = g p).
Proof.
  intros SA SB EA EB. cbn [areal_spec]. split.
  - assert (Half : forall A B f g, shaped A -> shaped B -> area_eq (located_area f) A -> area_eq (located_area g) B -> same_set (a_cl A) (a_cl B) -> forall p, f p <> EXTERIOR -> g p = f p).
    { clear. intros A B f g SA SB EA EB E p N. pose proof (EA p) as QA. pose proof (EB p) as QB. unfold located_area in QA, QB. cbn [a_in a_on a_out] in QA, QB.
      destruct (f p) eqn:F; [congruence|..]; apply QB.
      - apply (sh_equal_on A B SA SB E). apply QA. reflexivity.
      - apply (sh_in A B SA SB p (fun q => proj1 (E q))). apply QA. reflexivity. }
    intros E p. pose proof (Half A B f g SA SB EA EB E p) as H1. pose proof (Half B A g f SB SA EB EA (fun q => iff_sym (E q)) p) as H2.
    destruct (f p) eqn:F; [|symmetry; apply H1; discriminate|symmetry; apply H1; discriminate]. destruct (g p) eqn:G; [reflexivity|apply H2; discriminate|apply H2; discriminate].
  - intros E. pose proof (area_trans _ _ _ (area_sym _ _ EA) (area_trans _ _ _ (located_same f g E) EB)) as K. intros p. pose proof (K p) as Q. unfold a_cl. tauto.
Qed.
Lemma each_equal A B C r : each_sweep_answer A B C r -> (r = Ok EQUAL <-> areal_spec A B EQUAL).
Proof. intros [H _]. apply H. cbn. tauto. Qed.
Lemma polygon_equal_found_l pg mp : valid_polygon pg -> valid_multipolygon mp -> polygons mp <> [] -> (polygon_in_multipolygon pg mp = Ok EQUAL <-> forall p, point_in_polygon p pg = point_in_multipolygon p mp).
Proof.
  intros V W N. rewrite (each_equal _ _ _ _ (polygon_in_multipolygon_each_l pg mp V W N)). exact (equal_located _ _ _ _ (shaped_polygon pg V) (shaped_multipolygon mp W N) (located_polygon pg V) (located_multipolygon mp W N)).
Qed.
Lemma multiregion_equal_found_l rs mp : valid_multiregion rs -> rs <> [] -> valid_multipolygon mp -> polygons mp <> [] ->
  (multiregion_in_multipolygon rs mp = Ok EQUAL <-> forall p, point_in_multiregion p rs = point_in_multipolygon p mp).
Proof.
  intros V M W N. rewrite (each_equal _ _ _ _ (multiregion_in_multipolygon_each_l rs mp V M W N)). exact (equal_located _ _ _ _ (shaped_multiregion rs V M) (shaped_multipolygon mp W N) (located_multiregion rs V M) (located_multipolygon mp W N)).
Qed.
Lemma multipolygon_equal_found_l mp mq : valid_multipolygon mp -> polygons mp <> [] -> valid_multipolygon mq -> polygons mq <> [] ->
  (multipolygon_in_multipolygon mp mq = Ok EQUAL <-> forall p, point_in_multipolygon p mp = point_in_multipolygon p mq).
Proof.
  intros V M W N. rewrite (each_equal _ _ _ _ (multipolygon_in_multipolygon_each_l mp mq V M W N)). exact (equal_located _ _ _ _ (shaped_multipolygon mp V M) (shaped_multipolygon mq W N) (located_multipolygon mp V M) (located_multipolygon mq W N)).
Qed.
