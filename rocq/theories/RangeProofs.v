(* Result ranges (C36): which relations a query can return, for all inputs. *)
From Coq Require Import QArith Qcanon List Bool ZArith Lia.
From Verif Require Import Scalar Base Ground MLinear MSweep MCompound Planar Spec.
Import ListNotations.
Open Scope Qc_scope.

Lemma answers_bind {A} l (m : res A) f :
  (forall a, m = Ok a -> answers l (f a)) -> answers l (bind m f).
Proof. destruct m as [a|e]; cbn; auto. Qed.
Lemma answers_sub l l' r : incl l l' -> answers l r -> answers l' r.
Proof. destruct r; cbn; auto. Qed.

Ltac pick := cbn; repeat (first [left; reflexivity | right]); fail.
Ltac branch := repeat match goal with
  | |- context[if ?b then _ else _] => destruct b
  | |- context[match ?x with _ => _ end] => destruct x
  end.
Ltac answer := branch; cbn; tauto.

Lemma segments_relation_range l r : In (segments_relation l r) linear_relations.
Proof. unfold segments_relation, linear_relations. branch; cbn; tauto. Qed.

Lemma process_answers {A} f acc finish l swept :
  (forall (a : A) e, match f a e with inl r => In r l | inr _ => True end) ->
  (forall a q, In (finish a q) l) ->
  answers l (process f acc finish swept).
Proof.
  intros F G. unfold process. destruct swept as [outs r].
  assert (C : forall outs acc, match consume f acc outs with inl r => In r l | inr _ => True end).
  { clear outs r acc. induction outs as [|e outs IH]; intros acc; cbn; auto.
    specialize (F acc e). destruct (f acc e); [exact F|apply IH]. }
  specialize (C outs acc). destruct (consume f acc outs); auto.
  destruct r; cbn; auto.
Qed.

Lemma run_open_range q x : answers linear_relations (run_open q x).
Proof. apply process_answers; intros; cbn; auto. unfold open_finish, linear_relations. answer. Qed.
Lemma run_closed_range q x : answers linear_relations (run_closed q x).
Proof. apply process_answers; intros; cbn; auto. unfold closed_finish, linear_relations. answer. Qed.
Lemma run_linear_compound_range q x : answers linear_areal_relations (run_linear_compound q x).
Proof.
  apply process_answers; intros.
  - unfold lc_step. destruct (srel_eqb _ _); cbn; auto.
  - unfold lc_finish, linear_areal_relations. answer.
Qed.
Lemma run_compound_range q x : answers areal_relations (run_compound q x).
Proof.
  apply process_answers; intros.
  - unfold cc_step. destruct (srel_eqb _ _); cbn; auto.
  - unfold cc_finish, areal_relations. answer.
Qed.

Ltac bind_answer := repeat (lazymatch goal with |- answers _ (bind _ _) => idtac end; apply answers_bind; intros).

(** Linear in linear. *)
Lemma segment_in_segment_range s t : In (segment_in_segment s t) linear_relations.
Proof. apply segments_relation_range. Qed.
Lemma segment_in_multisegment_range s m : In (segment_in_multisegment s m) linear_relations.
Proof.
  unfold segment_in_multisegment, multisegment_relate_segment, linear_relations.
  destruct (ms_loop _ _ _) as [st|]; [|cbn; tauto]. unfold ms_result.
  destruct (ms_no_overlap st); [answer|]. destruct (ms_components st) as [|c cs]; [answer|].
  destruct (ms_components_span c cs). cbn zeta. answer.
Qed.
Lemma multisegment_in_multisegment_range l r : answers linear_relations (multisegment_in_multisegment l r).
Proof.
  unfold multisegment_in_multisegment, multisegment_relate_multisegment. bind_answer.
  destruct (disjoint_with _ _); [cbn; tauto|]. apply run_open_range.
Qed.
Lemma cs_loop_range s es : forall i st, match cs_loop s i es st with inl r => In r linear_relations | _ => True end.
Proof.
  induction es as [|e es IH]; intros i st; cbn [cs_loop]; auto. cbn zeta.
  repeat match goal with
    |- context[if ?b then _ else _] => lazymatch b with cs_no_touch _ => fail | _ => destruct b; [|] end
  end; try (cbn; tauto); apply IH.
Qed.
Lemma segment_in_contour_range s c : answers linear_relations (segment_in_contour s c).
Proof.
  unfold segment_in_contour, contour_relate_segment.
  assert (H := cs_loop_range s (contour_segments c) 0 (CS true true None)).
  destruct (cs_loop _ _ _ _); [exact H|]. bind_answer. unfold linear_relations. answer.
Qed.
Lemma multisegment_in_contour_range m c : answers linear_relations (multisegment_in_contour m c).
Proof.
  unfold multisegment_in_contour, contour_relate_multisegment. bind_answer.
  destruct (disjoint_with _ _); [cbn; tauto|]. apply run_open_range.
Qed.
Lemma contour_in_contour_range l r : answers linear_relations (contour_in_contour l r).
Proof.
  unfold contour_in_contour, contour_relate_contour. bind_answer.
  destruct (disjoint_with _ _); [cbn; tauto|]. bind_answer. destruct a1; [cbn; tauto|]. bind_answer.
  apply run_closed_range.
Qed.

(** Linear in areal. *)
Lemma relate_segment_to_contour_range s c :
  answers [DISJOINT; TOUCH; CROSS; COMPONENT; OVERLAP] (relate_segment_to_contour c s).
Proof.
  unfold relate_segment_to_contour.
  assert (H : forall es i st, match rs_loop s i es st with inl r => In r [CROSS; COMPONENT] | _ => True end).
  { induction es as [|e es IH]; intros i st; cbn [rs_loop]; auto. cbn zeta. repeat match goal with |- context[if ?b then _ else _] => destruct b end; try (cbn; tauto); apply IH. }
  specialize (H (contour_segments c) 0%nat (RS true true None)).
  destruct (rs_loop _ _ _ _).
  - cbn in *. intuition.
  - bind_answer. answer.
Qed.
Lemma segment_in_region_range s r : answers linear_areal_relations (segment_in_region s r).
Proof.
  unfold segment_in_region, region_relate_segment. apply answers_bind; intros rc R.
  assert (X := relate_segment_to_contour_range s r). rewrite R in X. cbn in X. clear R.
  destruct (relation_eqb rc CROSS || relation_eqb rc COMPONENT) eqn:E.
  - destruct rc; try discriminate; cbn; tauto.
  - destruct (region_locate_point_ r (s_start s)) as [i li]. unfold linear_areal_relations.
    destruct (relation_eqb rc DISJOINT); [answer|]. destruct li; [answer| |answer].
    destruct (region_locate_point_ r (s_end s)) as [j lj]. destruct lj; [answer| |answer]. bind_answer.
    destruct i, j; cbn; auto. bind_answer. destruct a0; [cbn; tauto|]. bind_answer. answer.
Qed.
Lemma multisegment_in_region_range m r : answers linear_areal_relations (multisegment_in_region m r).
Proof.
  unfold multisegment_in_region, region_relate_multisegment. bind_answer.
  destruct (disjoint_with _ _); [cbn; tauto|]. bind_answer. apply run_linear_compound_range.
Qed.
Lemma region_relate_contour__range r c b : answers linear_areal_relations (region_relate_contour_ r c b).
Proof.
  unfold region_relate_contour_. bind_answer.
  destruct (disjoint_with _ _); [cbn; tauto|]. bind_answer. destruct a0; [cbn; tauto|]. bind_answer.
  apply run_linear_compound_range.
Qed.
Lemma contour_in_region_range c r : answers linear_areal_relations (contour_in_region c r).
Proof. unfold contour_in_region, region_relate_contour. bind_answer. apply region_relate_contour__range. Qed.

Lemma multiregion_relate_multisegment__range rs m b :
  answers linear_areal_relations (multiregion_relate_multisegment_ rs m b).
Proof.
  unfold multiregion_relate_multisegment_. bind_answer. destruct (snd a) as [[x q]|]; [|cbn; tauto].
  apply run_linear_compound_range.
Qed.
Lemma segment_in_multiregion_range s rs : answers linear_areal_relations (segment_in_multiregion s rs).
Proof. apply multiregion_relate_multisegment__range. Qed.
Lemma multisegment_in_multiregion_range m rs : answers linear_areal_relations (multisegment_in_multiregion m rs).
Proof.
  unfold multisegment_in_multiregion, multiregion_relate_multisegment. bind_answer.
  apply multiregion_relate_multisegment__range.
Qed.
Lemma multiregion_relate_contour__range rs c b :
  answers linear_areal_relations (multiregion_relate_contour_ rs c b).
Proof.
  unfold multiregion_relate_contour_. bind_answer. destruct (snd a) as [[x q]|]; [|cbn; tauto].
  apply run_linear_compound_range.
Qed.
Lemma contour_in_multiregion_range c rs : answers linear_areal_relations (contour_in_multiregion c rs).
Proof.
  unfold contour_in_multiregion, multiregion_relate_contour. bind_answer. apply multiregion_relate_contour__range.
Qed.
Lemma segment_in_polygon_range s pg : answers linear_areal_relations (segment_in_polygon s pg).
Proof.
  unfold segment_in_polygon, polygon_relate_segment. apply answers_bind; intros r R.
  assert (X := segment_in_region_range s (border pg)). unfold segment_in_region in X. rewrite R in X. cbn in X.
  destruct (nonempty _ && _); [|exact X]. apply answers_bind; intros h H.
  assert (Y := segment_in_multiregion_range s (holes pg)). unfold segment_in_multiregion in Y.
  rewrite H in Y. cbn in Y |- *. destruct h; tauto.
Qed.
Lemma multisegment_in_polygon_range m pg : answers linear_areal_relations (multisegment_in_polygon m pg).
Proof.
  unfold multisegment_in_polygon, polygon_relate_multisegment. bind_answer.
  destruct (disjoint_with _ _); [cbn; tauto|]. bind_answer. apply run_linear_compound_range.
Qed.
Lemma contour_in_polygon_range c pg : answers linear_areal_relations (contour_in_polygon c pg).
Proof.
  unfold contour_in_polygon, polygon_relate_contour. apply answers_bind; intros b B. apply answers_bind; intros r R.
  assert (X := region_relate_contour__range (border pg) c b). rewrite R in X. cbn in X.
  destruct (nonempty _ && _); [|exact X]. apply answers_bind; intros h H. cbn in X |- *. destruct h; tauto.
Qed.
Lemma multisegment_in_multipolygon_range m mp : answers linear_areal_relations (multisegment_in_multipolygon m mp).
Proof.
  unfold multisegment_in_multipolygon, multipolygon_relate_multisegment. bind_answer.
  destruct (snd _) as [[x q]|]; [|cbn; tauto]. apply run_linear_compound_range.
Qed.
Lemma segment_in_multipolygon_range s mp : answers linear_areal_relations (segment_in_multipolygon s mp).
Proof. apply (multisegment_in_multipolygon_range (MSeg [s])). Qed.
Lemma contour_in_multipolygon_range c mp : answers linear_areal_relations (contour_in_multipolygon c mp).
Proof.
  unfold contour_in_multipolygon, multipolygon_relate_contour. bind_answer.
  destruct (snd _) as [[x q]|]; [|cbn; tauto]. apply run_linear_compound_range.
Qed.

(** Areal in areal. *)
Lemma region_relate_region__range g t b b' : answers areal_relations (region_relate_region_ g t b b').
Proof.
  unfold region_relate_region_. destruct (disjoint_with _ _); [cbn; tauto|]. bind_answer.
  destruct a; [cbn; tauto|]. bind_answer. apply run_compound_range.
Qed.
Lemma region_in_region_range l r : answers areal_relations (region_in_region l r).
Proof. unfold region_in_region, region_relate_region. bind_answer. apply region_relate_region__range. Qed.
Lemma corrected_range (m : res relation) b :
  answers areal_relations m -> answers areal_relations (do r <- m; Ok (skipped_correction b r)).
Proof.
  destruct m as [r|]; cbn; auto. unfold skipped_correction.
  destruct b, r; cbn; tauto.
Qed.
Lemma multiregion_relate_region__range rs r b : answers areal_relations (multiregion_relate_region_ rs r b).
Proof.
  unfold multiregion_relate_region_. bind_answer. destruct (snd _) as [[x q]|]; [|cbn; tauto].
  apply corrected_range, run_compound_range.
Qed.
Lemma region_in_multiregion_range r rs : answers areal_relations (region_in_multiregion r rs).
Proof.
  unfold region_in_multiregion, multiregion_relate_region. bind_answer. apply multiregion_relate_region__range.
Qed.
Lemma multiregion_in_multiregion_range l r : answers areal_relations (multiregion_in_multiregion l r).
Proof.
  unfold multiregion_in_multiregion, multiregion_relate_multiregion. bind_answer.
  destruct (disjoint_with _ _); [cbn; tauto|]. bind_answer. apply run_compound_range.
Qed.
Lemma region_in_polygon_range r pg : answers areal_relations (region_in_polygon r pg).
Proof.
  unfold region_in_polygon, polygon_relate_region. bind_answer. rename a1 into rel.
  assert (X := region_relate_region__range (border pg) r a0 a). rewrite H1 in X.
  destruct (rel_in rel _); [exact X|]. destruct (relation_eqb rel COMPOSITE || _).
  - destruct (nonempty _); [cbn; tauto|exact X].
  - bind_answer. destruct (relation_eqb a1 DISJOINT); [exact X|]. unfold areal_relations. answer.
Qed.
Lemma polygon_multiregion_loop_range bd bb rs : forall t l,
  match polygon_multiregion_loop bd bb rs t l with Ok (inl r) => In r areal_relations | _ => True end.
Proof.
  induction rs as [|r rs IH]; intros t l; cbn [polygon_multiregion_loop]; auto.
  destruct (contour_box r) as [rb|]; cbn [bind]; auto.
  assert (X := region_relate_region__range bd r bb rb). destruct (region_relate_region_ bd r bb rb) as [rel|]; cbn [bind]; auto.
  destruct (relation_eqb rel TOUCH); [apply IH|]. destruct (rel_in rel _); [exact X|].
  destruct (relation_eqb rel COMPOSITE || _); [cbn; tauto|]. destruct (negb _); apply IH.
Qed.
Lemma multiregion_in_polygon_range rs pg : answers areal_relations (multiregion_in_polygon rs pg).
Proof.
  unfold multiregion_in_polygon, polygon_relate_multiregion. bind_answer. destruct (negb _).
  - assert (X := multiregion_relate_region__range rs (border pg) a). destruct (multiregion_relate_region_ _ _ _) as [r|]; cbn in *; auto.
    destruct r; cbn; tauto.
  - bind_answer. assert (X := polygon_multiregion_loop_range (border pg) a rs true []). rewrite H0 in X.
    destruct a0 as [r|[t [|h hs]]]; [exact X| |]; unfold areal_relations; [answer|]. bind_answer. answer.
Qed.
Lemma polygon_holes_loop_range b bb hs : forall t l,
  match polygon_holes_loop b bb hs t l with Ok (inl r) => In r areal_relations | _ => True end.
Proof.
  induction hs as [|r rs IH]; intros t l; cbn [polygon_holes_loop]; auto.
  destruct (contour_box r) as [rb|]; cbn [bind]; auto.
  destruct (region_relate_region_ b r bb rb) as [rel|]; cbn [bind]; auto.
  destruct (relation_eqb rel TOUCH); [apply IH|].
  destruct (relation_eqb rel OVERLAP); [cbn; tauto|]. destruct (relation_eqb rel COVER); [cbn; tauto|].
  destruct (rel_in rel _); [cbn; tauto|]. destruct (negb _); apply IH.
Qed.
Lemma polygon_holes_result_range br st wk b bb oh ih :
  In br areal_relations -> In wk areal_relations ->
  answers areal_relations (polygon_holes_result br st wk b bb oh ih).
Proof.
  intros B W. unfold polygon_holes_result. bind_answer.
  assert (X := polygon_holes_loop_range b bb oh true []). rewrite H in X.
  destruct a as [r|[t [|h hs]]]; [exact X| |].
  - destruct t; assumption.
  - bind_answer. cbn [answers]. repeat match goal with |- context[if ?b then _ else _] => destruct b end; auto.
    cbn; tauto.
Qed.
Lemma polygon_in_polygon_range l r : answers areal_relations (polygon_in_polygon l r).
Proof.
  unfold polygon_in_polygon, polygon_relate_polygon. bind_answer. rename a1 into br.
  assert (X := region_relate_region__range (border r) (border l) a a0). rewrite H1 in X.
  destruct (rel_in br _); [exact X|]. destruct (relation_eqb br EQUAL).
  - destruct (nonempty _ && _); [bind_answer|unfold areal_relations; answer].
    destruct (rel_in a1 _); [cbn; tauto|]. destruct (rel_in a1 _); [cbn; tauto|].
    destruct (relation_eqb a1 EQUAL); [exact X|cbn; tauto].
  - destruct (rel_in br _); (destruct (nonempty (holes _)); [|destruct (nonempty _ && _); [cbn; tauto|exact X]]);
      apply polygon_holes_result_range; try exact X; cbn; tauto.
Qed.
Lemma region_in_multipolygon_range r mp : answers areal_relations (region_in_multipolygon r mp).
Proof.
  unfold region_in_multipolygon, multipolygon_relate_region. bind_answer. destruct (snd _) as [[x q]|]; [|cbn; tauto].
  apply corrected_range, run_compound_range.
Qed.
Lemma multiregion_in_multipolygon_range rs mp : answers areal_relations (multiregion_in_multipolygon rs mp).
Proof.
  unfold multiregion_in_multipolygon, multipolygon_relate_multiregion. bind_answer.
  destruct (disjoint_with _ _); [cbn; tauto|]. bind_answer. apply run_compound_range.
Qed.
Lemma polygon_in_multipolygon_range pg mp : answers areal_relations (polygon_in_multipolygon pg mp).
Proof.
  unfold polygon_in_multipolygon, multipolygon_relate_polygon. bind_answer. destruct (snd _) as [[x q]|]; [|cbn; tauto].
  apply corrected_range, run_compound_range.
Qed.
Lemma multipolygon_in_multipolygon_range l r : answers areal_relations (multipolygon_in_multipolygon l r).
Proof.
  unfold multipolygon_in_multipolygon, multipolygon_relate_multipolygon. bind_answer. apply run_compound_range.
Qed.

Lemma linear_range_l : forall (s t : segment) (l m : multisegment) (c d : contour),
  In (segment_in_segment s t) linear_relations
  /\ In (segment_in_multisegment s m) linear_relations
  /\ answers linear_relations (multisegment_in_multisegment l m)
  /\ answers linear_relations (segment_in_contour s c)
  /\ answers linear_relations (multisegment_in_contour m c)
  /\ answers linear_relations (contour_in_contour c d).
Proof.
  auto 10 using segment_in_segment_range, segment_in_multisegment_range, multisegment_in_multisegment_range,
    segment_in_contour_range, multisegment_in_contour_range, contour_in_contour_range.
Qed.

Lemma linear_areal_range_l : forall s m c (r : region) rs pg mp,
  answers linear_areal_relations (segment_in_region s r)
  /\ answers linear_areal_relations (multisegment_in_region m r)
  /\ answers linear_areal_relations (contour_in_region c r)
  /\ answers linear_areal_relations (segment_in_multiregion s rs)
  /\ answers linear_areal_relations (multisegment_in_multiregion m rs)
  /\ answers linear_areal_relations (contour_in_multiregion c rs)
  /\ answers linear_areal_relations (segment_in_polygon s pg)
  /\ answers linear_areal_relations (multisegment_in_polygon m pg)
  /\ answers linear_areal_relations (contour_in_polygon c pg)
  /\ answers linear_areal_relations (segment_in_multipolygon s mp)
  /\ answers linear_areal_relations (multisegment_in_multipolygon m mp)
  /\ answers linear_areal_relations (contour_in_multipolygon c mp).
Proof.
  auto 20 using segment_in_region_range, multisegment_in_region_range, contour_in_region_range,
    segment_in_multiregion_range, multisegment_in_multiregion_range, contour_in_multiregion_range,
    segment_in_polygon_range, multisegment_in_polygon_range, contour_in_polygon_range,
    segment_in_multipolygon_range, multisegment_in_multipolygon_range, contour_in_multipolygon_range.
Qed.

Lemma areal_range_l : forall (r r' : region) rs rs' pg pg' mp mp',
  answers areal_relations (region_in_region r r')
  /\ answers areal_relations (region_in_multiregion r rs)
  /\ answers areal_relations (multiregion_in_multiregion rs rs')
  /\ answers areal_relations (region_in_polygon r pg)
  /\ answers areal_relations (multiregion_in_polygon rs pg)
  /\ answers areal_relations (polygon_in_polygon pg pg')
  /\ answers areal_relations (region_in_multipolygon r mp)
  /\ answers areal_relations (multiregion_in_multipolygon rs mp)
  /\ answers areal_relations (polygon_in_multipolygon pg mp)
  /\ answers areal_relations (multipolygon_in_multipolygon mp mp').
Proof.
  auto 20 using region_in_region_range, region_in_multiregion_range, multiregion_in_multiregion_range,
    region_in_polygon_range, multiregion_in_polygon_range, polygon_in_polygon_range,
    region_in_multipolygon_range, multiregion_in_multipolygon_range, polygon_in_multipolygon_range,
    multipolygon_in_multipolygon_range.
Qed.
