(* A contour that contains another contour contains nothing else. *)
From Coq Require Import QArith Qcanon List Bool ZArith Lia Permutation.
From Verif Require Import Scalar Base Ground MLinear MSweep MCompound Planar Spec Geom RayParity SegProofs BoxProofs PointProofs EqualProofs
  SweepStore SweepDetect SweepSteps Termination SweepSafe NoFail SweepTime SweepOrder SweepMoves SweepAdvance SweepLoop SweepEmit SweepRun SweepFound
  SweepLow SweepFlags SweepInside SweepMarks SweepTold OpenProofs Orient Walk Area Vertical AreaFlags AreaSem AreaAnswer Drawn.
Import ListNotations.
Open Scope Qc_scope.

(* Ends of a segment and times, seen forwards or backwards. *)
Definition fe (s : bool) (y : item) : point := if s then it_hi y else it_lo y.
Definition be (s : bool) (y : item) : point := if s then it_lo y else it_hi y.
Definition sg (s : bool) (q : Qc) : Qc := if s then q else - q.
Lemma cyc_from {A} (R : A * A -> Prop) (l : list A) :
  (forall a b c, In (a, b) (cyc_pairs l) -> In (b, c) (cyc_pairs l) -> R (a, b) -> R (b, c)) ->
  forall e0, In e0 (cyc_pairs l) -> R e0 -> forall e, In e (cyc_pairs l) -> R e.
Proof.
  intros Step e0 I0 R0 e I. assert (I1 : In (fst e0) l) by (rewrite <- (cyc_pairs_fst l); apply in_map, I0).
  assert (G : exists l', Permutation (cyc_pairs l) (cyc_pairs l') /\ firstn 1 (cyc_pairs l') = [e0]).
  { assert (X : exists n, nth_error (cyc_pairs l) n = Some e0) by (apply In_nth_error, I0). destruct X as (n & En).
    exists (skipn n l ++ firstn n l). split.
    - rewrite <- (firstn_skipn n l) at 1. apply cyc_pairs_rotate.
    - assert (Hn : nth_error l n = Some (fst e0)) by (rewrite <- (cyc_pairs_fst l), nth_error_map, En; reflexivity).
      destruct (nth_error_split l n Hn) as (l1 & l2 & E & Ln). subst n. rewrite E in *. rewrite skipn_app, skipn_all, Nat.sub_diag. cbn [skipn app].
      rewrite firstn_app, firstn_all, Nat.sub_diag. cbn [firstn]. rewrite app_nil_r. cbn [app].
      assert (K : exists b rest, l2 ++ l1 ++ [fst e0] = b :: rest /\ e0 = (fst e0, b)).
      { clear Step R0 I I0 I1 Hn. unfold cyc_pairs in En. destruct l1 as [|a l1].
        - cbn [app length nth_error] in *. destruct l2 as [|b l2]; cbn in En.
          + injection En as En. exists (fst e0), []. split; [reflexivity|]. rewrite <- En. reflexivity.
          + injection En as En. exists b, (l2 ++ [fst e0]). split; [reflexivity|]. rewrite <- En. reflexivity.
        - cbn [app] in En. destruct l2 as [|b l2].
          + assert (Z : nth_error (combine (a :: l1 ++ [fst e0]) ((l1 ++ [fst e0]) ++ [a])) (length (a :: l1)) = Some (fst e0, a)).
            { cbn [length]. clear. revert a. generalize (fst e0). intros u. assert (Q : forall x a, nth_error (combine (x :: l1 ++ [u]) ((l1 ++ [u]) ++ [a])) (S (length l1)) = Some (u, a)).
              { induction l1 as [|z l1 IH]; intros x a; [reflexivity|]. cbn [app length]. cbn [combine nth_error]. apply IH. }
              intros a. apply Q. }
            rewrite Z in En. injection En as En. exists a, (l1 ++ [fst e0]). split; [reflexivity|]. rewrite <- En. reflexivity.
          + assert (Z : nth_error (combine (a :: l1 ++ fst e0 :: b :: l2) ((l1 ++ fst e0 :: b :: l2) ++ [a])) (length (a :: l1)) = Some (fst e0, b)).
            { cbn [length]. clear. generalize (fst e0). intros u. assert (Q : forall x a, nth_error (combine (x :: l1 ++ u :: b :: l2) ((l1 ++ u :: b :: l2) ++ [a])) (S (length l1)) = Some (u, b)).
              { induction l1 as [|z l1 IH]; intros x a'; [reflexivity|]. cbn [app length]. cbn [combine nth_error]. apply IH. }
              apply Q. }
            rewrite Z in En. injection En as En. exists b, (l2 ++ (a :: l1) ++ [fst e0]). split; [reflexivity|]. rewrite <- En. reflexivity. }
      destruct K as (b & rest & K1 & K2). unfold cyc_pairs. rewrite <- app_assoc, K1. cbn [combine firstn]. rewrite <- K2. reflexivity. }
  destruct G as (l' & P & F). apply (cyc_all R l') with (e0 := e0); [|exact F|exact R0|exact (Permutation_in _ P I)].
  intros a b c A1 A2. apply Step; apply (Permutation_in _ (Permutation_sym P)); assumption.
Qed.
Lemma nearby_mem eps K K' T t : (forall p, In p K' -> In p K) -> nearby eps K T t -> nearby eps K' T t.
Proof. intros H [N R]. split; [exact N|]. intros p I. apply R, H, I. Qed.

Section Cover.
  Variable (eps : Qc) (inp : list item) (c : contour).
  Hypothesis (O : ordered eps (candidates inp)) (IO : items_ok inp) (AP : apart inp).
  Hypothesis (SC : simple_contour c) (Sd : side inp true = map (item_of true) (cyc_pairs (vertices c))).
  Hypothesis (Ev : even_ends inp false) (Sub : subset (side_has inp false) (side_has inp true)).
  Local Notation l := (cyc_pairs (vertices c)).
  Local Notation K := (candidates inp).

  Lemma cv_time x : In x inp -> tm eps (it_lo x) < tm eps (it_hi x).
  Proof using O IO. exact (item_time eps inp O IO x). Qed.
  Lemma cv_edge x : In x inp -> it_ft x = true -> exists e, In e l /\ x = item_of true e.
  Proof using Sd.
    intros I F. assert (J : In x (side inp true)) by (apply side_in; auto). rewrite Sd in J. apply in_map_iff in J. destruct J as (e & <- & J). exists e. auto.
  Qed.
  Lemma cv_item e : In e l -> In (item_of true e) inp /\ it_ft (item_of true e) = true.
  Proof using Sd. intros I. apply side_in. rewrite Sd. apply in_map, I. Qed.
  Lemma cv_free T t : nearby eps K T t -> time_free eps inp t.
  Proof using Type. intros N p I. exact (nearby_free eps K T t p N I). Qed.
  (* From a point along a segment: what is met at once contains the point. *)
  Lemma cv_back w z T t : In w inp -> In z inp -> nearby eps K T t -> tm eps (it_lo w) <= T -> T <= tm eps (it_hi w) -> tm eps (it_lo w) <= t -> t <= tm eps (it_hi w) ->
    on_item z (at_time eps w t) -> on_item z (at_time eps w T) /\ same_line eps w z.
  Proof using O IO.
    intros Iw Iz Nr T1 T2 t1 t2 H. destruct (cons_ordered inp IO eps w O Iw) as (O' & IO' & Ca).
    assert (Nr' : nearby eps (candidates (w :: inp)) T t) by (apply (nearby_mem eps K); [intros p; apply Ca|exact Nr]).
    pose proof (proj1 (on_item_time eps z _ (cv_time z Iz)) H) as B. rewrite at_time_tm in B. destruct B as (B1 & B2 & B3). cbn [at_time py] in B3. split.
    - destruct (segment_contains_point_spec (Seg (it_lo z) (it_hi z)) (at_time eps w T)) as [Y|Y]; [exact Y|exfalso].
      refine (no_meet eps inp w T t O' IO' Nr' T1 T2 t1 t2 z t Iz Y _ H). destruct (Qclt_le_dec T t); [left|right]; split; qlra.
    - apply (free_line eps inp O IO w z t); try assumption. exact (cv_free T t Nr).
  Qed.
  Lemma cv_on w T : In w inp -> tm eps (it_lo w) <= T -> T <= tm eps (it_hi w) -> on_item w (at_time eps w T).
  Proof using O IO. intros I A B. apply (at_item eps inp O IO); assumption. Qed.
  Lemma cv_germ y T t : In y inp -> it_ft y = false -> nearby eps K T t -> tm eps (it_lo y) <= T -> T <= tm eps (it_hi y) -> tm eps (it_lo y) <= t -> t <= tm eps (it_hi y) ->
    exists z, In z inp /\ it_ft z = true /\ on_item z (at_time eps y t) /\ on_item z (at_time eps y T) /\ same_line eps y z.
  Proof using O IO Sub.
    intros Iy Fy Nr T1 T2 t1 t2. destruct (Sub (at_time eps y t)) as (z & Iz & Fz & Oz); [exists y; split; [exact Iy|split; [exact Fy|exact (cv_on y t Iy t1 t2)]]|].
    destruct (cv_back y z T t Iy Iz Nr T1 T2 t1 t2 Oz) as [A B]. exists z. auto.
  Qed.
  Lemma cv_inner x y v : In x inp -> it_ft x = true -> In y inp -> it_ft y = false -> on_item x v -> on_item y v ->
    tm eps (it_lo x) < tm eps v -> tm eps v < tm eps (it_hi x) -> same_line eps x y.
  Proof using O IO SC Sd Sub.
    intros Ix Fx Iy Fy Ox Oy X1 X2. pose proof (item_at eps inp O IO y v Iy Oy) as Ev'. pose proof (proj1 (on_item_time eps y _ (cv_time y Iy)) Oy) as (Y1 & Y2 & _).
    destruct (nearby_in eps K _ _ (tm eps v) (cv_time y Iy) Y1 Y2) as (t & Nr & t1 & t2).
    destruct (cv_germ y (tm eps v) t Iy Fy Nr Y1 Y2) as (z & Iz & Fz & Z1 & Z2 & Z3); [qlra|qlra|]. rewrite <- Ev' in Z2.
    destruct (cv_edge x Ix Fx) as (e & Ie & Ee). destruct (cv_edge z Iz Fz) as (f & If & Ef). destruct (edge_dec e f) as [E|N].
    - subst f. rewrite <- Ee in Ef. subst z. apply same_line_sym, Z3.
    - exfalso. assert (A1 : on_segment (fst e) (snd e) v) by (apply (on_item_of true); rewrite <- Ee; exact Ox).
      assert (A2 : on_segment (fst f) (snd f) v) by (apply (on_item_of true); rewrite <- Ef; exact Z2).
      assert (V : v = fst e \/ v = snd e) by (destruct (simple_pairs c e f v SC Ie If N A1 A2) as [[_ W]|[_ W]]; auto).
      rewrite Ee in X1, X2. destruct (item_ends true e) as [(L1 & L2 & _)|(L1 & L2 & _)]; rewrite L1 in X1; rewrite L2 in X2; destruct V as [-> | ->]; qlra.
  Qed.
  Lemma cv_other y v : In y inp -> it_ft y = false -> v = it_lo y \/ v = it_hi y -> exists y', In y' inp /\ it_ft y' = false /\ y' <> y /\ (v = it_lo y' \/ v = it_hi y').
  Proof using O IO AP Ev.
    intros Iy Fy V. set (f := fun p : point => if pt_dec p v then true else false). set (h := fun y => xorb (f (it_lo y)) (f (it_hi y))).
    assert (Hh : forall z, In z inp -> (h z = true <-> v = it_lo z \/ v = it_hi z)).
    { intros z Iz. pose proof (cv_time z Iz) as Tz. unfold h, f. destruct (pt_dec (it_lo z) v) as [A|A], (pt_dec (it_hi z) v) as [B|B]; cbn [xorb].
      - exfalso. rewrite A, B in Tz. qlra.
      - split; auto.
      - split; auto.
      - split; [discriminate|]. intros [E|E]; congruence. }
    destruct (existsb (fun z => h z && if item_dec z y then false else true) (side inp false)) eqn:Ex.
    - apply existsb_exists in Ex. destruct Ex as (z & Iz & Hz). apply side_in in Iz. destruct Iz as [Iz Fz]. apply andb_true_iff in Hz. destruct Hz as [H1 H2].
      exists z. split; [exact Iz|]. split; [exact Fz|]. split; [destruct (item_dec z y); [discriminate|assumption]|]. apply (Hh z Iz), H1.
    - exfalso. pose proof (Ev f) as E0. change (parity h (side inp false) = false) in E0. rewrite (parity_one h (side inp false) y) in E0; [discriminate|apply side_nodup; assumption| | |].
      + apply side_in. auto.
      + apply (Hh y Iy), V.
      + intros z Iz Hz. destruct (item_dec z y) as [E|N]; [exact E|exfalso]. rewrite <- not_true_iff_false in Ex. apply Ex, existsb_exists. exists z.
        split; [exact Iz|]. rewrite Hz. destruct (item_dec z y); [contradiction|reflexivity].
  Qed.
  (* Two segments of a side on one line do not overlap. *)
  Lemma cv_same x y y' t : In y inp -> In y' inp -> it_ft y = it_ft y' -> same_line eps x y -> same_line eps x y' -> time_free eps inp t ->
    tm eps (it_lo y) <= t -> t <= tm eps (it_hi y) -> tm eps (it_lo y') <= t -> t <= tm eps (it_hi y') -> y' = y.
  Proof using O IO AP.
    intros Iy Iy' F S S' Fr A B A' B'.
    assert (H : forall z, In z inp -> t <= tm eps (it_hi z) -> t < tm eps (it_hi z)).
    { intros z Iz L. destruct (q_trichotomy t (tm eps (it_hi z))) as [Q|[Q|Q]]; [exact Q|exfalso; exact (Fr _ (candidate_hi inp z Iz) (eq_sym Q))|exfalso; qlra]. }
    apply (thru_unique eps inp O IO AP t (val eps x t) y y' Fr Iy Iy' F); apply thru_spec.
    - split; [exact A|]. split; [exact (H y Iy B)|]. symmetry. apply same_line_val, S.
    - split; [exact A'|]. split; [exact (H y' Iy' B')|]. symmetry. apply same_line_val, S'.
  Qed.
  Lemma cv_carry x y t : In y inp -> same_line eps x y -> tm eps (it_lo y) <= t -> t <= tm eps (it_hi y) -> on_item y (at_time eps x t).
  Proof using O IO.
    intros Iy S A B. apply (on_item_time eps y _ (cv_time y Iy)). rewrite at_time_tm. split; [exact A|]. split; [exact B|]. cbn [at_time py]. apply same_line_val, S.
  Qed.
  Lemma sg_span s x : In x inp -> sg s (tm eps (be s x)) < sg s (tm eps (fe s x)).
  Proof using O IO. intros I. pose proof (cv_time x I). destruct s; cbn [sg be fe]; qlra. Qed.
  Lemma sg_in s x t : sg s (tm eps (be s x)) <= sg s t -> sg s t <= sg s (tm eps (fe s x)) -> tm eps (it_lo x) <= t /\ t <= tm eps (it_hi x).
  Proof using Type. destruct s; cbn [sg be fe]; intros A B; split; qlra. Qed.
  Lemma in_sg s x t : tm eps (it_lo x) <= t -> t <= tm eps (it_hi x) -> sg s (tm eps (be s x)) <= sg s t /\ sg s t <= sg s (tm eps (fe s x)).
  Proof using Type. destruct s; cbn [sg be fe]; intros A B; split; qlra. Qed.
  Lemma sg_near s T u : sg s u < sg s T -> exists t, nearby eps K T t /\ sg s u < sg s t /\ sg s t < sg s T.
  Proof using Type.
    destruct s; cbn [sg]; intros H; [exact (nearby_before eps K T u H)|]. destruct (nearby_after eps K T u) as (t & N & A & B); [qlra|]. exists t. split; [exact N|]. split; qlra.
  Qed.
  Lemma sg_far s T u : sg s T < sg s u -> exists t, nearby eps K T t /\ sg s T < sg s t /\ sg s t < sg s u.
  Proof using Type.
    destruct s; cbn [sg]; intros H; [exact (nearby_after eps K T u H)|]. destruct (nearby_before eps K T u) as (t & N & A & B); [qlra|]. exists t. split; [exact N|]. split; qlra.
  Qed.
  Lemma be_fe s y v : v = it_lo y \/ v = it_hi y <-> v = be s y \/ v = fe s y.
  Proof using Type. destruct s; cbn [be fe]; tauto. Qed.
  Lemma sg_later s p q : sg s p = sg s q -> p = q.
  Proof using Type. destruct s; cbn [sg]; intros H; [exact H|]. rewrite <- (Qcopp_involutive p), H. apply Qcopp_involutive. Qed.

  (* Within one edge. *)
  Lemma cv_along s x t0 u : In x inp -> it_ft x = true -> time_free eps inp t0 -> tm eps (it_lo x) <= t0 -> t0 <= tm eps (it_hi x) ->
    side_has inp false (at_time eps x t0) -> tm eps (it_lo x) <= u -> u <= tm eps (it_hi x) -> sg s t0 < sg s u -> side_has inp false (at_time eps x u).
  Proof using O IO AP SC Sd Ev Sub.
    intros Ix Fx Fr A0 B0 (y0 & Iy0 & Fy0 & Oy0) Au Bu Lt. destruct (side_dec inp false (at_time eps x u)) as [D|D]; [exact D|exfalso].
    assert (Cov : forall y, In y inp -> it_ft y = false -> same_line eps x y -> sg s (tm eps (be s y)) <= sg s u -> sg s u <= sg s (tm eps (fe s y)) -> False).
    { intros y Iy Fy S C1 C2. destruct (sg_in s y u C1 C2) as [E1 E2]. apply D. exists y. split; [exact Iy|]. split; [exact Fy|exact (cv_carry x y u Iy S E1 E2)]. }
    destruct (in_sg s x u Au Bu) as [U1 U2]. destruct (in_sg s x t0 A0 B0) as [V1 V2].
    assert (V1' : sg s (tm eps (be s x)) < sg s t0).
    { destruct (q_trichotomy (sg s (tm eps (be s x))) (sg s t0)) as [Q|[Q|Q]]; [exact Q| |exfalso; qlra]. exfalso. apply sg_later in Q. refine (Fr (be s x) _ Q).
      destruct s; [apply candidate_lo|apply candidate_hi]; exact Ix. }
    pose proof (proj1 (on_item_time eps y0 _ (cv_time y0 Iy0)) Oy0) as B. rewrite at_time_tm in B. destruct B as (W1 & W2 & W3). cbn [at_time py] in W3.
    pose proof (free_line eps inp O IO x y0 t0 Ix Iy0 A0 B0 W1 W2 W3 Fr) as S0. destruct (in_sg s y0 t0 W1 W2) as [Y1 Y2].
    set (P := fun y => Bool.eqb (it_ft y) false && qleb (sg s t0) (sg s (tm eps (fe s y))) && segment_contains_point (Seg (it_lo x) (it_hi x)) (fe s y)).
    set (ls := map (fun y => sg s (tm eps (fe s y))) (filter P inp)).
    assert (InL : forall y, In y inp -> it_ft y = false -> same_line eps x y -> sg s t0 <= sg s (tm eps (fe s y)) -> sg s (tm eps (fe s y)) < sg s u -> In (sg s (tm eps (fe s y))) ls).
    { intros y Iy Fy S C1 C2. apply in_map_iff. exists y. split; [reflexivity|]. apply filter_In. split; [exact Iy|]. unfold P. rewrite Fy. cbn [Bool.eqb].
      apply andb_true_iff. split; [destruct (qleb_spec (sg s t0) (sg s (tm eps (fe s y)))); [reflexivity|contradiction]|].
      apply (proj1 (reflect_iff _ _ (segment_contains_point_spec (Seg (it_lo x) (it_hi x)) (fe s y)))). change (on_item x (fe s y)).
      assert (E : fe s y = at_time eps y (tm eps (fe s y))) by (apply (item_at eps inp O IO y _ Iy); destruct s; [apply on_segment_end|apply on_segment_start]).
      rewrite E. apply cv_carry; [exact Ix|apply same_line_sym, S| |]; apply (sg_in s x); qlra. }
    destruct (Qclt_le_dec (sg s (tm eps (fe s y0))) (sg s u)) as [L0|L0]; [|apply (Cov y0 Iy0 Fy0 S0); qlra].
    destruct (highest ls (sg s u)) as (h & Ih & Lh & Mx); [exists (sg s (tm eps (fe s y0))); split; [apply InL; assumption|exact L0]|].
    apply in_map_iff in Ih. destruct Ih as (y & Eh & Iy). apply filter_In in Iy. destruct Iy as [Iy Py]. unfold P in Py. apply andb_true_iff in Py. destruct Py as [Py P3].
    apply andb_true_iff in Py. destruct Py as [P1 P2]. apply eqb_prop in P1. destruct (qleb_spec (sg s t0) (sg s (tm eps (fe s y)))) as [P2'|]; [|discriminate]. clear P2.
    apply (proj2 (reflect_iff _ _ (segment_contains_point_spec (Seg (it_lo x) (it_hi x)) (fe s y)))) in P3. change (on_item x (fe s y)) in P3.
    set (v := fe s y) in *. subst h.
    assert (Iv : tm eps (it_lo x) < tm eps v /\ tm eps v < tm eps (it_hi x)).
    { clear - V1' P2' Lh U2. destruct s; cbn [sg be fe] in *; split; qlra. }
    destruct Iv as [Iv1 Iv2].
    assert (Oy : on_item y v) by (unfold v; destruct s; [apply on_segment_end|apply on_segment_start]).
    pose proof (cv_inner x y v Ix Fx Iy P1 P3 Oy Iv1 Iv2) as Sy.
    destruct (cv_other y v Iy P1) as (y' & Iy' & Fy' & Ny & Vy); [apply (be_fe s); right; reflexivity|].
    assert (Oy' : on_item y' v) by (destruct Vy as [-> | ->]; [apply on_segment_start|apply on_segment_end]).
    pose proof (cv_inner x y' v Ix Fx Iy' Fy' P3 Oy' Iv1 Iv2) as Sy'. pose proof (sg_span s y Iy) as Spy. pose proof (sg_span s y' Iy') as Spy'. fold v in Spy.
    apply (be_fe s) in Vy. destruct Vy as [Vy|Vy].
    - rewrite <- Vy in Spy'. destruct (Qclt_le_dec (sg s (tm eps (fe s y'))) (sg s u)) as [L|L].
      + destruct (Mx _ (InL y' Iy' Fy' Sy' ltac:(qlra) L)) as [Q|Q]; qlra.
      + apply (Cov y' Iy' Fy' Sy'); [rewrite <- Vy; qlra|qlra].
    - rewrite <- Vy in Spy'. apply Ny.
      assert (G : exists t, nearby eps K (tm eps v) t /\ sg s (tm eps (be s y)) < sg s t /\ sg s (tm eps (be s y')) < sg s t /\ sg s t < sg s (tm eps v)).
      { destruct (Qclt_le_dec (sg s (tm eps (be s y))) (sg s (tm eps (be s y')))) as [Q|Q].
        - destruct (sg_near s (tm eps v) (tm eps (be s y')) Spy') as (t & N & C1 & C2). exists t. split; [exact N|]. split; [qlra|split; qlra].
        - destruct (sg_near s (tm eps v) (tm eps (be s y)) Spy) as (t & N & C1 & C2). exists t. split; [exact N|]. split; [qlra|split; qlra]. }
      destruct G as (t & N & C1 & C2 & C3). destruct (sg_in s y t) as [D1 D2]; [qlra|fold v; qlra|]. destruct (sg_in s y' t) as [D3 D4]; [qlra|rewrite <- Vy; qlra|].
      apply (cv_same x y y' t); try assumption; [congruence|exact (cv_free _ _ N)].
  Qed.
  Lemma cv_edge_all x t0 u : In x inp -> it_ft x = true -> time_free eps inp t0 -> tm eps (it_lo x) <= t0 -> t0 <= tm eps (it_hi x) ->
    side_has inp false (at_time eps x t0) -> tm eps (it_lo x) <= u -> u <= tm eps (it_hi x) -> side_has inp false (at_time eps x u).
  Proof using O IO AP SC Sd Ev Sub.
    intros Ix Fx Fr A B H C D. destruct (q_trichotomy t0 u) as [Q|[Q|Q]]; [|subst u; exact H|].
    - apply (cv_along true x t0 u); assumption.
    - apply (cv_along false x t0 u); try assumption. cbn [sg]. qlra.
  Qed.

  Definition some_covered (e : point * point) : Prop := exists t, time_free eps inp t /\ tm eps (it_lo (item_of true e)) <= t /\ t <= tm eps (it_hi (item_of true e))
    /\ side_has inp false (at_time eps (item_of true e) t).
  Lemma cv_next a v d : In (a, v) l -> In (v, d) l -> some_covered (a, v) -> some_covered (v, d).
  Proof using O IO AP SC Sd Ev Sub.
    intros I1 I2 (t0 & Fr0 & A0 & B0 & H0). destruct (cv_item _ I1) as [Ix Fx]. destruct (cv_item _ I2) as [Ix' Fx'].
    set (x := item_of true (a, v)) in *. set (x' := item_of true (v, d)) in *.
    assert (Vx : v = it_lo x \/ v = it_hi x) by (destruct (item_ends true (a, v)) as [(L1 & L2 & _)|(L1 & L2 & _)]; fold x in L1, L2; rewrite L1, L2; cbn [fst snd]; auto).
    assert (Vs : exists s, v = fe s x) by (destruct Vx as [E|E]; [exists false|exists true]; exact E). destruct Vs as (s & Vs). pose proof (sg_span s x Ix) as Spx. rewrite <- Vs in Spx.
    destruct (sg_near s (tm eps v) (tm eps (be s x)) Spx) as (t & Nr & C1 & C2). destruct (sg_in s x t) as [D1 D2]; [qlra|rewrite <- Vs; qlra|].
    destruct (sg_in s x (tm eps v)) as [V1 V2]; [qlra|rewrite <- Vs; qlra|].
    assert (Ov : on_item x v) by (apply on_item_of; apply on_segment_end).
    pose proof (item_at eps inp O IO x v Ix Ov) as Ev'.
    destruct (cv_edge_all x t0 t Ix Fx Fr0 A0 B0 H0 D1 D2) as (y & Iy & Fy & Oy).
    destruct (cv_back x y (tm eps v) t Ix Iy Nr V1 V2 D1 D2 Oy) as [Ovy Sy]. rewrite <- Ev' in Ovy.
    pose proof (proj1 (on_item_time eps y _ (cv_time y Iy)) Ovy) as (Y1 & Y2 & _). destruct (in_sg s y _ Y1 Y2) as [Y3 Y4].
    assert (G : exists y' t', In y' inp /\ it_ft y' = false /\ on_item y' v /\ nearby eps K (tm eps v) t' /\ tm eps (it_lo y') <= t' /\ t' <= tm eps (it_hi y') /\ ~ on_item x (at_time eps y' t')).
    { destruct (Qclt_le_dec (sg s (tm eps v)) (sg s (tm eps (fe s y)))) as [L|L].
      - destruct (sg_far s _ _ L) as (t' & N' & E1 & E2). destruct (sg_in s y t') as [E3 E4]; [qlra|qlra|]. exists y, t'. repeat (split; [assumption|]).
        intros Q. apply (on_item_time eps x _ (cv_time x Ix)) in Q. rewrite at_time_tm in Q. destruct Q as (Q1 & Q2 & _). destruct (in_sg s x t' Q1 Q2) as [_ Q3]. rewrite <- Vs in Q3. qlra.
      - assert (Vy : v = fe s y).
        { assert (Q : tm eps v = tm eps (fe s y)) by (apply (sg_later s), Qcle_antisym; assumption).
          rewrite (item_at eps inp O IO y v Iy Ovy), Q. symmetry. apply (item_at eps inp O IO y _ Iy). destruct s; [apply on_segment_end|apply on_segment_start]. }
        destruct (cv_other y v Iy Fy) as (y' & Iy' & Fy' & Ny & Vy'); [apply (be_fe s); right; exact Vy|].
        assert (Oy' : on_item y' v) by (destruct Vy' as [W|W]; rewrite W; [apply on_segment_start|apply on_segment_end]).
        pose proof (proj1 (on_item_time eps y' _ (cv_time y' Iy')) Oy') as (Z1 & Z2 & _).
        destruct (nearby_in eps K _ _ (tm eps v) (cv_time y' Iy') Z1 Z2) as (t' & N' & E1 & E2). exists y', t'. repeat (split; [first [assumption|qlra]|]).
        intros Q. apply Ny. pose proof (proj1 (on_item_time eps x _ (cv_time x Ix)) Q) as Q'. rewrite at_time_tm in Q'. destruct Q' as (Q1 & Q2 & Q3). cbn [at_time py] in Q3.
        assert (Sy' : same_line eps x y') by (apply (free_line eps inp O IO x y' t'); first [exact (cv_free _ _ N')|assumption|symmetry; exact Q3|qlra]).
        destruct (in_sg s x t' Q1 Q2) as [Q4 Q5]. rewrite <- Vs in Q5.
        assert (Q6 : sg s t' < sg s (tm eps v)).
        { destruct (q_trichotomy (sg s t') (sg s (tm eps v))) as [W|[W|W]]; [exact W|exfalso; apply sg_later in W; exact (proj1 N' W)|exfalso; qlra]. }
        pose proof (sg_span s y Iy) as Spy. rewrite <- Vy in Spy.
        assert (Q7 : sg s (tm eps (be s y)) <= sg s t').
        { assert (Ic : In (be s y) K) by (destruct s; [apply candidate_lo|apply candidate_hi]; exact Iy).
          destruct (proj2 N' _ Ic) as [W|[[W1 W2]|[W1 W2]]]; [rewrite W in Spy; exfalso; qlra| |]; clear - W1 W2 Spy Q6; destruct s; cbn [sg be] in *; qlra. }
        destruct (sg_in s y t') as [R1 R2]; [exact Q7|rewrite <- Vy; qlra|].
        apply (cv_same x y y' t'); first [exact (cv_free _ _ N')|assumption|congruence|qlra]. }
    destruct G as (y' & t' & Iy' & Fy' & Oy' & N' & E1 & E2 & Nx). pose proof (item_at eps inp O IO y' v Iy' Oy') as Ev2.
    pose proof (proj1 (on_item_time eps y' _ (cv_time y' Iy')) Oy') as (Z1 & Z2 & _).
    destruct (cv_germ y' (tm eps v) t' Iy' Fy' N' Z1 Z2 E1 E2) as (z & Iz & Fz & Oz & Oz' & Sz). rewrite <- Ev2 in Oz'.
    destruct (cv_edge z Iz Fz) as (f & If & Ef).
    assert (Nf : (a, v) <> f) by (intros W; apply Nx; unfold x; rewrite W, <- Ef; exact Oz).
    assert (A1 : on_segment (fst (a, v)) (snd (a, v)) v) by apply on_segment_end.
    assert (A2 : on_segment (fst f) (snd f) v) by (apply (on_item_of true); rewrite <- Ef; exact Oz').
    assert (Zx : z = x').
    { unfold x'. rewrite Ef. f_equal. destruct f as [f1 f2]. destruct (simple_pairs c (a, v) (f1, f2) v SC I1 If Nf A1 A2) as [[W _]|[_ W]]; cbn [fst snd] in W.
      - subst f1. f_equal. apply (cyc_next_unique (vertices c) v); [apply SC|exact If|exact I2].
      - exfalso. exact (simple_step c a v SC I1 (eq_sym W)). }
    rewrite Zx in Oz. exists t'. fold x'. split; [exact (cv_free _ _ N')|]. pose proof (item_at eps inp O IO x' _ Ix' Oz) as Ex. rewrite at_time_tm in Ex.
    pose proof (proj1 (on_item_time eps x' _ (cv_time x' Ix')) Oz) as R. rewrite at_time_tm in R. destruct R as (R1 & R2 & _).
    split; [exact R1|]. split; [exact R2|]. rewrite <- Ex. exists y'. split; [exact Iy'|]. split; [exact Fy'|exact (cv_on y' t' Iy' E1 E2)].
  Qed.
  Lemma cv_all : (exists y, In y inp /\ it_ft y = false) -> subset (side_has inp true) (side_has inp false).
  Proof using O IO AP SC Sd Ev Sub.
    intros (y & Iy & Fy) p (x & Ix & Fx & Ox). destruct (cv_edge x Ix Fx) as (e & Ie & Ee).
    assert (G : some_covered e).
    { pose proof (cv_time y Iy) as Ty. destruct (nearby_after eps K _ _ Ty) as (t & Nr & T1 & T2).
      destruct (cv_germ y (tm eps (it_lo y)) t Iy Fy Nr) as (z & Iz & Fz & Oz & _ & _); [qlra..|]. destruct (cv_edge z Iz Fz) as (f & If & Ef).
      apply (cyc_from some_covered (vertices c) cv_next f If); [|exact Ie]. exists t. rewrite <- Ef. pose proof (item_at eps inp O IO z _ Iz Oz) as Ez. rewrite at_time_tm in Ez.
      pose proof (proj1 (on_item_time eps z _ (cv_time z Iz)) Oz) as R. rewrite at_time_tm in R. destruct R as (R1 & R2 & _).
      split; [exact (cv_free _ _ Nr)|]. split; [exact R1|]. split; [exact R2|]. rewrite <- Ez. exists y. split; [exact Iy|]. split; [exact Fy|]. apply cv_on; [exact Iy|qlra|qlra]. }
    destruct G as (t0 & Fr & A & B & H). rewrite <- Ee in A, B, H. rewrite (item_at eps inp O IO x p Ix Ox).
    apply (on_item_time eps x _ (cv_time x Ix)) in Ox. destruct Ox as (X1 & X2 & _). exact (cv_edge_all x t0 (tm eps p) Ix Fx Fr A B H X1 X2).
  Qed.
End Cover.

Lemma cyc_tidy c : simple_contour c -> tidy (cyc_pairs (vertices c)).
Proof. intros SC. split; [intros x y; apply simple_step, SC|apply simple_cyc_clean, SC]. Qed.
Lemma cyc_ends c p : ends_set (cyc_pairs (vertices c)) p <-> on_contour c p.
Proof. unfold ends_set, on_contour. split; [intros ([a b] & I & H); exists a, b; auto|intros (a & b & I & H); exists (a, b); auto]. Qed.
Lemma contour_covers c r : simple_contour c -> simple_contour r -> subset (on_contour r) (on_contour c) -> subset (on_contour c) (on_contour r).
Proof.
  intros C R Sb. set (g := cyc_pairs (vertices r)). set (t := cyc_pairs (vertices c)). destruct (two_ok g t (cyc_tidy r R) (cyc_tidy c C)) as [IO AP].
  set (inp := two_items g t) in *. destruct (ordered_exists (candidates inp)) as [eps O].
  assert (Hf : forall p, side_has inp false p <-> on_contour r p) by (intros p; rewrite (side_ends inp false g p (side_two g t false)); apply cyc_ends).
  assert (Ht : forall p, side_has inp true p <-> on_contour c p) by (intros p; rewrite (side_ends inp true t p (side_two g t true)); apply cyc_ends).
  assert (Ev : even_ends inp false).
  { intros f. assert (E : side inp false = map (item_of false) g) by exact (side_two g t false). rewrite E, parity_map.
    transitivity (parity (fun e => xorb (f (fst e)) (f (snd e))) g); [|apply parity_cyc]. apply parity_ext. intros e _.
    destruct (item_ends false e) as [(-> & -> & _)|(-> & -> & _)]; [reflexivity|]. apply xorb_comm. }
  intros p Hp. apply Hf. revert p Hp. intros p Hp. apply Ht in Hp. revert p Hp.
  apply (cv_all eps inp c O IO AP C (side_two g t true) Ev); [intros p H; apply Ht, Sb, Hf, H|].
  pose proof (simple_nonempty r R) as N. assert (Ng : g <> []) by (intros E; apply N; unfold g in E; rewrite <- (cyc_pairs_fst (vertices r)), E; reflexivity).
  destruct g as [|e g'] eqn:Eg; [congruence|]. exists (item_of false e). split; [left; reflexivity|apply item_of_ft].
Qed.
