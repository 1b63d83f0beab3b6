(* Going up and down at one moment of the sweep: how the numbers of segments
   below a point change, and what this says about two areas. *)
From Coq Require Import QArith Qcanon List Bool ZArith Lia Permutation.
From Verif Require Import Scalar Base Ground MLinear MSweep MCompound Planar Spec Geom RayParity SegProofs
  SweepStore SweepDetect SweepSteps Termination SweepSafe SweepTime SweepOrder SweepMoves SweepAdvance SweepLoop SweepEmit SweepRun SweepFound
  SweepLow SweepFlags SweepInside SweepMarks SweepTold Walk Area.
Import ListNotations.
Open Scope Qc_scope.

Lemma parity_one {A} (f : A -> bool) (l : list A) x : NoDup l -> In x l -> f x = true -> (forall y, In y l -> f y = true -> y = x) -> parity f l = true.
Proof.
  induction l as [|z l IH]; intros N I F U; [destruct I|]. inversion N as [|? ? N1 N2]. subst. cbn [parity]. destruct I as [->|I].
  - rewrite F, (parity_false f l); [reflexivity|]. intros y Iy. apply not_true_is_false. intros Fy.
    rewrite <- (U y (or_intror Iy) Fy) in N1. contradiction.
  - assert (Fz : f z = false).
    { apply not_true_is_false. intros Fz. rewrite (U z (or_introl eq_refl) Fz) in N1. contradiction. }
    rewrite Fz, (IH N2 I F); [reflexivity|]. intros y Iy. apply U. right. exact Iy.
Qed.
Lemma highest (l : list Qc) H : (exists u, In u l /\ u < H) -> exists v, In v l /\ v < H /\ forall u, In u l -> u <= v \/ H <= u.
Proof.
  induction l as [|z l IH]; intros (u & I & L); [destruct I|].
  destruct (existsb (fun v => qltb v H) l) eqn:Ex.
  - apply existsb_exists in Ex. destruct Ex as (w & Iw & Lw). apply (reflect_iff _ _ (qltb_spec w H)) in Lw.
    destruct (IH (ex_intro _ w (conj Iw Lw))) as (v & Iv & Lv & Mv).
    destruct (Qclt_le_dec z H) as [Z|Z].
    + destruct (Qclt_le_dec v z) as [V|V].
      * exists z. split; [left; reflexivity|]. split; [exact Z|]. intros y [<-|Iy]; [left; qlra|]. destruct (Mv y Iy); [left; qlra|right; assumption].
      * exists v. split; [right; exact Iv|]. split; [exact Lv|]. intros y [<-|Iy]; [left; exact V|apply Mv, Iy].
    + exists v. split; [right; exact Iv|]. split; [exact Lv|]. intros y [<-|Iy]; [right; exact Z|apply Mv, Iy].
  - assert (N : forall y, In y l -> H <= y).
    { intros y Iy. destruct (Qclt_le_dec y H) as [Y|Y]; [|exact Y]. exfalso. rewrite <- not_true_iff_false in Ex. apply Ex.
      apply existsb_exists. exists y. split; [exact Iy|]. apply (reflect_iff _ _ (qltb_spec y H)), Y. }
    destruct I as [->|I]; [|exfalso; specialize (N u I); qlra]. exists u. split; [left; reflexivity|]. split; [exact L|].
    intros y [<-|Iy]; [left; qlra|right; apply N, Iy].
Qed.

Section Vertical.
  Variable (eps : Qc) (inp : list item).
  Hypothesis (O : ordered eps (candidates inp)) (IO : items_ok inp) (AP : apart inp).

  Definition pta (t h : Qc) : point := Pt (t - eps * h) h.
  Lemma pta_tm t h : tm eps (pta t h) = t.
  Proof. unfold tm, pta. cbn. ring. Qed.
  Lemma pta_at x t : pta t (val eps x t) = at_time eps x t.
  Proof. reflexivity. Qed.
  Lemma pta_eq p : p = pta (tm eps p) (py p).
  Proof. apply pt_eq; unfold pta, tm; cbn; ring. Qed.
  Definition thru (t h : Qc) (y : item) : bool := qleb (tm eps (it_lo y)) t && qltb t (tm eps (it_hi y)) && qeqb (val eps y t) h.
  Lemma thru_spec t h y : thru t h y = true <-> tm eps (it_lo y) <= t /\ t < tm eps (it_hi y) /\ val eps y t = h.
  Proof.
    unfold thru. rewrite !andb_true_iff, <- (reflect_iff _ _ (qleb_spec _ _)), <- (reflect_iff _ _ (qltb_spec _ _)), <- (reflect_iff _ _ (qeqb_spec _ _)). tauto.
  Qed.
  Lemma blw_pta t h y : blw eps (pta t h) y = true <-> tm eps (it_lo y) <= t /\ t < tm eps (it_hi y) /\ val eps y t < h.
  Proof. rewrite blw_spec, pta_tm. cbn [pta py]. tauto. Qed.
  Lemma on_thru t h y : In y inp -> time_free eps inp t -> (on_item y (pta t h) <-> thru t h y = true).
  Proof.
    intros Iy Fr. rewrite thru_spec, (on_item_time eps y _ (item_time eps inp O IO y Iy)), pta_tm. cbn [pta py]. split.
    - intros (A & B & C). split; [exact A|]. split; [|symmetry; exact C].
      destruct (q_trichotomy t (tm eps (it_hi y))) as [K|[K|K]]; [exact K|exfalso; exact (Fr _ (candidate_hi inp y Iy) (eq_sym K))|exfalso; qlra].
    - intros (A & B & C). split; [exact A|]. split; [qlra|symmetry; exact C].
  Qed.
  Lemma thru_unique t h x y : time_free eps inp t -> In x inp -> In y inp -> it_ft x = it_ft y -> thru t h x = true -> thru t h y = true -> y = x.
  Proof.
    intros Fr Ix Iy F Hx Hy. destruct (item_dec y x) as [E|N]; [exact E|exfalso].
    apply thru_spec in Hx, Hy. destruct Hx as (X1 & X2 & X3), Hy as (Y1 & Y2 & Y3).
    assert (Sl : same_line eps x y) by (apply (free_line eps inp O IO x y t); try assumption; try qlra; congruence).
    assert (M : exists u, t < u /\ u <= tm eps (it_hi x) /\ u <= tm eps (it_hi y)).
    { destruct (Qclt_le_dec (tm eps (it_hi x)) (tm eps (it_hi y))); [exists (tm eps (it_hi x))|exists (tm eps (it_hi y))]; repeat apply conj; qlra. }
    destruct M as (u & U1 & U2 & U3).
    assert (K : at_time eps x t = at_time eps x u).
    { apply (apart_pair inp x y AP Ix Iy (fun E => N (eq_sym E)) F).
      - apply (at_item eps inp O IO); [exact Ix|exact X1|qlra].
      - rewrite (at_time_eq eps x y t (same_line_val _ _ _ Sl t)). apply (at_item eps inp O IO); [exact Iy|exact Y1|qlra].
      - apply (at_item eps inp O IO); [exact Ix|qlra|exact U2].
      - rewrite (at_time_eq eps x y u (same_line_val _ _ _ Sl u)). apply (at_item eps inp O IO); [exact Iy|qlra|exact U3]. }
    apply (f_equal (tm eps)) in K. rewrite !at_time_tm in K. qlra.
  Qed.
  Lemma side_nodup s : NoDup (side inp s).
  Proof. apply NoDup_filter. apply apart_nodup; assumption. Qed.
  Lemma thru_one t x s : time_free eps inp t -> In x inp -> it_ft x = s -> tm eps (it_lo x) <= t -> t < tm eps (it_hi x) ->
    parity (thru t (val eps x t)) (side inp s) = true.
  Proof.
    intros Fr Ix F A B. assert (Hx : thru t (val eps x t) x = true) by (apply thru_spec; auto).
    apply (parity_one _ _ x (side_nodup s)); [apply side_in; auto|exact Hx|].
    intros y Iy Hy. apply side_in in Iy. apply (thru_unique t (val eps x t)); try tauto. destruct Iy; congruence.
  Qed.
  Lemma thru_none t h s : time_free eps inp t -> ~ side_has inp s (pta t h) -> parity (thru t h) (side inp s) = false.
  Proof.
    intros Fr N. apply parity_false. intros y Iy. apply side_in in Iy. apply not_true_is_false. intros H. apply N.
    exists y. split; [apply Iy|]. split; [apply Iy|]. apply on_thru; [apply Iy|exact Fr|exact H].
  Qed.
  Definition gap (t h h' : Qc) : Prop := h < h' /\ forall y, In y inp -> tm eps (it_lo y) <= t -> t < tm eps (it_hi y) -> val eps y t <= h \/ h' <= val eps y t.
  Lemma gap_low t h h' s : gap t h h' -> low eps inp s (pta t h') = xorb (low eps inp s (pta t h)) (parity (thru t h) (side inp s)).
  Proof.
    intros [L G]. unfold low. rewrite parity_xor. apply parity_ext. intros y Iy. apply side_in in Iy. destruct Iy as [Iy _].
    assert (B1 := blw_pta t h' y). assert (B2 := blw_pta t h y). assert (B3 := thru_spec t h y). specialize (G y Iy).
    destruct (blw eps (pta t h') y), (blw eps (pta t h) y), (thru t h y); cbn; try reflexivity; exfalso.
    - destruct (proj1 B2 eq_refl) as (_ & _ & X), (proj1 B3 eq_refl) as (_ & _ & Y). qlra.
    - destruct (proj1 B1 eq_refl) as (X1 & X2 & X3). destruct (G X1 X2) as [G'|G']; [|qlra].
      destruct (q_trichotomy (val eps y t) h) as [K|[K|K]]; [assert (false = true) by (apply B2; auto)|assert (false = true) by (apply B3; auto)|qlra]; discriminate.
    - assert (Z : false = true); [|discriminate]. apply B1. destruct (proj1 B2 eq_refl) as (X1 & X2 & X3). repeat apply conj; try assumption. qlra.
    - assert (Z : false = true); [|discriminate]. apply B1. destruct (proj1 B3 eq_refl) as (X1 & X2 & X3). repeat apply conj; try assumption. rewrite X3. exact L.
  Qed.
  (* Just above and just below a height. *)
  Lemma just_above t h : time_free eps inp t -> exists h', gap t h h' /\ forall s, ~ side_has inp s (pta t h').
  Proof.
    intros Fr. assert (L : h < h + 1) by qlra. destruct (soon_between (map (fun y => val eps y t) inp) h _ L) as (h' & H1 & _ & H2).
    exists h'. split.
    - split; [exact H1|]. intros y Iy _ _. destruct (H2 _ (in_map (fun y => val eps y t) _ _ Iy)); [left; assumption|right; qlra].
    - intros s (y & Iy & _ & Hy). apply (on_thru t h' y Iy Fr), thru_spec in Hy. destruct Hy as (_ & _ & E).
      destruct (H2 _ (in_map (fun y => val eps y t) _ _ Iy)); cbv beta in *; qlra.
  Qed.
  Lemma just_below t h : time_free eps inp t -> exists h', gap t h' h /\ forall s, ~ side_has inp s (pta t h').
  Proof.
    intros Fr. assert (L : - h < - h + 1) by qlra. destruct (soon_between (map (fun y => - val eps y t) inp) _ _ L) as (h' & H1 & _ & H2).
    exists (- h'). split.
    - split; [qlra|]. intros y Iy _ _. destruct (H2 _ (in_map (fun y => - val eps y t) _ _ Iy)); cbv beta in *; [right; qlra|left; qlra].
    - intros s (y & Iy & _ & Hy). apply (on_thru t (- h') y Iy Fr), thru_spec in Hy. destruct Hy as (_ & _ & E).
      destruct (H2 _ (in_map (fun y => - val eps y t) _ _ Iy)); cbv beta in *; qlra.
  Qed.
  (* Around a point of a segment at a free time. *)
  Lemma around_point x t : In x inp -> time_free eps inp t -> tm eps (it_lo x) <= t -> t < tm eps (it_hi x) ->
    exists u d, (forall s, ~ side_has inp s u) /\ (forall s, ~ side_has inp s d)
      /\ low eps inp (it_ft x) u = negb (low eps inp (it_ft x) (at_time eps x t)) /\ low eps inp (it_ft x) d = low eps inp (it_ft x) (at_time eps x t)
      /\ (let s := negb (it_ft x) in low eps inp s d = low eps inp s (at_time eps x t)
          /\ (~ side_has inp s (at_time eps x t) -> low eps inp s u = low eps inp s (at_time eps x t))
          /\ (side_has inp s (at_time eps x t) -> low eps inp s u = negb (low eps inp s (at_time eps x t)))).
  Proof.
    intros Ix Fr A B. set (h := val eps x t). destruct (just_above t h Fr) as (h1 & G1 & N1), (just_below t h Fr) as (h2 & G2 & N2).
    exists (pta t h1), (pta t h2). split; [exact N1|]. split; [exact N2|]. rewrite <- pta_at. fold h.
    assert (Dn : forall s, low eps inp s (pta t h2) = low eps inp s (pta t h)).
    { intros s. rewrite (gap_low t h2 h s G2), (thru_none t h2 s Fr (N2 s)), xorb_false_r. reflexivity. }
    split; [rewrite (gap_low t h h1 _ G1); unfold h; rewrite (thru_one t x _ Fr Ix eq_refl A B); apply xorb_true_r|]. split; [apply Dn|]. cbv zeta.
    split; [apply Dn|]. split.
    - intros N. rewrite (gap_low t h h1 _ G1), (thru_none t h _ Fr N), xorb_false_r. reflexivity.
    - intros (y & Iy & Fy & Hy). rewrite (gap_low t h h1 _ G1). apply (on_thru t h y Iy Fr), thru_spec in Hy. destruct Hy as (Y1 & Y2 & Y3).
      rewrite <- Y3, (thru_one t y _ Fr Iy Fy Y1 Y2), xorb_true_r. reflexivity.
  Qed.
  (* Falling down from a point of an area until a segment is met. *)
  Lemma fall p s : time_free eps inp (tm eps p) -> low eps inp s p = true ->
    exists x, In x inp /\ tm eps (it_lo x) <= tm eps p /\ tm eps p < tm eps (it_hi x)
      /\ forall s', low eps inp s' p = xorb (low eps inp s' (at_time eps x (tm eps p))) (parity (thru (tm eps p) (val eps x (tm eps p))) (side inp s')).
  Proof.
    intros Fr L. set (t := tm eps p) in *.
    set (cov := filter (fun y => qleb (tm eps (it_lo y)) t && qltb t (tm eps (it_hi y))) inp).
    assert (Cv : forall y, In y cov <-> In y inp /\ tm eps (it_lo y) <= t /\ t < tm eps (it_hi y)).
    { intros y. unfold cov. rewrite filter_In, andb_true_iff, <- (reflect_iff _ _ (qleb_spec _ _)), <- (reflect_iff _ _ (qltb_spec _ _)). tauto. }
    destruct (highest (map (fun y => val eps y t) cov) (py p)) as (v & Iv & Lv & Mv).
    { assert (Ex : exists y, In y (side inp s) /\ blw eps p y = true).
      { destruct (existsb (blw eps p) (side inp s)) eqn:E; [apply existsb_exists in E; exact E|exfalso].
        unfold low in L. rewrite (parity_false (blw eps p)) in L; [discriminate|]. intros y Iy. apply not_true_is_false. intros K.
        rewrite <- not_true_iff_false in E. apply E. apply existsb_exists. exists y. auto. }
      destruct Ex as (y & Iy & H). apply side_in in Iy. apply blw_spec in H. fold t in H. destruct H as (H1 & H2 & H3).
      exists (val eps y t). split; [|exact H3]. apply (in_map (fun y => val eps y t)). apply Cv. tauto. }
    apply in_map_iff in Iv. destruct Iv as (x & <- & Ix). apply Cv in Ix. destruct Ix as (Ix & X1 & X2).
    exists x. split; [exact Ix|]. split; [exact X1|]. split; [exact X2|]. intros s'.
    rewrite <- pta_at, <- (gap_low t (val eps x t) (py p) s'); [rewrite (pta_eq p) at 1; reflexivity|]. split; [exact Lv|].
    intros y Iy Y1 Y2. apply Mv. apply (in_map (fun y => val eps y t)). apply Cv. auto.
  Qed.
End Vertical.
