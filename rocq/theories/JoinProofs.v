(* Collections put together (property C70). *)
From Coq Require Import QArith Qcanon List Bool ZArith Lia.
From Verif Require Import Scalar Base Ground MLinear MSweep MCompound Planar Spec SpecAreas SpecJoin Geom RayParity PointProofs SegProofs Area AreaQueries Areas Drawn Polygons PolyQueries NoFail.
Import ListNotations.
Open Scope Qc_scope.

(** * The relation of two areas told by six facts *)
Record facts := Facts { f_sub : bool; f_sup : bool; f_ii : bool; f_bb : bool; f_os : bool; f_so : bool }.
Definition facts_of (A B : area) (f : facts) : Prop :=
  (f_sub f = true <-> subset (a_cl A) (a_cl B)) /\ (f_sup f = true <-> subset (a_cl B) (a_cl A)) /\ (f_ii f = true <-> meets (a_in A) (a_in B))
  /\ (f_bb f = true <-> meets (a_on A) (a_on B)) /\ (f_os f = true <-> subset (a_on A) (a_on B)) /\ (f_so f = true <-> subset (a_on B) (a_on A)).
Definition told (f : facts) : relation :=
  if f_sub f then if f_sup f then EQUAL else if f_os f then COMPONENT else if f_bb f then ENCLOSED else WITHIN
  else if f_sup f then if f_so f then COMPOSITE else if f_bb f then ENCLOSES else COVER
  else if f_ii f then OVERLAP else if f_bb f then TOUCH else DISJOINT.
Lemma dec_bool (P : Prop) : P \/ ~ P -> exists b : bool, b = true <-> P.
Proof. intros [H|H]; [exists true; tauto|exists false]. split; [discriminate|contradiction]. Qed.
Lemma facts_exist A B : shaped A -> shaped B -> exists f, facts_of A B f.
Proof.
  intros SA SB. destruct (sh_decide A B SA SB) as (S & I & O & _). destruct (dec_bool _ I) as (bi & Hi). destruct (dec_bool _ O) as (bo & Ho).
  destruct (dec_bool _ (sh_on_sub A B SA SB)) as (b1 & H1). destruct (dec_bool _ (sh_on_sub B A SB SA)) as (b2 & H2).
  assert (D : forall X Y, shaped X -> shaped Y -> subset (a_cl X) (a_cl Y) \/ ~ subset (a_cl X) (a_cl Y)).
  { intros X Y SX SY. destruct (sh_sub_dec X Y SX SY) as [H|(p & P1 & P2)]; [left; exact H|right]. intros K. exact (sh_cl_out Y p SY (K p (or_introl P1)) P2). }
  destruct (dec_bool _ (D A B SA SB)) as (b3 & H3). destruct (dec_bool _ (D B A SB SA)) as (b4 & H4).
  exists (Facts b3 b4 bi bo b1 b2). unfold facts_of. cbn [f_sub f_sup f_ii f_bb f_os f_so]. tauto.
Qed.
Lemma bool_not (b : bool) P : (b = true <-> P) -> b = false -> ~ P.
Proof. intros H E K. apply H in K. congruence. Qed.
Lemma told_spec A B f : shaped A -> shaped B -> facts_of A B f -> areal_spec A B (told f).
Proof.
  intros SA SB (H1 & H2 & H3 & H4 & H5 & H6). unfold told. destruct (f_sub f) eqn:E1; destruct (f_sup f) eqn:E2.
  - intros p. split; [apply (proj1 H1 eq_refl)|apply (proj1 H2 eq_refl)].
  - pose proof (bool_not _ _ H2 eq_refl) as N2. assert (PP : proper_part A B) by (split; [apply (proj1 H1 eq_refl)|exact N2]). destruct (f_os f) eqn:E5; [split; [exact PP|apply (proj1 H5 eq_refl)]|].
    pose proof (bool_not _ _ H5 eq_refl) as N5. destruct (f_bb f) eqn:E4; [split; [exact PP|split; [apply (proj1 H4 eq_refl)|exact N5]]|]. split; [exact PP|exact (bool_not _ _ H4 eq_refl)].
  - pose proof (bool_not _ _ H1 eq_refl) as N2. assert (PP : proper_part B A) by (split; [apply (proj1 H2 eq_refl)|exact N2]).
    assert (Sw : meets (a_on A) (a_on B) <-> meets (a_on B) (a_on A)) by (split; intros (p & P1 & P2); exists p; auto). rewrite Sw in H4. destruct (f_so f) eqn:E5; [split; [exact PP|apply (proj1 H6 eq_refl)]|].
    pose proof (bool_not _ _ H6 eq_refl) as N5. destruct (f_bb f) eqn:E4; [split; [exact PP|split; [apply (proj1 H4 eq_refl)|exact N5]]|]. split; [exact PP|exact (bool_not _ _ H4 eq_refl)].
  - pose proof (bool_not _ _ H1 eq_refl) as N1. pose proof (bool_not _ _ H2 eq_refl) as N2. destruct (f_ii f) eqn:E3; [split; [apply (proj1 H3 eq_refl)|auto]|].
    pose proof (bool_not _ _ H3 eq_refl) as N3. destruct (f_bb f) eqn:E4; [split; [exact N3|apply (proj1 H4 eq_refl)]|]. pose proof (bool_not _ _ H4 eq_refl) as N4.
    intros K. destruct (sh_cl_meets A B SA SB K); contradiction.
Qed.
Lemma told_is A B f rel : shaped A -> shaped B -> facts_of A B f -> areal_spec A B rel -> rel = told f.
Proof.
  intros SA SB H S. destruct (sh_of A B SA SB rel S) as (x & E & _ & U). injection E as <-. symmetry. apply U. exact (told_spec A B f SA SB H).
Qed.

(** * Two areas put together *)
Record union (A B U : area) : Prop := {
  un_in : forall p, a_in U p <-> a_in A p \/ a_in B p;
  un_on : forall p, a_on U p <-> a_on A p \/ a_on B p;
  un_apart : forall p, a_in A p -> a_in B p -> False
}.
Definition imp (a b : bool) : bool := negb a || b.
Definition all_facts : list facts :=
  let bs := [true; false] in
  flat_map (fun a => flat_map (fun b => flat_map (fun c => flat_map (fun d => flat_map (fun e => map (Facts a b c d e) bs) bs) bs) bs) bs) bs.
Lemma facts_in f : In f all_facts.
Proof.
  assert (K : forall b : bool, In b [true; false]) by (intros []; cbn; auto). destruct f as [a b c d e g]. unfold all_facts. cbv zeta.
  do 5 (apply in_flat_map; eexists; split; [apply K|]). apply in_map. apply K.
Qed.
(* What holds of the facts of each area alone. *)
Definition sound (f : facts) : bool :=
  imp (f_sub f || f_sup f) (f_ii f) && imp (f_sub f && f_sup f) (f_os f && f_so f) && imp (f_os f || f_so f) (f_bb f).
(* What holds of two areas and their union. *)
Definition joint (a b u : facts) : bool :=
  eqb (f_sub u) (f_sub a && f_sub b) && eqb (f_ii u) (f_ii a || f_ii b) && eqb (f_bb u) (f_bb a || f_bb b) && eqb (f_os u) (f_os a && f_os b)
  && imp (f_sup a || f_sup b) (f_sup u) && imp (f_so a || f_so b) (f_so u)
  && imp (negb (f_ii a) && f_sup u) (f_sup b) && imp (negb (f_ii b) && f_sup u) (f_sup a)
  && negb (f_sup a && f_ii b) && negb (f_sup b && f_ii a)
  && imp (f_sup b && f_so u) (f_so b) && imp (f_sup a && f_so u) (f_so a)
  && imp (f_sup b && f_bb a) (f_bb b) && imp (f_sup a && f_bb b) (f_bb a)
  && imp (f_sub a && f_sup u) (f_os a) && imp (f_sub b && f_sup u) (f_os b).
Lemma table_checked : forallb (fun a => if sound a then forallb (fun b => if sound b then forallb (fun u => if sound u && joint a b u then existsb (relation_eqb (told u)) (joined_areas (told a) (told b)) else true) all_facts else true) all_facts else true) all_facts = true.
Proof. vm_compute. reflexivity. Qed.

Lemma imp_spec a b : (a = true -> b = true) -> imp a b = true.
Proof. destruct a, b; cbn; auto. Qed.
Lemma eqb_iff (a b : bool) (P Q : Prop) : (a = true <-> P) -> (b = true <-> Q) -> (P <-> Q) -> eqb a b = true.
Proof. intros H K E. destruct a, b; cbn; auto; exfalso; [apply (bool_not _ _ K eq_refl), E, H|apply (bool_not _ _ H eq_refl), E, K]; reflexivity. Qed.
Lemma and_iff (a b : bool) (P Q : Prop) : (a = true <-> P) -> (b = true <-> Q) -> (a && b = true <-> P /\ Q).
Proof. intros H K. rewrite andb_true_iff. tauto. Qed.
Lemma or_iff (a b : bool) (P Q : Prop) : (a = true <-> P) -> (b = true <-> Q) -> (a || b = true <-> P \/ Q).
Proof. intros H K. rewrite orb_true_iff. tauto. Qed.
Lemma not_iff (a : bool) (P : Prop) : (a = true <-> P) -> (negb a = true <-> ~ P).
Proof. intros H. destruct a; cbn; split; intros K; try discriminate; [exfalso; apply K, H; reflexivity|exact (bool_not _ _ H eq_refl)|reflexivity]. Qed.
Lemma facts_sound A B f : shaped A -> shaped B -> facts_of A B f -> sound f = true.
Proof.
  intros SA SB (H1 & H2 & H3 & H4 & H5 & H6). unfold sound. rewrite !andb_true_iff. split; [split|]; apply imp_spec; intros K.
  - apply H3. apply orb_true_iff in K. destruct K as [K|K]; [exact (sh_sub_in A B SA SB (proj1 H1 K))|exact (sh_sub_in' A B SA SB (proj1 H2 K))].
  - apply andb_true_iff in K. destruct K as [K1 K2]. apply andb_true_iff. apply H1 in K1. apply H2 in K2. split; [apply H5, (sh_equal_on A B SA SB)|apply H6, (sh_equal_on B A SB SA)]; intros p; split; auto.
  - apply H4. apply orb_true_iff in K. destruct K as [K|K]; [apply H5 in K; destruct (sh_some A SA) as (p & P)|apply H6 in K; destruct (sh_some B SB) as (p & P)]; exists p; auto.
Qed.
Section Union.
  Variable (A B U C : area).
  Hypothesis (SA : shaped A) (SB : shaped B) (SU : shaped U) (SC : shaped C) (Un : union A B U).
  Lemma un_cl p : a_cl U p <-> a_cl A p \/ a_cl B p.
  Proof using Un. unfold a_cl. rewrite (un_in _ _ _ Un), (un_on _ _ _ Un). tauto. Qed.
  Lemma un_in_on p : a_in A p -> a_on B p -> False.
  Proof using SU Un. intros H K. apply (sh_in_on U p SU); [apply (un_in _ _ _ Un)|apply (un_on _ _ _ Un)]; auto. Qed.
  Lemma un_on_in p : a_on A p -> a_in B p -> False.
  Proof using SU Un. intros H K. apply (sh_in_on U p SU); [apply (un_in _ _ _ Un)|apply (un_on _ _ _ Un)]; auto. Qed.
  (* The other one covers what is covered without common interior points. *)
  Lemma un_rest : ~ meets (a_in A) (a_in C) -> subset (a_cl C) (a_cl U) -> subset (a_cl C) (a_cl B).
  Proof using SA SB SU SC Un.
    intros N S. destruct (sh_sub_dec C B SC SB) as [K|(p & P1 & P2)]; [exact K|exfalso]. destruct (proj1 (un_cl p) (S p (or_introl P1))) as [[Q|Q]|Q].
    - apply N. exists p. auto.
    - destruct (sh_beside A C SA SC p true true Q P1) as (q & Q1 & Q2). apply N. exists q. auto.
    - exact (sh_cl_out B p SB Q P2).
  Qed.
  Lemma un_none : subset (a_cl C) (a_cl B) -> meets (a_in A) (a_in C) -> False.
  Proof using SA SB SU SC Un. intros S (p & P1 & P2). exact (un_apart _ _ _ Un p P1 (sh_in C B SC SB p S P2)). Qed.
  (* A boundary point of what [B] covers is not on the boundary of [A] only. *)
  Lemma un_edge p : subset (a_cl C) (a_cl B) -> a_on C p -> a_on A p -> a_on B p.
  Proof using SB SU Un. intros S H K. destruct (S p (or_intror H)) as [Q|Q]; [destruct (un_on_in p K Q)|exact Q]. Qed.
  Lemma un_inner : subset (a_cl A) (a_cl C) -> subset (a_cl C) (a_cl U) -> subset (a_on A) (a_on C).
  Proof using SA SB SU SC Un.
    intros S T p H. destruct (S p (or_intror H)) as [Q|Q]; [|exact Q]. exfalso. apply (sh_in_on U p SU); [exact (sh_in C U SC SU p T Q)|apply (un_on _ _ _ Un); auto].
  Qed.
End Union.
Lemma union_sym A B U : union A B U -> union B A U.
Proof. intros [H1 H2 H3]. split; [intros p; rewrite H1; tauto|intros p; rewrite H2; tauto|intros p P Q; exact (H3 p Q P)]. Qed.
Lemma union_joint A B U C a b u : shaped A -> shaped B -> shaped U -> shaped C -> union A B U -> facts_of A C a -> facts_of B C b -> facts_of U C u -> joint a b u = true.
Proof.
  intros SA SB SU SC Un (A1 & A2 & A3 & A4 & A5 & A6) (B1 & B2 & B3 & B4 & B5 & B6) (U1 & U2 & U3 & U4 & U5 & U6). pose proof (union_sym _ _ _ Un) as Nu. unfold joint. rewrite !andb_true_iff.
  repeat match goal with |- _ /\ _ => split end.
  - refine (eqb_iff _ _ _ _ U1 (and_iff _ _ _ _ A1 B1) _). split.
    + intros S. split; intros p P; apply S, (un_cl _ _ _ Un); auto.
    + intros [S T] p P. apply (un_cl _ _ _ Un) in P. destruct P; auto.
  - refine (eqb_iff _ _ _ _ U3 (or_iff _ _ _ _ A3 B3) _). split.
    + intros (p & P & Q). apply (un_in _ _ _ Un) in P. destruct P; [left|right]; exists p; auto.
    + intros [(p & P & Q)|(p & P & Q)]; exists p; (split; [apply (un_in _ _ _ Un); auto|exact Q]).
  - refine (eqb_iff _ _ _ _ U4 (or_iff _ _ _ _ A4 B4) _). split.
    + intros (p & P & Q). apply (un_on _ _ _ Un) in P. destruct P; [left|right]; exists p; auto.
    + intros [(p & P & Q)|(p & P & Q)]; exists p; (split; [apply (un_on _ _ _ Un); auto|exact Q]).
  - refine (eqb_iff _ _ _ _ U5 (and_iff _ _ _ _ A5 B5) _). split.
    + intros S. split; intros p P; apply S, (un_on _ _ _ Un); auto.
    + intros [S T] p P. apply (un_on _ _ _ Un) in P. destruct P; auto.
  - apply imp_spec. intros K. apply (or_iff _ _ _ _ A2 B2) in K. apply U2. intros p P. apply (un_cl _ _ _ Un). destruct K as [K|K]; auto.
  - apply imp_spec. intros K. apply (or_iff _ _ _ _ A6 B6) in K. apply U6. intros p P. apply (un_on _ _ _ Un). destruct K as [K|K]; auto.
  - apply imp_spec. intros K. apply (and_iff _ _ _ _ (not_iff _ _ A3) U2) in K. apply B2. exact (un_rest A B U C SA SB SU SC Un (proj1 K) (proj2 K)).
  - apply imp_spec. intros K. apply (and_iff _ _ _ _ (not_iff _ _ B3) U2) in K. apply A2. exact (un_rest B A U C SB SA SU SC Nu (proj1 K) (proj2 K)).
  - apply (not_iff _ _ (and_iff _ _ _ _ A2 B3)). intros [K1 K2]. exact (un_none B A U C SB SA SU SC Nu K1 K2).
  - apply (not_iff _ _ (and_iff _ _ _ _ B2 A3)). intros [K1 K2]. exact (un_none A B U C SA SB SU SC Un K1 K2).
  - apply imp_spec. intros K. apply (and_iff _ _ _ _ B2 U6) in K. apply B6. intros p P. destruct (proj1 (un_on _ _ _ Un p) (proj2 K p P)) as [Q|Q]; [exact (un_edge A B U C SB SU Un p (proj1 K) P Q)|exact Q].
  - apply imp_spec. intros K. apply (and_iff _ _ _ _ A2 U6) in K. apply A6. intros p P. destruct (proj1 (un_on _ _ _ Un p) (proj2 K p P)) as [Q|Q]; [exact Q|exact (un_edge B A U C SA SU Nu p (proj1 K) P Q)].
  - apply imp_spec. intros K. apply (and_iff _ _ _ _ B2 A4) in K. apply B4. destruct K as [K (p & P & Q)]. exists p. split; [exact (un_edge A B U C SB SU Un p K Q P)|exact Q].
  - apply imp_spec. intros K. apply (and_iff _ _ _ _ A2 B4) in K. apply A4. destruct K as [K (p & P & Q)]. exists p. split; [exact (un_edge B A U C SA SU Nu p K Q P)|exact Q].
  - apply imp_spec. intros K. apply (and_iff _ _ _ _ A1 U2) in K. apply A5. exact (un_inner A B U C SA SB SU SC Un (proj1 K) (proj2 K)).
  - apply imp_spec. intros K. apply (and_iff _ _ _ _ B1 U2) in K. apply B5. exact (un_inner B A U C SB SA SU SC Nu (proj1 K) (proj2 K)).
Qed.
Lemma relation_eqb_true (r s : relation) : relation_eqb r s = true -> r = s.
Proof. destruct r, s; cbn; intros H; congruence. Qed.
Lemma joined_spec A B U C ra rb ru : shaped A -> shaped B -> shaped U -> shaped C -> union A B U ->
  areal_spec A C ra -> areal_spec B C rb -> areal_spec U C ru -> In ru (joined_areas ra rb).
Proof.
  intros SA SB SU SC Un HA HB HU.
  destruct (facts_exist A C SA SC) as (a & Fa). destruct (facts_exist B C SB SC) as (b & Fb). destruct (facts_exist U C SU SC) as (u & Fu).
  rewrite (told_is A C a ra SA SC Fa HA), (told_is B C b rb SB SC Fb HB), (told_is U C u ru SU SC Fu HU).
  pose proof table_checked as T. rewrite forallb_forall in T. specialize (T a (facts_in a)). rewrite (facts_sound A C a SA SC Fa) in T.
  rewrite forallb_forall in T. specialize (T b (facts_in b)). rewrite (facts_sound B C b SB SC Fb) in T.
  rewrite forallb_forall in T. specialize (T u (facts_in u)). rewrite (facts_sound U C u SU SC Fu), (union_joint A B U C a b u SA SB SU SC Un Fa Fb Fu) in T. cbn [andb] in T.
  apply existsb_exists in T. destruct T as (x & I & E). apply relation_eqb_true in E. rewrite E. exact I.
Qed.
(* Against the area put together. *)
Lemma joined_spec_to A B U C ra rb ru : shaped A -> shaped B -> shaped U -> shaped C -> union A B U ->
  areal_spec C A ra -> areal_spec C B rb -> areal_spec C U ru -> In (complement ru) (joined_areas (complement ra) (complement rb)).
Proof. intros SA SB SU SC Un HA HB HU. apply (joined_spec A B U C); try assumption; apply areal_spec_swap; assumption. Qed.
