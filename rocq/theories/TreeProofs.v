(* The containers of ContainerTrees.v are correct. *)
From Coq Require Import List Bool Permutation Lia.
From Verif Require Import MSweep MContainers SpecContainers ContainerTrees.
Import ListNotations.

Lemma nodup_l {A} (l r : list A) : NoDup (l ++ r) -> NoDup l.
Proof.
  induction l as [|x l IH]; cbn [app]; intros N; [constructor|]. inversion N as [|? ? K N']; subst. constructor; [|apply IH, N'].
  intros I. apply K, in_app_iff. left. exact I.
Qed.
Lemma nodup_r {A} (l r : list A) : NoDup (l ++ r) -> NoDup r.
Proof. induction l as [|x l IH]; cbn [app]; intros N; [exact N|]. inversion N; auto. Qed.

(** * Skew heap *)
Section Heap.
  Context {A : Type}.
  Fixpoint elems (t : tree A) : list A := match t with Leaf => [] | Node l x r => x :: elems l ++ elems r end.
  Fixpoint heap (lt : A -> A -> bool) (t : tree A) : Prop :=
    match t with
    | Leaf => True
    | Node l x r => (forall y, In y (elems l ++ elems r) -> lt x y = true) /\ heap lt l /\ heap lt r
    end.
  Variable lt : A -> A -> bool.
  Lemma merge_perm a : forall b, Permutation (elems (merge lt a b)) (elems a ++ elems b).
  Proof using Type.
    induction a as [|al IHl x ar IHr]; intros b; [reflexivity|].
    induction b as [|bl IHbl y br IHbr]; [cbn [merge elems]; rewrite app_nil_r; reflexivity|].
    cbn [merge]. destruct (lt y x).
    - change (Permutation (y :: elems (merge lt (Node al x ar) br) ++ elems bl) (elems (Node al x ar) ++ y :: elems bl ++ elems br)).
      rewrite IHbr, <- Permutation_middle. constructor. rewrite <- app_assoc. apply Permutation_app_head, Permutation_app_comm.
    - change (Permutation (x :: elems (merge lt ar (Node bl y br)) ++ elems al) ((x :: elems al ++ elems ar) ++ elems (Node bl y br))).
      rewrite IHr. cbn [app]. constructor. rewrite Permutation_app_comm, app_assoc. reflexivity.
  Qed.
  Lemma merge_in a b z : In z (elems (merge lt a b)) <-> In z (elems a) \/ In z (elems b).
  Proof using Type. rewrite <- in_app_iff. split; apply Permutation_in; [|symmetry]; apply merge_perm. Qed.
  Lemma merge_heap a : forall b, NoDup (elems a ++ elems b) -> orders lt (elems a ++ elems b) -> heap lt a -> heap lt b ->
    heap lt (merge lt a b).
  Proof using Type.
    induction a as [|al IHl x ar IHr]; intros b; [intros _ _ _ H; exact H|].
    induction b as [|bl IHbl y br IHbr]; intros N O Ha Hb; [exact Ha|].
    assert (Ia : forall z, In z (elems (Node al x ar)) -> In z (elems (Node al x ar) ++ elems (Node bl y br))) by (intros z I; apply in_app_iff; auto).
    assert (Ib : forall z, In z (elems (Node bl y br)) -> In z (elems (Node al x ar) ++ elems (Node bl y br))) by (intros z I; apply in_app_iff; auto).
    assert (D : forall z w, In z (elems (Node al x ar)) -> In w (elems (Node bl y br)) -> z <> w).
    { intros z w Iz Iw ->. apply in_split in Iz. destruct Iz as (l1 & l2 & E). rewrite E in N. rewrite <- app_assoc in N. cbn [app] in N.
      apply NoDup_remove_2 in N. apply N. rewrite !in_app_iff. auto. }
    assert (Da : forall z, In z (elems al ++ elems ar) -> x <> z).
    { intros z I ->. cbn [elems app] in N. inversion N as [|? ? K _]; subst. apply K, in_app_iff. left. exact I. }
    assert (Db : forall z, In z (elems bl ++ elems br) -> y <> z).
    { intros z I ->. cbn [elems] in N. apply NoDup_remove_2 in N. apply N, in_app_iff. right. exact I. }
    cbn [heap] in Ha, Hb. destruct Ha as (Hx & Ha1 & Ha2), Hb as (Hy & Hb1 & Hb2). cbn [merge].
    destruct (lt y x) eqn:L.
    - change (heap lt (Node (merge lt (Node al x ar) br) y bl)). cbn [heap]. split.
      + intros z I. apply in_app_iff in I. rewrite merge_in in I. destruct I as [[I|I]|I]; [|apply Hy, in_app_iff; auto..].
        cbn [elems] in I. destruct I as [<-|I]; [exact L|].
        apply (or_trans _ _ O y x z); [apply Ib; left; reflexivity|apply Ia; left; reflexivity|apply Ia; right; exact I| | | |exact L|apply Hx, I].
        * apply not_eq_sym, D; left; reflexivity. * apply Da, I. * apply not_eq_sym, D; [right; exact I|left; reflexivity].
      + split; [|exact Hb1]. apply IHbr; [| |cbn [heap]; auto|exact Hb2].
        * clear -N. cbn [elems] in N. apply NoDup_remove_1 in N. rewrite (Permutation_app_comm (elems bl)) in N. rewrite app_assoc in N. apply nodup_l in N. exact N.
        * assert (Sb : forall z, In z (elems (Node al x ar) ++ elems br) -> In z (elems (Node al x ar) ++ elems (Node bl y br))).
          { intros z I. apply in_app_iff in I. destruct I as [I|I]; [apply Ia, I|apply Ib]. right. apply in_app_iff. right. exact I. }
          constructor; intros; [apply (or_total _ _ O); auto|eapply (or_trans _ _ O); [..|eassumption|eassumption]; auto].
    - assert (L' : lt x y = true).
      { rewrite (or_total _ _ O x y); [rewrite L; reflexivity|apply Ia; left; reflexivity|apply Ib; left; reflexivity|apply D; left; reflexivity]. }
      change (heap lt (Node (merge lt ar (Node bl y br)) x al)). cbn [heap]. split.
      + intros z I. apply in_app_iff in I. rewrite merge_in in I. destruct I as [[I|I]|I]; [apply Hx, in_app_iff; auto| |apply Hx, in_app_iff; auto].
        cbn [elems] in I. destruct I as [<-|I]; [exact L'|].
        apply (or_trans _ _ O x y z); [apply Ia; left; reflexivity|apply Ib; left; reflexivity|apply Ib; right; exact I| | | |exact L'|apply Hy, I].
        * apply D; left; reflexivity. * apply Db, I. * apply D; [left; reflexivity|right; exact I].
      + split; [|exact Ha1]. apply IHr; [| |exact Ha2|cbn [heap]; auto].
        * clear -N. change (elems (Node al x ar)) with ((x :: elems al) ++ elems ar) in N. rewrite <- app_assoc in N. apply nodup_r in N. exact N.
        * assert (Sb : forall z, In z (elems ar ++ elems (Node bl y br)) -> In z (elems (Node al x ar) ++ elems (Node bl y br))).
          { intros z I. apply in_app_iff in I. destruct I as [I|I]; [apply Ia|apply Ib, I]. right. apply in_app_iff. right. exact I. }
          constructor; intros; [apply (or_total _ _ O); auto|eapply (or_trans _ _ O); [..|eassumption|eassumption]; auto].
  Qed.
End Heap.
Lemma orders_same {A} (lt : A -> A -> bool) l l' : Permutation l l' -> orders lt l -> orders lt l'.
Proof.
  intros P O. assert (I : forall x, In x l' -> In x l) by (intros x; apply Permutation_in, Permutation_sym, P).
  constructor; intros; [apply (or_total _ _ O); auto|eapply (or_trans _ _ O); [..|eassumption|eassumption]; auto].
Qed.
Lemma heap_stable {A} (lt lt' : A -> A -> bool) t : NoDup (elems t) ->
  (forall x y, In x (elems t) -> In y (elems t) -> x <> y -> lt' x y = lt x y) -> heap lt t -> heap lt' t.
Proof.
  induction t as [|l IHl x r IHr]; intros N E H; [exact I|]. cbn [elems] in N. inversion N as [|? ? Nx N']; subst.
  destruct H as (H1 & H2 & H3). cbn [heap]. split.
  - intros y Iy. rewrite E; [apply H1, Iy|left; reflexivity|right; exact Iy|]. intros ->. contradiction.
  - split; [apply IHl|apply IHr]; try assumption.
    + apply nodup_l in N'. exact N'.
    + intros u v Iu Iv. apply E; right; apply in_app_iff; auto.
    + apply nodup_r in N'. exact N'.
    + intros u v Iu Iv. apply E; right; apply in_app_iff; auto.
Qed.
Definition skew_heap_correct : pq_correct skew_heap.
Proof.
  refine (Build_pq_correct skew_heap (fun lt h l => Permutation (elems h) l /\ heap lt h) _ _ _ _ _ _ _); cbn.
  - intros lt h l l' P [E H]. split; [rewrite E; exact P|exact H].
  - intros lt lt' h l N Eq [E H]. split; [exact E|]. apply (heap_stable lt); [rewrite E; exact N| |exact H].
    intros x y Ix Iy. apply Eq; rewrite <- E; assumption.
  - intros lt. split; constructor.
  - intros lt h l e N O [E H]. split.
    + change (Permutation (elems (merge lt (Node Leaf e Leaf) h)) (e :: l)). rewrite merge_perm. cbn [elems app]. rewrite E. reflexivity.
    + change (heap lt (merge lt (Node Leaf e Leaf) h)). apply merge_heap; cbn [elems app heap]; [rewrite E; exact N| | |exact H].
      * apply (orders_same lt (e :: l)); [rewrite E; reflexivity|exact O].
      * split; [intros y []|auto].
  - intros lt h l [E _] _ _ K. destruct h; [|discriminate]. apply Permutation_nil. exact E.
  - intros lt h l e [E H] N O K. destruct h as [|a x b]; [discriminate|]. injection K as <-. split; [rewrite <- E; left; reflexivity|].
    intros f If D. rewrite <- E in If. destruct If as [If|If]; [congruence|]. apply H, If.
  - intros lt h l e N O [E H] K. destruct h as [|a x b]; [discriminate|]. injection K as ->. cbn [elems] in E. apply Permutation_cons_inv in E.
    split; [rewrite merge_perm; exact E|]. inversion N as [|? ? N1 N2]; subst. apply merge_heap; [rewrite E; exact N2| |apply H|apply H].
    apply (orders_same lt l); [symmetry; exact E|].
    constructor; intros; [apply (or_total _ _ O); [right; assumption..|assumption]|].
    eapply (or_trans _ _ O); [right; eassumption|right; exact H1|right; assumption|..]; eassumption.
Defined.

(** * Binary search tree *)
Lemma listed_side {X} (lt : X -> X -> bool) A x B y : listed lt (A ++ x :: B) ->
  (In y A -> lt y x = true /\ lt x y = false) /\ (In y B -> lt x y = true /\ lt y x = false).
Proof.
  intros [_ F]. induction A as [|a A IH]; cbn [app] in F.
  - inversion F as [|? ? Fx F']; subst. split; [intros []|]. intros I. apply (proj1 (Forall_forall _ _) Fx y I).
  - inversion F as [|? ? Fx F']; subst. destruct (IH F') as [I1 I2]. split; [|exact I2]. intros [<-|I]; [|apply I1, I].
    apply (proj1 (Forall_forall _ _) Fx x). apply in_app_iff. right. left. reflexivity.
Qed.
(* Where a member of a list lies with respect to a cut. *)
Lemma cut_at {X} (L R A B : list X) y : L ++ y :: R = A ++ B ->
  (exists B1, B = B1 ++ y :: R /\ L = A ++ B1) \/ (exists A1, A = L ++ y :: A1 /\ R = A1 ++ B).
Proof.
  revert A. induction L as [|z L IH]; intros [|a A]; cbn [app]; intros E.
  - left. exists []. split; [symmetry; exact E|reflexivity].
  - injection E as -> ->. right. exists A. split; reflexivity.
  - left. exists (z :: L). split; [symmetry; exact E|reflexivity].
  - injection E as -> E. destruct (IH _ E) as [(B1 & -> & ->)|(A1 & -> & ->)]; [left; exists B1|right; exists A1]; split; reflexivity.
Qed.
Lemma listed_sub {X} (lt : X -> X -> bool) l1 l2 l3 : listed lt (l1 ++ l2 ++ l3) -> listed lt l2.
Proof.
  intros [I F]. split; [exact I|]. revert F. induction l1 as [|a l1 IH]; cbn [app]; intros F; [|inversion F; auto].
  induction l2 as [|b l2 IH]; [constructor|]. cbn [app] in F. inversion F as [|? ? Fb F']; subst. constructor; [|apply IH, F'].
  apply Forall_app in Fb. apply Fb.
Qed.
Lemma add_inorder lt x t : forall A B, inorder t = A ++ B -> listed lt (A ++ x :: B) -> inorder (tree_add lt x t) = A ++ x :: B.
Proof.
  induction t as [|l IHl y r IHr]; intros A B E H; cbn [inorder tree_add] in *.
  - symmetry in E. apply app_eq_nil in E. destruct E as [-> ->]. reflexivity.
  - pose proof (listed_side lt A x B y H) as [S1 S2]. destruct (cut_at _ _ _ _ _ E) as [(B1 & -> & El)|(A1 & -> & Er)].
    + destruct (S2 (in_elt _ _ _)) as [-> _]. cbn [inorder]. rewrite (IHl A B1 El); [rewrite <- app_assoc; reflexivity|].
      apply (listed_sub lt [] _ (y :: inorder r)). cbn [app]. rewrite <- app_assoc. exact H.
    + destruct (S1 (in_elt _ _ _)) as [-> ->]. cbn [inorder]. rewrite (IHr A1 B Er); [rewrite <- app_assoc; reflexivity|].
      apply (listed_sub lt (inorder l ++ [y]) _ []). rewrite app_nil_r. rewrite <- !app_assoc in *. exact H.
Qed.
Lemma join_inorder {A} (l r : tree A) : inorder (join l r) = inorder l ++ inorder r.
Proof. induction l as [|a IHa x b IHb]; [reflexivity|]. cbn [join inorder]. rewrite IHb, <- app_assoc. reflexivity. Qed.
(* A search for a member goes left, right or has found it. *)
Lemma search_cases {X} (lt : X -> X -> bool) A x B l y r : listed lt (A ++ x :: B) -> inorder l ++ y :: inorder r = A ++ x :: B ->
  (exists B1, B = B1 ++ y :: inorder r /\ inorder l = A ++ x :: B1 /\ lt x y = true /\ lt y x = false /\ listed lt (A ++ x :: B1))
  \/ (y = x /\ A = inorder l /\ B = inorder r /\ lt x x = false)
  \/ (exists A1, A = inorder l ++ y :: A1 /\ inorder r = A1 ++ x :: B /\ lt y x = true /\ lt x y = false /\ listed lt (A1 ++ x :: B)).
Proof.
  intros H E. pose proof (listed_side lt A x B y H) as [S1 S2]. destruct (cut_at _ _ _ _ _ E) as [(B1 & Eb & El)|(A1 & -> & Er)].
  - destruct B1 as [|z B1].
    + cbn [app] in Eb. injection Eb as -> ->. rewrite app_nil_r in El. right. left. repeat split; auto. apply (proj1 H).
    + cbn [app] in Eb. injection Eb as <- ->. left. exists B1. destruct (S2 (in_elt _ _ _)) as [-> ->]. repeat split; auto.
      * apply (proj1 H).
      * apply (listed_sub lt [] (A ++ x :: B1) (y :: inorder r)). cbn [app]. rewrite <- app_assoc. exact H.
  - right. right. exists A1. destruct (S1 (in_elt _ _ _)) as [-> ->]. repeat split; auto.
    + apply (proj1 H).
    + apply (listed_sub lt (inorder l ++ [y]) _ []). rewrite app_nil_r. rewrite <- !app_assoc in *. exact H.
Qed.
Lemma remove_inorder lt x t : forall A B, inorder t = A ++ x :: B -> listed lt (A ++ x :: B) -> inorder (tree_remove lt x t) = A ++ B.
Proof.
  induction t as [|l IHl y r IHr]; intros A B E H; cbn [inorder tree_remove] in *; [destruct A; discriminate|].
  destruct (search_cases lt A x B l y r H E) as [(B1 & -> & El & -> & _ & K)|[(-> & -> & -> & ->)|(A1 & -> & Er & -> & -> & K)]].
  - cbn [inorder]. rewrite (IHl _ _ El K), <- app_assoc. reflexivity.
  - apply join_inorder.
  - cbn [inorder]. rewrite (IHr _ _ Er K), <- app_assoc. reflexivity.
Qed.
Lemma mem_inorder lt x t : forall A B, inorder t = A ++ x :: B -> listed lt (A ++ x :: B) -> tree_mem lt x t = true.
Proof.
  induction t as [|l IHl y r IHr]; intros A B E H; cbn [inorder tree_mem] in *; [destruct A; discriminate|].
  destruct (search_cases lt A x B l y r H E) as [(B1 & -> & El & -> & _ & K)|[(-> & -> & -> & ->)|(A1 & -> & Er & -> & -> & K)]];
    [apply (IHl _ _ El K)|reflexivity|apply (IHr _ _ Er K)].
Qed.
Lemma next_none lt x t o : (forall y, In y (inorder t) -> lt x y = true) ->
  tree_next lt x t o = match hd_error (inorder t) with None => o | s => s end.
Proof.
  revert o. induction t as [|l IHl y r _]; intros o H; [reflexivity|]. cbn [tree_next inorder] in *. rewrite H by apply in_elt.
  rewrite IHl by (intros z I; apply H, in_app_iff; auto). destruct (inorder l); reflexivity.
Qed.
Lemma next_inorder lt x t : forall o A B, inorder t = A ++ x :: B -> listed lt (A ++ x :: B) ->
  tree_next lt x t o = match hd_error B with None => o | s => s end.
Proof.
  induction t as [|l IHl y r IHr]; intros o A B E H; cbn [inorder tree_next] in *; [destruct A; discriminate|].
  destruct (search_cases lt A x B l y r H E) as [(B1 & -> & El & -> & _ & K)|[(-> & -> & -> & ->)|(A1 & -> & Er & _ & -> & K)]].
  - rewrite (IHl _ _ _ El K). destruct B1; reflexivity.
  - apply next_none. intros y Iy. apply (listed_side lt _ _ _ y H), Iy.
  - apply (IHr _ _ _ Er K).
Qed.
Lemma last_app {A} (l : list A) x r : last_of (l ++ x :: r) = match last_of r with None => Some x | s => s end.
Proof.
  induction l as [|y l IH]; cbn [app last_of]; [reflexivity|]. rewrite IH. destruct (last_of r); reflexivity.
Qed.
Lemma prev_none lt x t o : (forall y, In y (inorder t) -> lt y x = true) ->
  tree_prev lt x t o = match last_of (inorder t) with None => o | s => s end.
Proof.
  revert o. induction t as [|l _ y r IHr]; intros o H; [reflexivity|]. cbn [tree_prev inorder] in *. rewrite H by apply in_elt.
  rewrite IHr by (intros z I; apply H, in_app_iff; right; right; exact I). rewrite last_app. destruct (last_of (inorder r)); reflexivity.
Qed.
Lemma prev_inorder lt x t : forall o A B, inorder t = A ++ x :: B -> listed lt (A ++ x :: B) ->
  tree_prev lt x t o = match last_of A with None => o | s => s end.
Proof.
  induction t as [|l IHl y r IHr]; intros o A B E H; cbn [inorder tree_prev] in *; [destruct A; discriminate|].
  destruct (search_cases lt A x B l y r H E) as [(B1 & -> & El & _ & -> & K)|[(-> & -> & -> & ->)|(A1 & -> & Er & -> & _ & K)]].
  - apply (IHl _ _ _ El K).
  - apply prev_none. intros y Iy. apply (listed_side lt _ _ _ y H), Iy.
  - rewrite (IHr _ _ _ Er K), last_app. destruct (last_of A1); reflexivity.
Qed.
Definition search_tree_correct : set_correct search_tree.
Proof.
  refine (Build_set_correct search_tree (fun t l => inorder t = l) _ _ _ _ _ _); cbn.
  - reflexivity.
  - intros. apply add_inorder; assumption.
  - intros. apply remove_inorder; assumption.
  - intros. eapply mem_inorder; eassumption.
  - intros lt t A x B E H. rewrite (next_inorder lt x t None A B E H). destruct (hd_error B); reflexivity.
  - intros lt t A x B E H. rewrite (prev_inorder lt x t None A B E H). destruct (last_of A); reflexivity.
Defined.
