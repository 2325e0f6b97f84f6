(** Facts about the forest specification used by all tree implementations: places in
    sibling lists, moving a node between contexts, neighbours. *)
From Coq Require Import List Arith Lia Bool Permutation.
From Verif Require Import Prelude Forest.
Import ListNotations.

Set Implicit Arguments.
(** The place [w] splits a sibling list into [L1] and [L2]. *)
Definition ins_split (w : place) (L1 L2 : list node) : Prop :=
  match w with
  | PFirst => L1 = []
  | PLast => L2 = []
  | PBefore s => (forall x, In x L1 -> nid x <> s) /\ exists a L, L2 = a :: L /\ nid a = s
  | PAfter s => exists L a, L1 = L ++ [a] /\ nid a = s /\ (forall x, In x L -> nid x <> s)
  | PSorted gt => (forall x, In x L1 -> gt x = false) /\ (forall a L, L2 = a :: L -> gt a = true)
  end.

Lemma roots_snoc {A} (l : forest A) L (a : A) : roots l = L ++ [a] ->
  exists l1 k, l = fapp l1 (Cons a k Nil) /\ roots l1 = L.
Proof.
  revert L. induction l as [|b k _ r IH]; simpl; intros L E.
  - destruct L; discriminate.
  - destruct L as [|c L]; simpl in E.
    + injection E as -> E. destruct r; [|discriminate]. exists Nil, k. auto.
    + injection E as -> E. destruct (IH _ E) as (l1 & k1 & -> & E2).
      exists (Cons c k l1), k1. simpl. rewrite E2. auto.
Qed.

Lemma ins_split_ok w t l1 l2 : ins_split w (roots l1) (roots l2) ->
  ins w t (fapp l1 l2) = fapp l1 (fapp t l2).
Proof.
  destruct w; simpl.
  - destruct l1; [auto|discriminate].
  - destruct l2; [|discriminate]. intros _. rewrite !fapp_nil_r. auto.
  - intros (H & a & L & E & Es). destruct l2 as [|b k r]; simpl in E; [discriminate|].
    injection E as -> E. apply ins_before_split.
    + intros x Hx. apply Nat.eqb_neq; auto.
    + apply Nat.eqb_eq; auto.
  - intros (L & a & E & Es & H). destruct (@roots_snoc _ _ _ _ E) as (m & k & -> & E2).
    rewrite !fapp_assoc. simpl. apply ins_after_split.
    + intros x Hx. apply Nat.eqb_neq; auto. apply H. congruence.
    + apply Nat.eqb_eq; auto.
  - intros (H1 & H2). destruct l2 as [|b k r].
    + rewrite !fapp_nil_r. apply ins_before_end; auto.
    + apply ins_before_split; auto. eapply H2. reflexivity.
Qed.

Unset Implicit Arguments.
(** The siblings that are greater than the new node come last (automatic for
    sorted siblings, see Order.v). *)
Definition splits (gt : node -> bool) (L : list node) : Prop :=
  exists L1 L2, L = L1 ++ L2 /\ (forall x, In x L1 -> gt x = false) /\ (forall x, In x L2 -> gt x = true).

Definition sib_place (p : pos) (target : nat) (gt : node -> bool) : place :=
  match p with
  | FirstSibling | FirstChild => PFirst
  | Left => PBefore target
  | Right => PAfter target
  | LastSibling | LastChild => PLast
  | SortedSibling | SortedChild => PSorted gt
  end.

Definition is_sib_pos (p : pos) : Prop :=
  match p with FirstChild | LastChild | SortedChild => False | _ => True end.

Lemma roots_app_split {A} (l : forest A) L1 L2 : roots l = L1 ++ L2 ->
  exists l1 l2, l = fapp l1 l2 /\ roots l1 = L1 /\ roots l2 = L2.
Proof.
  revert l. induction L1 as [|x L1 IH]; simpl; intros l E.
  - exists Nil, l. auto.
  - destruct l as [|y c r]; [discriminate|]. simpl in E. injection E as -> E.
    destruct (IH _ E) as (l1 & l2 & -> & E1 & E2). exists (Cons x c l1), l2. simpl. rewrite E1. auto.
Qed.

Lemma map_app_split {A B} (g : A -> B) l L1 L2 : map g l = L1 ++ L2 ->
  exists l1 l2, l = l1 ++ l2 /\ map g l1 = L1 /\ map g l2 = L2.
Proof.
  revert l. induction L1 as [|x L1 IH]; simpl; intros l E.
  - exists [], l. auto.
  - destruct l as [|y l]; [discriminate|]. simpl in E. injection E as <- E.
    destruct (IH _ E) as (l1 & l2 & -> & E1 & E2). exists (y :: l1), l2. simpl. rewrite E1. auto.
Qed.

Lemma resolve_sib p s gt F up : is_sib_pos p -> parent_of s F = Some up ->
  resolve s p gt F = (up, sib_place p s gt).
Proof. intros P E. unfold resolve. rewrite E. destruct p; simpl in *; auto; destruct P. Qed.

(** The siblings other than [n]. *)
Definition drop (n : nat) (L : list node) : list node := filter (fun x => negb (nid x =? n)) L.

Lemma drop_in n L x : In x (drop n L) <-> In x L /\ nid x <> n.
Proof.
  unfold drop. rewrite filter_In, negb_true_iff, Nat.eqb_neq. tauto.
Qed.

Lemma drop_app n L1 L2 : drop n (L1 ++ L2) = drop n L1 ++ drop n L2.
Proof. apply filter_app. Qed.

Lemma drop_notin n L : ~ In n (map nid L) -> drop n L = L.
Proof.
  intros H. apply filter_all. intros x Hx. apply negb_true_iff, Nat.eqb_neq. intros <-. apply H.
  apply in_map; auto.
Qed.

Lemma Ctx_chain up l l' f f' : Ctx up l l' f f' -> forall l'', exists f'',
  Ctx up l' l'' f' f'' /\ Ctx up l l'' f f''.
Proof.
  induction 1; intros l''.
  - eexists; split; constructor.
  - eexists; split; constructor.
  - destruct (IHCtx l'') as (g & H1 & H2). eexists; split; apply Ctx_down; eauto.
  - destruct (IHCtx l'') as (g & H1 & H2). eexists; split; apply Ctx_right; eauto.
Qed.

Lemma wf_drop_mid x a (c y : forest node) : wf_ids (fapp x (Cons a c y)) -> wf_ids (fapp x y).
Proof.
  unfold wf_ids. rewrite !ids_fapp, ids_cons. intros W.
  apply NoDup_app_iff in W. destruct W as (Wa & Wb & Wc). inversion Wb; subst.
  apply NoDup_app_iff in H2. apply NoDup_app_iff. repeat split; try tauto.
  intros z Hz1 Hz2. apply (Wc z); auto. simpl. rewrite in_app_iff. auto.
Qed.

Lemma Ctx_move up x a c y m1 m2 F F2 wh :
  Ctx up (fapp x (Cons a c y)) (fapp m1 (Cons a c m2)) F F2 -> fapp m1 m2 = fapp x y ->
  wf_ids F -> ins_split wh (roots m1) (roots m2) ->
  F2 = at_kids up (ins wh (subtree (nid a) F)) (remove (nid a) F).
Proof.
  intros H E W Hi. rewrite (Ctx_subtree _ _ _ _ H W).
  assert (exists F0, Ctx up (fapp x (Cons a c y)) (fapp x y) F F0) as [F0 H0].
  { assert (C : forall l l' f f', Ctx up l l' f f' -> exists f'', Ctx up l (fapp x y) f f'').
    { intros l l' f f' C. destruct (Ctx_chain _ _ _ _ _ C (fapp x y)) as (g & _ & G). eauto. }
    apply (C _ _ _ _ H). }
  rewrite (Ctx_remove _ _ _ _ H0 W).
  destruct (Ctx_chain _ _ _ _ _ H0 (fapp m1 (Cons a c m2))) as (G & G1 & G2).
  assert (W0 : wf_ids F0).
  { eapply Ctx_wf; [exact H0|auto| |].
    - apply wf_drop_mid with a c. apply (Ctx_wf_l H W).
    - intros z Hz. left. rewrite ids_fapp, ids_cons in *. rewrite in_app_iff in *. simpl.
      rewrite in_app_iff. tauto. }
  assert (E1 : at_kids up (fun _ => fapp m1 (Cons a c m2)) F = F2) by (eapply Ctx_at_kids; eauto).
  assert (E2 : at_kids up (fun _ => fapp m1 (Cons a c m2)) F = G) by (eapply Ctx_at_kids; eauto).
  assert (E3 : at_kids up (ins wh (Cons a c Nil)) F0 = G).
  { eapply Ctx_at_kids; eauto. rewrite <- E. rewrite ins_split_ok by auto. reflexivity. }
  congruence.
Qed.

Lemma Ctx_noop up x a c y F wh :
  Ctx up (fapp x (Cons a c y)) (fapp x (Cons a c y)) F F -> wf_ids F ->
  ins_split wh (roots x) (roots y) -> at_kids up (ins wh (subtree (nid a) F)) (remove (nid a) F) = F.
Proof. intros H W Hi. symmetry. eapply Ctx_move; eauto. Qed.

Lemma Ctx_trans up l l1 l2 F F1 F2 : Ctx up l l1 F F1 -> Ctx up l1 l2 F1 F2 -> wf_ids F1 ->
  Ctx up l l2 F F2.
Proof.
  intros H1 H2 W. destruct (Ctx_chain _ _ _ _ _ H1 l2) as (G & G1 & G2).
  assert (E1 : at_kids up (fun _ => l2) F1 = G) by (eapply Ctx_at_kids; eauto).
  assert (E2 : at_kids up (fun _ => l2) F1 = F2) by (eapply Ctx_at_kids; eauto).
  congruence.
Qed.

(** Any split of a list without repetitions is described by a place. *)
Lemma some_place L1 L2 : NoDup (map nid (L1 ++ L2)) -> exists wh, ins_split wh L1 L2.
Proof.
  intros ND. exists (PSorted (fun x => existsb (fun y => nid x =? nid y) L2)). simpl. split.
  - intros x Hx. apply existsb_false. intros y Hy. apply Nat.eqb_neq. intros E.
    rewrite map_app in ND. apply NoDup_app_iff in ND. destruct ND as (_ & _ & ND).
    apply (ND (nid x)); [apply in_map; auto|]. rewrite E. apply in_map; auto.
  - intros a L ->. simpl. rewrite Nat.eqb_refl. auto.
Qed.

(** Dropping the node from one side. *)
Lemma split_sorted gt n L1 L2 : (forall x, In x L1 -> gt x = false) -> (forall x, In x L2 -> gt x = true) ->
  ins_split (PSorted gt) (drop n L1) (drop n L2).
Proof.
  intros H1 H2. simpl. split.
  - intros x Hx. apply drop_in in Hx. apply H1. tauto.
  - intros a L E. apply H2. assert (Ha : In a (drop n L2)) by (rewrite E; simpl; auto).
    apply drop_in in Ha. tauto.
Qed.

(** [t] is below [n] in [F]. *)
Definition descends (F : forest node) (n t : nat) : Prop :=
  exists l, children_of n F = Some l /\ In t (ids l).

Definition is_child_pos (p : pos) : bool :=
  match p with FirstChild | LastChild | SortedChild => true | _ => false end.

(** The target lies inside the moved branch. *)
Definition inside (F : forest node) (n t : nat) (p : pos) : Prop :=
  descends F n t \/ (n = t /\ is_child_pos p = true).

(** Neighbours. *)
Lemma next_of_split s (A : list node) x B : NoDup (map nid (A ++ x :: B)) -> nid x = s ->
  next_of s (A ++ x :: B) = hd_error B.
Proof.
  induction A as [|y A IH]; simpl; intros ND E.
  - rewrite E, Nat.eqb_refl. auto.
  - apply NoDup_cons_iff in ND. destruct ND as [N1 N2].
    destruct (Nat.eqb_spec (nid y) s) as [E2|E2]; auto.
    exfalso. apply N1. rewrite map_app. apply in_app_iff. right. simpl. left. congruence.
Qed.

Lemma prev_of_split s (A : list node) x B : NoDup (map nid (A ++ x :: B)) -> nid x = s ->
  prev_of s (A ++ x :: B) = last_opt A.
Proof.
  induction A as [|y A IH]; intros ND E.
  - simpl in ND. apply NoDup_cons_iff in ND. destruct ND as [N1 N2].
    simpl. destruct B as [|b B]; auto. destruct (Nat.eqb_spec (nid b) s) as [E2|E2].
    + exfalso. apply N1. simpl. left. congruence.
    + assert (Hn : ~ In s (map nid (b :: B))) by congruence.
      clear - Hn. revert b Hn. induction B as [|b' B IH]; intros b Hn; auto.
      simpl. simpl in Hn. destruct (Nat.eqb_spec (nid b') s); [tauto|].
      apply IH. simpl. tauto.
  - simpl in ND. apply NoDup_cons_iff in ND. destruct ND as [N1 N2].
    specialize (IH N2 E). destruct A as [|z A].
    + simpl. rewrite E, Nat.eqb_refl. auto.
    + change (prev_of s ((y :: z :: A) ++ x :: B))
        with (if nid z =? s then Some y else prev_of s ((z :: A) ++ x :: B)).
      destruct (Nat.eqb_spec (nid z) s) as [E2|E2].
      * exfalso. simpl in N2. apply NoDup_cons_iff in N2. destruct N2 as [N2 _]. apply N2.
        rewrite map_app. apply in_app_iff. right. simpl. left. congruence.
      * rewrite IH. symmetry. apply last_opt_cons.
Qed.
