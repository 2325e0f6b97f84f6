(** The specification side: ordered forests and the abstract meaning of the
    treebeard API on them.  Nothing in this file refers to how a tree is
    stored.  [Cons a kids rest] is a node [a] with the ordered list of its
    children [kids], followed by its right siblings [rest]. *)
From Coq Require Import List Arith Lia Bool Permutation.
From Verif Require Import Prelude.
Import ListNotations.
Set Implicit Arguments.

Inductive forest (A : Type) := Nil | Cons (a : A) (kids rest : forest A).
Arguments Nil {A}.
Arguments Cons {A} _ _ _.

Section Generic.
Variable A : Type.

Fixpoint fapp (f g : forest A) : forest A :=
  match f with Nil => g | Cons a k r => Cons a k (fapp r g) end.

(** The nodes of a sibling list, without their descendants. *)
Fixpoint roots (f : forest A) : list A :=
  match f with Nil => [] | Cons a _ r => a :: roots r end.

(** Depth-first order. *)
Fixpoint preorder (f : forest A) : list A :=
  match f with Nil => [] | Cons a k r => a :: preorder k ++ preorder r end.

Fixpoint size (f : forest A) : nat :=
  match f with Nil => 0 | Cons _ k r => S (size k + size r) end.

(** Depth-first order with levels (top level is [d]). *)
Fixpoint preorder_d (d : nat) (f : forest A) : list (nat * A) :=
  match f with Nil => [] | Cons a k r => (d, a) :: preorder_d (S d) k ++ preorder_d d r end.

Lemma fapp_nil_r f : fapp f Nil = f.
Proof. induction f; simpl; congruence. Qed.

Lemma fapp_assoc f g h : fapp (fapp f g) h = fapp f (fapp g h).
Proof. induction f; simpl; congruence. Qed.

Lemma roots_fapp f g : roots (fapp f g) = roots f ++ roots g.
Proof. induction f; simpl; congruence. Qed.

Lemma preorder_fapp f g : preorder (fapp f g) = preorder f ++ preorder g.
Proof. induction f; simpl; auto. rewrite IHf2, app_assoc. auto. Qed.

Lemma size_fapp f g : size (fapp f g) = size f + size g.
Proof. induction f; simpl; auto. rewrite IHf2. lia. Qed.

Lemma size_preorder f : length (preorder f) = size f.
Proof. induction f; simpl; auto. rewrite app_length. lia. Qed.

Lemma roots_preorder f a : In a (roots f) -> In a (preorder f).
Proof. induction f; simpl; auto. rewrite in_app_iff. intuition. Qed.

Lemma preorder_d_snd d f : map snd (preorder_d d f) = preorder f.
Proof.
  revert d. induction f; intros; simpl; auto.
  rewrite map_app, IHf1, IHf2. auto.
Qed.

End Generic.

Fixpoint fmap {A B} (g : A -> B) (f : forest A) : forest B :=
  match f with Nil => Nil | Cons a k r => Cons (g a) (fmap g k) (fmap g r) end.

Lemma fmap_fapp {A B} (g : A -> B) f h : fmap g (fapp f h) = fapp (fmap g f) (fmap g h).
Proof. induction f; simpl; congruence. Qed.

Lemma roots_fmap {A B} (g : A -> B) f : roots (fmap g f) = map g (roots f).
Proof. induction f; simpl; congruence. Qed.

Lemma preorder_fmap {A B} (g : A -> B) f : preorder (fmap g f) = map g (preorder f).
Proof. induction f; simpl; auto. rewrite map_app. congruence. Qed.

Lemma size_fmap {A B} (g : A -> B) f : size (fmap g f) = size f.
Proof. induction f; simpl; auto. Qed.

Lemma fmap_fmap {A B C} (g : B -> C) (h : A -> B) f : fmap g (fmap h f) = fmap (fun x => g (h x)) f.
Proof. induction f; simpl; congruence. Qed.

Lemma fmap_ext {A B} (g h : A -> B) f :
  (forall a, In a (preorder f) -> g a = h a) -> fmap g f = fmap h f.
Proof.
  induction f; simpl; intros H; auto.
  rewrite H by auto. rewrite IHf1, IHf2; auto; intros; apply H; rewrite in_app_iff; auto.
Qed.

(** From here on a forest carries user nodes. *)
Definition tree_forest := forest node.

Definition ids (f : forest node) : list nat := map nid (preorder f).
Arguments ids : simpl never.
Definition wf_ids (f : forest node) : Prop := NoDup (ids f).

Definition leaf (x : node) : forest node := Cons x Nil Nil.

(** Apply [h] to the list of children of node [p] (of the whole list of roots
    for [None]); everything else is left alone. *)
Fixpoint at_node (p : nat) (h : forest node -> forest node) (f : forest node) : forest node :=
  match f with
  | Nil => Nil
  | Cons a k r => if nid a =? p then Cons a (h k) r else Cons a (at_node p h k) (at_node p h r)
  end.

Definition at_kids (p : option nat) (h : forest node -> forest node) (f : forest node) :=
  match p with None => h f | Some p => at_node p h f end.

(** The children of node [p]. *)
Fixpoint children_of (p : nat) (f : forest node) : option (forest node) :=
  match f with
  | Nil => None
  | Cons a k r =>
      if nid a =? p then Some k
      else match children_of p k with Some x => Some x | None => children_of p r end
  end.

Definition kids_of (p : option nat) (f : forest node) : option (forest node) :=
  match p with None => Some f | Some p => children_of p f end.

(** The parent of node [s]: [Some None] for a root, [None] if there is no node [s]. *)
Fixpoint parent_from (up : option nat) (s : nat) (f : forest node) : option (option nat) :=
  match f with
  | Nil => None
  | Cons a k r =>
      if nid a =? s then Some up
      else match parent_from (Some (nid a)) s k with
           | Some x => Some x
           | None => parent_from up s r
           end
  end.
Definition parent_of (s : nat) (f : forest node) := parent_from None s f.

(** The list of ancestors of node [s], root first. *)
Fixpoint ancestors_of (s : nat) (f : forest node) : option (list node) :=
  match f with
  | Nil => None
  | Cons a k r =>
      if nid a =? s then Some []
      else match ancestors_of s k with
           | Some l => Some (a :: l)
           | None => ancestors_of s r
           end
  end.

(** The subtree of node [s] as a one-tree forest. *)
Fixpoint subtree (s : nat) (f : forest node) : forest node :=
  match f with
  | Nil => Nil
  | Cons a k r =>
      if nid a =? s then Cons a k Nil
      else match subtree s k with Nil => subtree s r | t => t end
  end.

(** The forest without the subtree of node [s]. *)
Fixpoint remove (s : nat) (f : forest node) : forest node :=
  match f with
  | Nil => Nil
  | Cons a k r => if nid a =? s then r else Cons a (remove s k) (remove s r)
  end.

(** The forest without all subtrees whose top is in [S]. *)
Fixpoint remove_all (S : nat -> bool) (f : forest node) : forest node :=
  match f with
  | Nil => Nil
  | Cons a k r => if S (nid a) then remove_all S r else Cons a (remove_all S k) (remove_all S r)
  end.

(** The first [d] levels of the forest. *)
Fixpoint prune {A} (d : nat) (f : forest A) : forest A :=
  match f with
  | Nil => Nil
  | Cons a k r =>
      match d with
      | 0 => Nil
      | S d' => Cons a (prune d' k) (prune d r)
      end
  end.

Definition prune_opt {A} (d : option nat) (f : forest A) : forest A :=
  match d with None => f | Some d => prune d f end.

(** The neighbours of node [s] in a list. *)
Fixpoint next_of (s : nat) (l : list node) : option node :=
  match l with
  | [] => None
  | a :: l' => if nid a =? s then hd_error l' else next_of s l'
  end.

Fixpoint prev_of (s : nat) (l : list node) : option node :=
  match l with
  | [] => None
  | a :: l' => match l' with
               | [] => None
               | b :: _ => if nid b =? s then Some a else prev_of s l'
               end
  end.

(** The children of the parent of [s] (or the roots): [s] and its siblings, in order. *)
Definition siblings_of (s : nat) (f : forest node) : list node :=
  match parent_of s f with
  | Some up => match kids_of up f with Some l => roots l | None => [] end
  | None => []
  end.

(** Where to insert in a list of siblings. *)
Inductive place :=
| PFirst | PLast | PBefore (s : nat) | PAfter (s : nat)
| PSorted (gt : node -> bool). (* before the first sibling that is greater *)

Fixpoint ins_before (P : node -> bool) (t l : forest node) : forest node :=
  match l with
  | Nil => t
  | Cons a k r => if P a then fapp t l else Cons a k (ins_before P t r)
  end.

Fixpoint ins_after (P : node -> bool) (t l : forest node) : forest node :=
  match l with
  | Nil => t
  | Cons a k r => if P a then Cons a k (fapp t r) else Cons a k (ins_after P t r)
  end.

Definition ins (w : place) (t l : forest node) : forest node :=
  match w with
  | PFirst => fapp t l
  | PLast => fapp l t
  | PBefore s => ins_before (fun a => nid a =? s) t l
  | PAfter s => ins_after (fun a => nid a =? s) t l
  | PSorted gt => ins_before gt t l
  end.

(** The positions of the API (docs of NodeManager.add_sibling and move,
    /repo/treebeard/models.py:255-343). *)
Inductive pos :=
| FirstSibling | Left | Right | LastSibling | SortedSibling
| FirstChild | LastChild | SortedChild.

(** What a position relative to [target] means: the parent whose list of
    children receives the node, and the place in it.  [gt] tells which
    siblings are greater than the node (only used by the sorted positions). *)
Definition resolve (target : nat) (p : pos) (gt : node -> bool) (f : forest node)
  : option nat * place :=
  let up := match parent_of target f with Some x => x | None => None end in
  match p with
  | FirstSibling => (up, PFirst)
  | Left => (up, PBefore target)
  | Right => (up, PAfter target)
  | LastSibling => (up, PLast)
  | SortedSibling => (up, PSorted gt)
  | FirstChild => (Some target, PFirst)
  | LastChild => (Some target, PLast)
  | SortedChild => (Some target, PSorted gt)
  end.

(** Adding a new leaf [x]. *)
Definition sp_add_root (gt : option (node -> bool)) (x : node) (f : forest node) : forest node :=
  ins (match gt with None => PLast | Some g => PSorted g end) (leaf x) f.

Definition sp_add_child (gt : option (node -> bool)) (p : nat) (x : node) (f : forest node) :=
  at_kids (Some p) (ins (match gt with None => PLast | Some g => PSorted g end) (leaf x)) f.

Definition sp_add_sibling (target : nat) (p : pos) (gt : node -> bool) (x : node) (f : forest node) :=
  let (up, w) := resolve target p gt f in at_kids up (ins w (leaf x)) f.

(** Moving node [n] (with its subtree).  Left or right of itself means staying. *)
Definition place_is_self (n : nat) (w : place) : bool :=
  match w with PBefore s => s =? n | PAfter s => s =? n | _ => false end.

Definition sp_move (n target : nat) (p : pos) (gt : node -> bool) (f : forest node) : forest node :=
  let (up, w) := resolve target p gt f in
  if place_is_self n w then f
  else at_kids up (ins w (subtree n f)) (remove n f).

(** * Facts about the specification *)

Lemma ids_cons a k r : ids (Cons a k r) = nid a :: ids k ++ ids r.
Proof. unfold ids. simpl. rewrite map_app. auto. Qed.

Lemma ids_fapp f g : ids (fapp f g) = ids f ++ ids g.
Proof. unfold ids. rewrite preorder_fapp, map_app. auto. Qed.

Lemma wf_cons_inv a k r :
  wf_ids (Cons a k r) ->
  ~ In (nid a) (ids k) /\ ~ In (nid a) (ids r) /\ wf_ids k /\ wf_ids r /\
  (forall x, In x (ids k) -> In x (ids r) -> False).
Proof.
  unfold wf_ids. rewrite ids_cons. intros H. inversion H; subst.
  rewrite in_app_iff in H2. apply NoDup_app_iff in H3. tauto.
Qed.

Lemma at_node_notin p h f : ~ In p (ids f) -> at_node p h f = f.
Proof.
  induction f as [|a k IHk r IHr]; [simpl; auto|].
  rewrite ids_cons. simpl. rewrite in_app_iff. intros H.
  destruct (Nat.eqb_spec (nid a) p); [tauto|].
  rewrite IHk, IHr by tauto. auto.
Qed.

Lemma remove_notin s f : ~ In s (ids f) -> remove s f = f.
Proof.
  induction f as [|a k IHk r IHr]; [simpl; auto|].
  rewrite ids_cons. simpl. rewrite in_app_iff. intros H.
  destruct (Nat.eqb_spec (nid a) s); [tauto|].
  rewrite IHk, IHr by tauto. auto.
Qed.

Lemma subtree_notin s f : ~ In s (ids f) -> subtree s f = Nil.
Proof.
  induction f as [|a k IHk r IHr]; [simpl; auto|].
  rewrite ids_cons. simpl. rewrite in_app_iff. intros H.
  destruct (Nat.eqb_spec (nid a) s); [tauto|].
  rewrite IHk, IHr by tauto. auto.
Qed.

Lemma children_of_notin s f : ~ In s (ids f) -> children_of s f = None.
Proof.
  induction f as [|a k IHk r IHr]; [simpl; auto|].
  rewrite ids_cons. simpl. rewrite in_app_iff. intros H.
  destruct (Nat.eqb_spec (nid a) s); [tauto|].
  rewrite IHk, IHr by tauto. auto.
Qed.

Lemma parent_from_notin up s f : ~ In s (ids f) -> parent_from up s f = None.
Proof.
  revert up. induction f as [|a k IHk r IHr]; intros up; [simpl; auto|].
  rewrite ids_cons. simpl. rewrite in_app_iff. intros H.
  destruct (Nat.eqb_spec (nid a) s); [tauto|].
  rewrite IHk, IHr by tauto. auto.
Qed.

Lemma ancestors_of_notin s f : ~ In s (ids f) -> ancestors_of s f = None.
Proof.
  induction f as [|a k IHk r IHr]; [simpl; auto|].
  rewrite ids_cons. simpl. rewrite in_app_iff. intros H.
  destruct (Nat.eqb_spec (nid a) s); [tauto|].
  rewrite IHk, IHr by tauto. auto.
Qed.

(** [Ctx up l l' f f']: the forests [f] and [f'] are equal except that the
    list of children of [up] is [l] in [f] and [l'] in [f']. *)
Inductive Ctx : option nat -> forest node -> forest node -> forest node -> forest node -> Prop :=
| Ctx_top l l' : Ctx None l l' l l'
| Ctx_par a l l' r : Ctx (Some (nid a)) l l' (Cons a l r) (Cons a l' r)
| Ctx_down p a k k' l l' r : Ctx (Some p) l l' k k' -> Ctx (Some p) l l' (Cons a k r) (Cons a k' r)
| Ctx_right p a k l l' r r' : Ctx (Some p) l l' r r' -> Ctx (Some p) l l' (Cons a k r) (Cons a k r').

Lemma Ctx_par_in up l l' f f' : Ctx up l l' f f' ->
  match up with None => True | Some p => In p (ids f) end.
Proof.
  induction 1; auto; rewrite ids_cons; simpl; rewrite ?in_app_iff; auto.
Qed.

Lemma Ctx_ids up l l' f f' : Ctx up l l' f f' ->
  exists R, Permutation (ids f) (R ++ ids l) /\ Permutation (ids f') (R ++ ids l').
Proof.
  induction 1.
  - exists []. auto.
  - exists (nid a :: ids r). rewrite !ids_cons. simpl.
    split; constructor; apply Permutation_app_comm.
  - destruct IHCtx as [R [H1 H2]]. exists (nid a :: ids r ++ R). rewrite !ids_cons. simpl.
    rewrite H1, H2. rewrite <- !app_assoc.
    split; constructor; rewrite (app_assoc R), Permutation_app_comm; auto.
  - destruct IHCtx as [R [H1 H2]]. exists (nid a :: ids k ++ R). rewrite !ids_cons. simpl.
    rewrite H1, H2. rewrite <- !app_assoc. auto.
Qed.

Lemma Ctx_incl up l l' f f' x : Ctx up l l' f f' -> In x (ids l) -> In x (ids f).
Proof.
  intros H Hx. destruct (Ctx_ids H) as [R [H1 _]].
  eapply Permutation_in; [symmetry; apply H1|]. rewrite in_app_iff; auto.
Qed.

Lemma Ctx_wf_l up l l' f f' : Ctx up l l' f f' -> wf_ids f -> wf_ids l.
Proof.
  intros H W. destruct (Ctx_ids H) as [R [H1 _]]. unfold wf_ids in *.
  rewrite H1 in W. apply NoDup_app_iff in W. tauto.
Qed.

Lemma Ctx_wf up l l' f f' : Ctx up l l' f f' -> wf_ids f ->
  wf_ids l' -> (forall x, In x (ids l') -> In x (ids l) \/ ~ In x (ids f)) -> wf_ids f'.
Proof.
  intros H W W' Hx. destruct (Ctx_ids H) as [R [H1 H2]]. unfold wf_ids in *.
  assert (W2 := W). rewrite H1 in W2. rewrite H2.
  apply NoDup_app_iff in W2. apply NoDup_app_iff.
  destruct W2 as [W2 [W3 W4]]. split; [|split]; auto.
  intros x HR Hl. destruct (Hx _ Hl) as [?|n]; eauto.
  apply n. eapply Permutation_in; [symmetry; apply H1|]. rewrite in_app_iff; auto.
Qed.

Lemma Ctx_at_kids up l l' f f' h :
  Ctx up l l' f f' -> wf_ids f -> l' = h l -> at_kids up h f = f'.
Proof.
  intros H. revert h. induction H; intros h W E; simpl in *; subst; auto.
  - rewrite Nat.eqb_refl. auto.
  - apply wf_cons_inv in W.
    assert (In p (ids k)) by (apply (Ctx_par_in H)).
    destruct (Nat.eqb_spec (nid a) p); [subst; tauto|].
    rewrite (IHCtx h) by (auto; tauto). rewrite at_node_notin; auto. firstorder.
  - apply wf_cons_inv in W.
    assert (In p (ids r)) by (apply (Ctx_par_in H)).
    destruct (Nat.eqb_spec (nid a) p); [subst; tauto|].
    rewrite (IHCtx h) by (auto; tauto). rewrite at_node_notin; auto. firstorder.
Qed.

Lemma Ctx_kids_of up l l' f f' : Ctx up l l' f f' -> wf_ids f -> kids_of up f = Some l.
Proof.
  induction 1; intros W; simpl in *; auto.
  - rewrite Nat.eqb_refl. auto.
  - apply wf_cons_inv in W.
    assert (In p (ids k)) by (apply (Ctx_par_in H)).
    destruct (Nat.eqb_spec (nid a) p); [subst; tauto|].
    rewrite IHCtx by tauto. auto.
  - apply wf_cons_inv in W.
    assert (In p (ids r)) by (apply (Ctx_par_in H)).
    destruct (Nat.eqb_spec (nid a) p); [subst; tauto|].
    rewrite (children_of_notin p k) by firstorder. apply IHCtx. tauto.
Qed.

Lemma parent_from_top up s l : In s (map nid (roots l)) -> wf_ids l -> parent_from up s l = Some up.
Proof.
  induction l as [|a k IHk r IHr]; simpl; [tauto|]. intros Hs W.
  apply wf_cons_inv in W.
  destruct (Nat.eqb_spec (nid a) s); auto.
  destruct Hs as [?|Hs]; [congruence|].
  rewrite (parent_from_notin (Some (nid a)) s k).
  - apply IHr; tauto.
  - intros Hk. destruct W as (_ & _ & _ & _ & W). apply (W s); auto.
    unfold ids. apply in_map_iff in Hs. destruct Hs as [x [<- Hs]].
    apply in_map. apply roots_preorder; auto.
Qed.

Lemma roots_ids s l : In s (map nid (roots l)) -> In s (ids l).
Proof.
  rewrite in_map_iff. intros [x [<- Hs]]. unfold ids. apply in_map, roots_preorder; auto.
Qed.

Lemma Ctx_parent_from up0 up l l' f f' s :
  Ctx up l l' f f' -> wf_ids f -> In s (map nid (roots l)) ->
  parent_from up0 s f = Some (match up with None => up0 | Some _ => up end).
Proof.
  intros H. revert up0. induction H; intros up0 W Hs.
  - apply parent_from_top; auto.
  - simpl. apply wf_cons_inv in W.
    assert (In s (ids l)) by (apply roots_ids; auto).
    destruct (Nat.eqb_spec (nid a) s); [subst; tauto|].
    rewrite parent_from_top; auto; tauto.
  - simpl. apply wf_cons_inv in W.
    assert (In s (ids k)) by (eapply Ctx_incl; eauto; apply roots_ids; auto).
    destruct (Nat.eqb_spec (nid a) s); [subst; tauto|].
    rewrite IHCtx; auto; tauto.
  - simpl. apply wf_cons_inv in W.
    assert (In s (ids r)) by (eapply Ctx_incl; eauto; apply roots_ids; auto).
    destruct (Nat.eqb_spec (nid a) s); [subst; tauto|].
    rewrite (parent_from_notin (Some (nid a)) s k) by firstorder.
    rewrite IHCtx; auto; tauto.
Qed.

Lemma Ctx_parent_of up l l' f f' s :
  Ctx up l l' f f' -> wf_ids f -> In s (map nid (roots l)) -> parent_of s f = Some up.
Proof.
  intros H W Hs. unfold parent_of. rewrite (Ctx_parent_from None s H); auto. destruct up; auto.
Qed.

(** Splitting a sibling list around one of its nodes. *)
Lemma root_split s (l : forest node) : In s (map nid (roots l)) ->
  exists l1 a k l2, nid a = s /\ l = fapp l1 (Cons a k l2).
Proof.
  induction l as [|a k IHk r IHr]; simpl; [tauto|].
  intros [E|H].
  - exists Nil, a, k, r. auto.
  - destruct (IHr H) as (l1 & b & kb & l2 & E & ->).
    exists (Cons a k l1), b, kb, l2. auto.
Qed.

Lemma ins_before_split P t l1 a k l2 :
  (forall x, In x (roots l1) -> P x = false) -> P a = true ->
  ins_before P t (fapp l1 (Cons a k l2)) = fapp l1 (fapp t (Cons a k l2)).
Proof.
  induction l1 as [|b kb _ r IH]; simpl; intros H Ha.
  - rewrite Ha. auto.
  - rewrite H by auto. rewrite IH; auto.
Qed.

Lemma ins_before_end P t l :
  (forall x, In x (roots l) -> P x = false) -> ins_before P t l = fapp l t.
Proof.
  induction l as [|b kb _ r IH]; simpl; intros H; auto.
  rewrite H by auto. rewrite IH; auto.
Qed.

Lemma ins_after_split P t l1 a k l2 :
  (forall x, In x (roots l1) -> P x = false) -> P a = true ->
  ins_after P t (fapp l1 (Cons a k l2)) = fapp l1 (Cons a k (fapp t l2)).
Proof.
  induction l1 as [|b kb _ r IH]; simpl; intros H Ha.
  - rewrite Ha. auto.
  - rewrite H by auto. rewrite IH; auto.
Qed.

(** Every node has a context: the sibling list it belongs to. *)
Lemma node_ctx s f : In s (ids f) ->
  exists up l, In s (map nid (roots l)) /\ forall l', exists f', Ctx up l l' f f'.
Proof.
  induction f as [|a k IHk r IHr]; [simpl; tauto|].
  rewrite ids_cons. simpl. rewrite in_app_iff. intros [E|[H|H]].
  - exists None, (Cons a k r). split; [simpl; auto|]. intros l'. eexists; constructor.
  - destruct (IHk H) as (up & l & Hl & C). destruct up as [p|].
    + exists (Some p), l. split; auto. intros l'. destruct (C l') as [k' Ck].
      eexists; apply Ctx_down; eauto.
    + assert (l = k) as -> by (destruct (C Nil) as [x Cx]; inversion Cx; auto).
      exists (Some (nid a)), k. split; auto. intros l'. eexists; apply Ctx_par.
  - destruct (IHr H) as (up & l & Hl & C). destruct up as [p|].
    + exists (Some p), l. split; auto. intros l'. destruct (C l') as [k' Ck].
      eexists; apply Ctx_right; eauto.
    + assert (l = r) as -> by (destruct (C Nil) as [x Cx]; inversion Cx; auto).
      exists None, (Cons a k r). split; [simpl; auto|]. intros l'. eexists; constructor.
Qed.

(** Every node is the parent of a context: its own children. *)
Lemma kids_ctx s f : In s (ids f) ->
  exists l, forall l', exists f', Ctx (Some s) l l' f f'.
Proof.
  induction f as [|a k IHk r IHr]; [simpl; tauto|].
  rewrite ids_cons. simpl. rewrite in_app_iff. intros [E|[H|H]].
  - subst. exists k. intros l'. eexists; constructor.
  - destruct (IHk H) as (l & C). exists l. intros l'. destruct (C l') as [k' Ck].
    eexists; apply Ctx_down; eauto.
  - destruct (IHr H) as (l & C). exists l. intros l'. destruct (C l') as [k' Ck].
    eexists; apply Ctx_right; eauto.
Qed.

(** Removing and looking up a node, seen through its context. *)
Lemma remove_fapp s l1 a k l2 : nid a = s -> ~ In s (ids l1) -> 
  remove s (fapp l1 (Cons a k l2)) = fapp l1 l2.
Proof.
  intros E. induction l1 as [|b kb IHb r IHr]; intros H.
  - simpl. rewrite E, Nat.eqb_refl. auto.
  - rewrite ids_cons in H. simpl in H. rewrite in_app_iff in H. simpl.
    destruct (Nat.eqb_spec (nid b) s); [tauto|].
    rewrite IHr by tauto. rewrite remove_notin by tauto. auto.
Qed.

Lemma subtree_fapp s l1 a k l2 : nid a = s -> ~ In s (ids l1) -> 
  subtree s (fapp l1 (Cons a k l2)) = Cons a k Nil.
Proof.
  intros E. induction l1 as [|b kb IHb r IHr]; intros H.
  - simpl. rewrite E, Nat.eqb_refl. auto.
  - rewrite ids_cons in H. simpl in H. rewrite in_app_iff in H. simpl.
    destruct (Nat.eqb_spec (nid b) s); [tauto|].
    rewrite subtree_notin by tauto. rewrite IHr by tauto. auto.
Qed.

Lemma Ctx_remove up l1 a k l2 f f' :
  Ctx up (fapp l1 (Cons a k l2)) (fapp l1 l2) f f' -> wf_ids f -> remove (nid a) f = f'.
Proof.
  intros H. remember (fapp l1 (Cons a k l2)) as l. remember (fapp l1 l2) as l'.
  revert Heql Heql'. induction H; intros E E' W; subst.
  - apply remove_fapp; auto. intros Hi. unfold wf_ids in W.
    rewrite ids_fapp, ids_cons in W. apply NoDup_app_iff in W.
    destruct W as (_ & _ & W). apply (W _ Hi). simpl; auto.
  - simpl. assert (Wl := wf_cons_inv W).
    assert (In (nid a) (ids (fapp l1 (Cons a k l2)))) as Hin.
    { rewrite ids_fapp, in_app_iff, ids_cons; simpl; auto. }
    destruct (Nat.eqb_spec (nid a0) (nid a)) as [E|E]; [rewrite E in Wl; tauto|].
    rewrite remove_fapp, remove_notin; auto; [firstorder|].
    intros Hi. destruct Wl as (_ & _ & Wl & _). unfold wf_ids in Wl.
    rewrite ids_fapp, ids_cons in Wl. apply NoDup_app_iff in Wl.
    destruct Wl as (_ & _ & Wl). apply (Wl _ Hi). simpl; auto.
  - simpl. assert (Wl := wf_cons_inv W).
    assert (In (nid a) (ids k0)) as Hin.
    { eapply Ctx_incl; eauto. rewrite ids_fapp, in_app_iff, ids_cons; simpl; auto. }
    destruct (Nat.eqb_spec (nid a0) (nid a)) as [E|E]; [rewrite E in Wl; tauto|].
    rewrite IHCtx, remove_notin; auto; firstorder.
  - simpl. assert (Wl := wf_cons_inv W).
    assert (In (nid a) (ids r)) as Hin.
    { eapply Ctx_incl; eauto. rewrite ids_fapp, in_app_iff, ids_cons; simpl; auto. }
    destruct (Nat.eqb_spec (nid a0) (nid a)) as [E|E]; [rewrite E in Wl; tauto|].
    rewrite IHCtx, remove_notin; auto; firstorder.
Qed.

Lemma Ctx_subtree up l1 a k l2 l' f f' :
  Ctx up (fapp l1 (Cons a k l2)) l' f f' -> wf_ids f -> subtree (nid a) f = Cons a k Nil.
Proof.
  intros H. remember (fapp l1 (Cons a k l2)) as l.
  revert Heql. induction H; intros E W; subst.
  - apply subtree_fapp; auto. intros Hi. unfold wf_ids in W.
    rewrite ids_fapp, ids_cons in W. apply NoDup_app_iff in W.
    destruct W as (_ & _ & W). apply (W _ Hi). simpl; auto.
  - simpl. assert (Wl := wf_cons_inv W).
    assert (In (nid a) (ids (fapp l1 (Cons a k l2)))) as Hin.
    { rewrite ids_fapp, in_app_iff, ids_cons; simpl; auto. }
    destruct (Nat.eqb_spec (nid a0) (nid a)) as [E|E]; [rewrite E in Wl; tauto|].
    rewrite subtree_fapp; auto.
    intros Hi. destruct Wl as (_ & _ & Wl & _). unfold wf_ids in Wl.
    rewrite ids_fapp, ids_cons in Wl. apply NoDup_app_iff in Wl.
    destruct Wl as (_ & _ & Wl). apply (Wl _ Hi). simpl; auto.
  - simpl. assert (Wl := wf_cons_inv W).
    assert (In (nid a) (ids k0)) as Hin.
    { eapply Ctx_incl; eauto. rewrite ids_fapp, in_app_iff, ids_cons; simpl; auto. }
    destruct (Nat.eqb_spec (nid a0) (nid a)) as [E|E]; [rewrite E in Wl; tauto|].
    rewrite IHCtx; auto; firstorder.
  - simpl. assert (Wl := wf_cons_inv W).
    assert (In (nid a) (ids r)) as Hin.
    { eapply Ctx_incl; eauto. rewrite ids_fapp, in_app_iff, ids_cons; simpl; auto. }
    destruct (Nat.eqb_spec (nid a0) (nid a)) as [E|E]; [rewrite E in Wl; tauto|].
    rewrite (subtree_notin (nid a) k0) by firstorder. apply IHCtx; auto; firstorder.
Qed.

(** ** Removing sets of subtrees *)
Lemma remove_all_incl S f x : In x (ids (remove_all S f)) -> In x (ids f).
Proof.
  induction f as [|a k IHk r IHr]; [simpl; auto|].
  cbn [remove_all]. rewrite ids_cons. destruct (S (nid a)).
  - intros H. simpl. rewrite in_app_iff. auto.
  - rewrite ids_cons. simpl. rewrite !in_app_iff. tauto.
Qed.

Lemma remove_all_wf S f : wf_ids f -> wf_ids (remove_all S f).
Proof.
  induction f as [|a k IHk r IHr]; [simpl; auto|].
  intros W. assert (Wl := wf_cons_inv W). destruct Wl as (W1 & W2 & W3 & W4 & W5).
  cbn [remove_all]. destruct (S (nid a)); auto.
  unfold wf_ids. rewrite ids_cons. constructor.
  - rewrite in_app_iff. intros [H|H]; apply remove_all_incl in H; auto.
  - apply NoDup_app_iff. split; [apply IHk; auto|]. split; [apply IHr; auto|].
    intros x H1 H2. apply remove_all_incl in H1. apply remove_all_incl in H2. eauto.
Qed.

Lemma remove_all_ext S S' f : (forall i, In i (ids f) -> S i = S' i) -> remove_all S f = remove_all S' f.
Proof.
  induction f as [|a k IHk r IHr]; [simpl; auto|].
  rewrite ids_cons. intros H. cbn [remove_all].
  rewrite (H (nid a)) by (simpl; auto).
  rewrite IHk, IHr; auto; intros i Hi; apply H; simpl; rewrite in_app_iff; auto.
Qed.

Lemma remove_all_none f : forall S, (forall i, In i (ids f) -> S i = false) -> remove_all S f = f.
Proof.
  induction f as [|a k IHk r IHr]; [simpl; auto|]. intros S.
  rewrite ids_cons. intros H. cbn [remove_all].
  rewrite (H (nid a)) by (simpl; auto).
  rewrite IHk, IHr; auto; intros i Hi; apply H; simpl; rewrite in_app_iff; auto.
Qed.

Lemma remove_all_one s f : wf_ids f -> remove_all (fun i => i =? s) f = remove s f.
Proof.
  induction f as [|a k IHk r IHr]; [simpl; auto|].
  intros W. assert (Wl := wf_cons_inv W). destruct Wl as (W1 & W2 & W3 & W4 & W5).
  cbn [remove_all remove]. destruct (Nat.eqb_spec (nid a) s) as [<-|E].
  - apply remove_all_none. intros i Hi. apply Nat.eqb_neq. congruence.
  - rewrite IHk, IHr; auto.
Qed.

Example forest_move_example :
  let n i := mkNode i [] in
  let f := Cons (n 1) (Cons (n 2) Nil (Cons (n 3) (leaf (n 4)) Nil)) (leaf (n 5)) in
  sp_move 3 5 Left (fun _ => false) f
  = Cons (n 1) (Cons (n 2) Nil Nil) (Cons (n 3) (leaf (n 4)) (leaf (n 5))).
Proof. reflexivity. Qed.
