(** Reading nested set tables: every query of ns_tree.py on a table that stores a
    forest answers the corresponding question about the forest. *)
From Coq Require Import List Arith ZArith Lia Bool Permutation Sorted.
From Verif Require Import Prelude Forest SpecFacts CommonModel NSModel NSInv.
Import ListNotations.
Local Open Scope Z_scope.

Definition row_node (r : nsrow) : node := mkNode (n_pk r) (n_data r).

(** ** The numbering *)
Lemma number_bounds T f : forall d l r, In r (number T d l f) ->
  l <= n_lft r /\ n_lft r < n_rgt r /\ n_rgt r < l + 2 * Z.of_nat (size f) /\ d <= n_depth r.
Proof.
  induction f as [|a k IHk s IHs]; intros d l r; cbn [number size]; [intros []|].
  cbn [In]. rewrite in_app_iff. intros [<-|[H|H]].
  - cbn [n_lft n_rgt n_depth]. lia.
  - apply IHk in H. lia.
  - apply IHs in H. lia.
Qed.

Lemma number_fapp T f g : forall d l,
  number T d l (fapp f g) = number T d l f ++ number T d (l + 2 * Z.of_nat (size f)) g.
Proof.
  induction f as [|a k _ r IH]; intros d l; cbn [number fapp size].
  - cbn [app]. f_equal. lia.
  - rewrite IH, <- app_comm_cons, <- app_assoc.
    replace (l + 2 * Z.of_nat (S (size k + size r)))
      with (l + 2 * Z.of_nat (size k) + 2 + 2 * Z.of_nat (size r)) by lia. auto.
Qed.

Lemma number_nodes T f : forall d l, map row_node (number T d l f) = preorder f.
Proof.
  induction f as [|a k IHk r IHr]; intros d l; cbn [number preorder map]; auto.
  rewrite map_app, IHk, IHr. unfold row_node at 1. cbn [n_pk n_data]. rewrite node_eta. auto.
Qed.

Lemma layout_nodes ts F : length ts = length (roots F) -> map row_node (layout ts F) = preorder F.
Proof.
  revert ts. induction F as [|a k _ r IH]; intros [|T ts] E; try discriminate; auto.
  cbn [layout]. rewrite map_app, number_nodes, IH by (injection E; auto).
  cbn [preorder]. rewrite app_nil_r. auto.
Qed.

Lemma number_length T f d l : length (number T d l f) = size f.
Proof. rewrite <- (map_length row_node), number_nodes. apply size_preorder. Qed.

(** The rows of the top nodes of a sibling list. *)
Fixpoint tops (T d l : Z) (f : forest node) : ns_table :=
  match f with
  | Nil => []
  | Cons a k r =>
      let s := Z.of_nat (size k) in
      mkNS (nid a) T l (l + 2 * s + 1) d (ndata a) :: tops T d (l + 2 * s + 2) r
  end.

Lemma tops_roots T f : forall d l, map row_node (tops T d l f) = roots f.
Proof.
  induction f as [|a k IHk r IHr]; intros d l; cbn [tops roots map]; auto.
  rewrite IHr. unfold row_node at 1. cbn [n_pk n_data]. rewrite node_eta. auto.
Qed.

Lemma tops_fapp T f g : forall d l,
  tops T d l (fapp f g) = tops T d l f ++ tops T d (l + 2 * Z.of_nat (size f)) g.
Proof.
  induction f as [|a k _ r IH]; intros d l; cbn [tops fapp size].
  - cbn [app]. f_equal. lia.
  - rewrite IH, <- app_comm_cons.
    replace (l + 2 * Z.of_nat (S (size k + size r)))
      with (l + 2 * Z.of_nat (size k) + 2 + 2 * Z.of_nat (size r)) by lia. auto.
Qed.

Lemma tops_number T f : forall d l, filter (fun r => n_depth r =? d) (number T d l f) = tops T d l f.
Proof.
  induction f as [|a k _ s IHs]; intros d l; cbn [number tops filter]; auto.
  cbn [n_depth]. rewrite Z.eqb_refl. f_equal. rewrite filter_app, IHs, filter_none; auto.
  intros r Hr. apply number_bounds in Hr. apply Z.eqb_neq. lia.
Qed.

Lemma tops_in T f d l r : In r (tops T d l f) -> In r (number T d l f).
Proof. rewrite <- tops_number, filter_In. tauto. Qed.

Lemma tops_tree T f d l r : In r (tops T d l f) -> n_tree r = T /\ n_depth r = d.
Proof.
  intros H. split; [apply tops_in in H; eapply number_tree; eauto|].
  rewrite <- tops_number, filter_In in H. destruct H as [_ H]. apply Z.eqb_eq; auto.
Qed.

(** *** Order *)
Definition key_lt (x y : Z * Z) : Prop := fst x < fst y \/ (fst x = fst y /\ snd x < snd y).

Lemma pair_lt_spec x y : pair_lt x y = true <-> key_lt x y.
Proof.
  unfold pair_lt, key_lt. rewrite orb_true_iff, andb_true_iff, Z.ltb_lt, Z.eqb_eq, Z.ltb_lt. tauto.
Qed.
Lemma key_lt_irr x : ~ key_lt x x.
Proof. unfold key_lt. lia. Qed.
Lemma key_lt_trans x y z : key_lt x y -> key_lt y z -> key_lt x z.
Proof. unfold key_lt. lia. Qed.

Notation rsorted := (ssorted row_key key_lt).

Lemma order_unique s l : rsorted s -> Permutation l s -> order_rows l = s.
Proof. apply isort_unique; [apply pair_lt_spec|apply key_lt_irr|apply key_lt_trans]. Qed.

Lemma rsorted_app l1 l2 : rsorted (l1 ++ l2) <->
  rsorted l1 /\ rsorted l2 /\ (forall x y, In x l1 -> In y l2 -> key_lt (row_key x) (row_key y)).
Proof. apply ssorted_app. Qed.

Lemma rsorted_cons x l : rsorted (x :: l) <->
  rsorted l /\ (forall y, In y l -> key_lt (row_key x) (row_key y)).
Proof.
  change (x :: l) with ([x] ++ l). rewrite rsorted_app. split.
  - intros (_ & H & H1). split; auto. intros. apply H1; simpl; auto.
  - intros (H & H1). split; [repeat constructor|]. split; auto. intros a b [<-|[]]; auto.
Qed.

Lemma number_sorted T f : forall d l, rsorted (number T d l f).
Proof.
  induction f as [|a k IHk r IHr]; intros d l; cbn [number]; [constructor|].
  apply rsorted_cons. split.
  - apply rsorted_app. split; auto. split; auto. intros x y Hx Hy. right. cbn [row_key fst snd].
    rewrite (number_tree _ _ _ _ _ Hx), (number_tree _ _ _ _ _ Hy). split; auto.
    apply number_bounds in Hx, Hy. lia.
  - intros y. rewrite in_app_iff. intros H. right. cbn [row_key fst snd n_tree n_lft].
    destruct H as [H|H]; rewrite (number_tree _ _ _ _ _ H); split; auto; apply number_bounds in H; lia.
Qed.

Lemma layout_sorted ts F : StronglySorted Z.lt ts -> rsorted (layout ts F).
Proof.
  revert ts. induction F as [|a k _ r IH]; intros [|T ts] S; cbn [layout]; try apply SSorted_nil.
  inversion S; subst. apply rsorted_app. split; [apply number_sorted|]. split; [apply IH; auto|].
  intros x y Hx Hy. left. cbn [row_key fst]. rewrite (number_tree _ _ _ _ _ Hx).
  apply layout_tree in Hy. rewrite Forall_forall in H2. auto.
Qed.

(** *** Finding the row of a node *)
Definition before (x y : nsrow) : Prop := n_tree x < n_tree y \/ (n_tree x = n_tree y /\ n_lft x < n_lft y).
Definition beyond (y x : nsrow) : Prop := n_tree y > n_tree x \/ (n_tree y = n_tree x /\ n_lft y > n_rgt x).

(** [L] contains [x] followed by the rows of its descendants [k]. *)
Definition around (L : ns_table) (x : nsrow) (k : forest node) (P1 P2 : ns_table) : Prop :=
  L = P1 ++ x :: number (n_tree x) (n_depth x + 1) (n_lft x + 1) k ++ P2 /\
  n_rgt x = n_lft x + 2 * Z.of_nat (size k) + 1 /\
  (forall y, In y P1 -> before y x) /\ (forall y, In y P2 -> beyond y x).

Lemma number_ctx T p l l' f f' : Ctx (Some p) l l' f f' -> forall d b,
  exists x P1 P2, around (number T d b f) x l P1 P2 /\ n_pk x = p /\ n_tree x = T.
Proof.
  intros C. remember (Some p) as up. revert Hequp. induction C; intros E d b; try discriminate.
  - injection E as <-. cbn [number].
    exists (mkNS (nid a) T b (b + 2 * Z.of_nat (size l) + 1) d (ndata a)), [], (number T d (b + 2 * Z.of_nat (size l) + 2) r).
    split; [|auto]. split; [reflexivity|]. split; [reflexivity|]. split; [intros y []|].
    intros y Hy. right. cbn [n_tree n_rgt]. split; [eapply number_tree; eauto|].
    apply number_bounds in Hy. lia.
  - destruct (IHC E (d + 1) (b + 1)) as (x & P1 & P2 & (A1 & A2 & A3 & A4) & Ex & Et). cbn [number].
    assert (Hx : In x (number T (d + 1) (b + 1) k)).
    { rewrite A1. apply in_app_iff. simpl. auto. }
    apply number_bounds in Hx.
    exists x, (mkNS (nid a) T b (b + 2 * Z.of_nat (size k) + 1) d (ndata a) :: P1),
      (P2 ++ number T d (b + 2 * Z.of_nat (size k) + 2) r).
    split; [|auto]. split; [|split; [auto|split]].
    + rewrite A1. cbn [app]. f_equal. rewrite <- !app_assoc. f_equal. cbn [app]. rewrite <- !app_assoc. auto.
    + intros y [<-|Hy]; auto. right. cbn [n_tree n_lft]. lia.
    + intros y Hy. apply in_app_iff in Hy. destruct Hy as [Hy|Hy]; auto.
      right. rewrite (number_tree _ _ _ _ _ Hy). split; auto. apply number_bounds in Hy. lia.
  - destruct (IHC E d (b + 2 * Z.of_nat (size k) + 2)) as (x & P1 & P2 & (A1 & A2 & A3 & A4) & Ex & Et). cbn [number].
    assert (Hx : In x (number T d (b + 2 * Z.of_nat (size k) + 2) r)).
    { rewrite A1. apply in_app_iff. simpl. auto. }
    apply number_bounds in Hx.
    exists x, (mkNS (nid a) T b (b + 2 * Z.of_nat (size k) + 1) d (ndata a) :: number T (d + 1) (b + 1) k ++ P1), P2.
    split; [|auto]. split; [|split; [auto|split; [|auto]]].
    + rewrite A1. cbn [app]. f_equal. rewrite <- !app_assoc. auto.
    + intros y [<-|Hy].
      * right. cbn [n_tree n_lft]. lia.
      * apply in_app_iff in Hy. destruct Hy as [Hy|Hy]; auto. right.
        rewrite (number_tree _ _ _ _ _ Hy). split; auto. apply number_bounds in Hy. lia.
Qed.

Lemma around_app_l L M x k P1 P2 : around L x k P1 P2 ->
  (forall y, In y M -> beyond y x) -> around (L ++ M) x k P1 (P2 ++ M).
Proof.
  intros (A1 & A2 & A3 & A4) H. split; [|split; [auto|split; [auto|]]].
  - rewrite A1, <- !app_assoc. cbn [app]. rewrite <- !app_assoc. auto.
  - intros y Hy. apply in_app_iff in Hy. destruct Hy; auto.
Qed.

Lemma around_app_r L M x k P1 P2 : around L x k P1 P2 ->
  (forall y, In y M -> before y x) -> around (M ++ L) x k (M ++ P1) P2.
Proof.
  intros (A1 & A2 & A3 & A4) H. split; [|split; [auto|split; [|auto]]].
  - rewrite A1, <- !app_assoc. auto.
  - intros y Hy. apply in_app_iff in Hy. destruct Hy; auto.
Qed.

Lemma layout_ctx p l l' F F' : Ctx (Some p) l l' F F' -> forall ts,
  length ts = length (roots F) -> StronglySorted Z.lt ts ->
  exists x P1 P2, around (layout ts F) x l P1 P2 /\ n_pk x = p.
Proof.
  intros C. remember (Some p) as up. revert Hequp.
  induction C as [|a l l' r|q a k k' l l' r C _|q a k l l' r r' C IH]; intros E [|T ts] Lt S; try discriminate.
  - cbn [layout]. inversion S; subst. injection E as <-.
    destruct (number_ctx T _ _ _ _ _ (Ctx_par a l l Nil) 1 1) as (x & P1 & P2 & A & Ex & Et).
    exists x, P1, (P2 ++ layout ts r). split; auto. apply around_app_l; auto.
    intros y Hy. left. apply layout_tree in Hy. rewrite Forall_forall in H2. specialize (H2 _ Hy). lia.
  - cbn [layout]. inversion S; subst. injection E as ->.
    destruct (number_ctx T _ _ _ _ _ (Ctx_down a Nil C) 1 1) as (x & P1 & P2 & A & Ex & Et).
    exists x, P1, (P2 ++ layout ts r). split; auto. apply around_app_l; auto.
    intros y Hy. left. apply layout_tree in Hy. rewrite Forall_forall in H2. specialize (H2 _ Hy). lia.
  - cbn [layout]. inversion S; subst. injection Lt as Lt.
    destruct (IH E ts Lt H1) as (x & P1 & P2 & A & Ex).
    exists x, (number T 1 1 (Cons a k Nil) ++ P1), P2. split; auto. apply around_app_r; auto.
    intros y Hy. left. rewrite (number_tree _ _ _ _ _ Hy).
    assert (Hx : In x (layout ts r)). { destruct A as [-> _]. apply in_app_iff. simpl. auto. }
    apply layout_tree in Hx. rewrite Forall_forall in H2. apply H2; auto.
Qed.

(** *** Ancestors *)
Definition anc (n r : nsrow) : bool :=
  (n_tree r =? n_tree n) && (n_lft r <? n_lft n) && (n_rgt n <? n_rgt r).

Lemma anc_true n r : anc n r = true <-> n_tree r = n_tree n /\ n_lft r < n_lft n /\ n_rgt n < n_rgt r.
Proof. unfold anc. rewrite !andb_true_iff, Z.eqb_eq, !Z.ltb_lt. tauto. Qed.

Lemma anc_false n r : n_tree r <> n_tree n \/ n_lft n <= n_lft r \/ n_rgt r <= n_rgt n -> anc n r = false.
Proof. intros H. destruct (anc n r) eqn:E; auto. apply anc_true in E. lia. Qed.

Lemma number_anc T f : wf_ids f -> forall d l r, In r (number T d l f) ->
  exists L, ancestors_of (n_pk r) f = Some L /\
    map row_node (filter (anc r) (number T d l f)) = L /\ n_depth r = d + Z.of_nat (length L).
Proof.
  induction f as [|a k IHk s IHs]; intros W d l r Hr; [destruct Hr|].
  apply wf_cons_inv in W. destruct W as (W1 & W2 & W3 & W4 & W5).
  assert (Tr := number_tree _ _ _ _ _ Hr). cbn [number] in *.
  destruct Hr as [E|Hr].
  - exists []. rewrite <- E. cbn [n_pk ancestors_of n_depth length]. rewrite Nat.eqb_refl.
    split; auto. split; [|lia]. rewrite filter_none; auto. intros x Hx. apply anc_false.
    cbn [n_lft]. destruct Hx as [<-|Hx]; [cbn [n_lft]; lia|]. apply in_app_iff in Hx.
    destruct Hx as [Hx|Hx]; apply number_bounds in Hx; lia.
  - apply in_app_iff in Hr. destruct Hr as [Hr|Hr].
    + assert (Hi : In (n_pk r) (ids k)) by (rewrite <- (number_pks T (d + 1) (l + 1) k); apply in_map; auto).
      destruct (IHk W3 _ _ _ Hr) as (L & H1 & H2 & H3). exists (a :: L).
      cbn [ancestors_of]. rewrite H1. destruct (Nat.eqb_spec (nid a) (n_pk r)) as [E|_]; [rewrite E in W1; tauto|].
      split; auto. apply number_bounds in Hr. split; [|cbn [length]; lia].
      cbn [filter]. rewrite filter_app. rewrite (filter_none _ (number T d _ s)).
      * rewrite app_nil_r. replace (anc r _) with true.
        -- cbn [map]. rewrite H2. unfold row_node. cbn [n_pk n_data]. rewrite node_eta. auto.
        -- symmetry. apply anc_true. cbn [n_tree n_lft n_rgt]. lia.
      * intros x Hx. apply number_bounds in Hx. apply anc_false. lia.
    + assert (Hi : In (n_pk r) (ids s)).
      { rewrite <- (number_pks T d (l + 2 * Z.of_nat (size k) + 2) s). apply in_map; auto. }
      destruct (IHs W4 _ _ _ Hr) as (L & H1 & H2 & H3). exists L.
      cbn [ancestors_of]. destruct (Nat.eqb_spec (nid a) (n_pk r)) as [E|_]; [rewrite E in W2; tauto|].
      rewrite ancestors_of_notin by (intros Hk; apply (W5 (n_pk r)); auto).
      split; auto. split; auto. apply number_bounds in Hr. cbn [filter]. rewrite filter_app.
      rewrite (filter_none _ (number T (d + 1) _ k)).
      * replace (anc r _) with false; auto. symmetry. apply anc_false. cbn [n_rgt]. lia.
      * intros x Hx. apply number_bounds in Hx. apply anc_false. lia.
Qed.

Lemma layout_anc ts F : wf_ids F -> StronglySorted Z.lt ts -> forall r, In r (layout ts F) ->
  exists L, ancestors_of (n_pk r) F = Some L /\
    map row_node (filter (anc r) (layout ts F)) = L /\ n_depth r = 1 + Z.of_nat (length L) /\
    (L = [] <-> n_lft r = 1) /\ 1 <= n_lft r.
Proof.
  revert ts. induction F as [|a k _ s IH]; intros [|T ts] W S r; cbn [layout]; try (intros []; fail).
  inversion S as [|? ? S1 S2]; subst. rewrite Forall_forall in S2.
  apply wf_cons_inv in W. destruct W as (W1 & W2 & W3 & W4 & W5). rewrite in_app_iff. intros [H|H].
  - assert (Wa : wf_ids (Cons a k Nil)).
    { unfold wf_ids. rewrite ids_cons, app_nil_r. constructor; auto. }
    assert (Tr := number_tree _ _ _ _ _ H). destruct (number_anc T _ Wa 1 1 r H) as (L & H1 & H2 & H3).
    exists L. split; [|split; [|split; [auto|]]].
    + cbn [ancestors_of] in *. destruct (nid a =? n_pk r)%nat; auto.
      destruct (ancestors_of (n_pk r) k); [auto|discriminate].
    + rewrite filter_app, (filter_none _ (layout ts s)); [rewrite app_nil_r; auto|].
      intros x Hx. apply layout_tree in Hx. apply S2 in Hx. apply anc_false. lia.
    + assert (B := number_bounds _ _ _ _ _ H). split; [|lia]. rewrite <- H2. cbn [number] in H |- *. destruct H as [H|H].
      * rewrite <- H in *. cbn [n_lft]. split; auto. intros _. rewrite filter_none; auto.
        intros x Hx. apply anc_false. cbn [n_lft] in *. destruct Hx as [<-|Hx]; [cbn [n_lft]; lia|].
        apply in_app_iff in Hx. destruct Hx as [Hx|[]]; apply number_bounds in Hx; lia.
      * rewrite app_nil_r in *. apply number_bounds in H. cbn [filter]. replace (anc r _) with true.
        -- cbn [map]. split; [discriminate|lia].
        -- symmetry. apply anc_true. cbn [n_tree n_lft n_rgt]. lia.
  - assert (Tr := layout_tree _ _ _ H). destruct (IH _ W4 S1 _ H) as (L & H1 & H2 & H3 & H4).
    exists L. split; [|split; [|auto]].
    + assert (In (n_pk r) (ids s)).
      { clear - H. revert ts H. induction s as [|b k _ s IH]; intros [|T ts]; cbn [layout]; try (intros []; fail).
        rewrite in_app_iff. rewrite ids_one, in_app_iff. intros [H|H]; [left|right; eauto].
        rewrite <- (number_pks T 1 1). apply in_map; auto. }
      cbn [ancestors_of]. destruct (Nat.eqb_spec (nid a) (n_pk r)) as [E|_]; [rewrite E in W2; tauto|].
      rewrite ancestors_of_notin by (intros Hk; apply (W5 (n_pk r)); auto). auto.
    + rewrite filter_app, (filter_none _ (number T 1 1 _)); auto.
      intros x Hx. apply number_tree in Hx. apply S2 in Tr. apply anc_false. lia.
Qed.

(** *** Levels *)
Lemma prune_0 (f : forest node) : prune 0 f = Nil.
Proof. destruct f; auto. Qed.

Lemma number_prune T f : forall d l m,
  map row_node (filter (fun r => n_depth r <=? m) (number T d l f)) = preorder (prune (Z.to_nat (m - d + 1)) f).
Proof.
  induction f as [|a k IHk s IHs]; intros d l m; cbn [number prune]; auto.
  cbn [filter n_depth]. rewrite filter_app. destruct (Z.leb_spec d m) as [H|H].
  - replace (Z.to_nat (m - d + 1)) with (S (Z.to_nat (m - d))) at 1 by lia.
    cbn [map]. rewrite map_app, IHk, IHs. unfold row_node at 1. cbn [n_pk n_data]. rewrite node_eta.
    replace (m - (d + 1) + 1) with (m - d) by lia. cbn [preorder].
    replace (Z.to_nat (m - d + 1)) with (S (Z.to_nat (m - d))) by lia. auto.
  - replace (Z.to_nat (m - d + 1)) with O at 1 by lia.
    rewrite !filter_none; auto; intros x Hx; apply number_bounds in Hx; apply Z.leb_gt; lia.
Qed.

Lemma layout_prune ts F m : length ts = length (roots F) -> 
  map row_node (filter (fun r => n_depth r <=? Z.of_nat m) (layout ts F)) = preorder (prune m F).
Proof.
  revert ts. induction F as [|a k _ r IH]; intros [|T ts] E; try discriminate; auto.
  cbn [layout]. rewrite filter_app, map_app, number_prune, IH by (injection E; auto).
  replace (Z.to_nat (Z.of_nat m - 1 + 1)) with m by lia.
  destruct m; cbn [prune preorder].
  - rewrite prune_0. auto.
  - rewrite app_nil_r. auto.
Qed.

(** A max_depth of 0 means no limit (as written, [if max_depth:]). *)
Definition levels (m : option nat) : option nat := match m with Some O => None | _ => m end.

(** *** Roots *)
Fixpoint heads (ts : list Z) (F : forest node) : ns_table :=
  match F, ts with
  | Cons a k r, T :: ts => mkNS (nid a) T 1 (1 + 2 * Z.of_nat (size k) + 1) 1 (ndata a) :: heads ts r
  | _, _ => []
  end.

Lemma heads_roots ts F : length ts = length (roots F) -> map row_node (heads ts F) = roots F.
Proof.
  revert ts. induction F as [|a k _ r IH]; intros [|T ts] E; try discriminate; auto.
  cbn [heads map roots]. rewrite IH by (injection E; auto). unfold row_node. cbn [n_pk n_data].
  rewrite node_eta. auto.
Qed.

Lemma heads_layout ts F : filter is_root (layout ts F) = heads ts F.
Proof.
  revert ts. induction F as [|a k _ r IH]; intros [|T ts]; auto.
  cbn [layout heads]. rewrite filter_app, IH. cbn [number filter].
  unfold is_root at 1. cbn [n_lft]. rewrite Z.eqb_refl. rewrite app_nil_r, filter_none; auto.
  intros x Hx. apply number_bounds in Hx. apply Z.eqb_neq. lia.
Qed.

Lemma layout_fapp F G : forall ts us, length ts = length (roots F) ->
  layout (ts ++ us) (fapp F G) = layout ts F ++ layout us G.
Proof.
  induction F as [|a k _ r IH]; intros [|T ts] us E; try discriminate; auto.
  cbn [app fapp layout]. rewrite IH by (injection E; auto). rewrite app_assoc. auto.
Qed.

Lemma heads_fapp F G : forall ts us, length ts = length (roots F) ->
  heads (ts ++ us) (fapp F G) = heads ts F ++ heads us G.
Proof.
  induction F as [|a k _ r IH]; intros [|T ts] us E; try discriminate; auto.
  cbn [app fapp heads]. rewrite IH by (injection E; auto). auto.
Qed.

Lemma heads_tree ts F r : In r (heads ts F) -> In (n_tree r) ts /\ n_lft r = 1 /\ n_depth r = 1.
Proof.
  revert ts. induction F as [|a k _ s IH]; intros [|T ts]; cbn [heads]; try (intros []; fail).
  intros [<-|H]; [simpl; auto|]. destruct (IH _ H). split; [right|]; auto.
Qed.

Section Table.
Variable t : ns_table.
Variable F : forest node.
Variable ts : list Z.
Hypothesis W : wf_ids F.
Hypothesis I : ids_ok ts F.
Hypothesis P : Permutation t (layout ts F).

Lemma query Q : order_rows (filter Q t) = filter Q (layout ts F).
Proof.
  apply order_unique.
  - apply ssorted_filter; auto using key_lt_irr. apply layout_sorted. apply I.
  - apply Permutation_filter. auto.
Qed.

Lemma in_t r : In r t <-> In r (layout ts F).
Proof. split; intros H; [|apply Permutation_sym in P]; eapply Permutation_in; eauto. Qed.

Lemma pks : Permutation (map n_pk t) (ids F).
Proof. rewrite P, layout_pks by apply I. auto. Qed.

Lemma row_eq r r' : In r t -> In r' t -> n_pk r = n_pk r' -> r = r'.
Proof.
  apply NoDup_map_inj. rewrite pks. exact W.
Qed.

Lemma pk_row i : In i (ids F) -> exists r, In r t /\ n_pk r = i.
Proof.
  intros H. apply (Permutation_in _ (Permutation_sym pks)) in H. apply in_map_iff in H.
  destruct H as (r & E & H). eauto.
Qed.

Lemma row_pk r : In r t -> In (n_pk r) (ids F).
Proof. intros H. apply (Permutation_in _ pks), in_map. auto. Qed.

Lemma filter_pk r : In r t -> filter (fun x => (n_pk x =? n_pk r)%nat) t = [r].
Proof.
  assert (ND : NoDup (map n_pk t)) by (rewrite pks; exact W).
  clear -ND. induction t as [|x l IH]; intros Hr; [destruct Hr|].
  destruct Hr as [->|H]; cbn [map] in ND; apply NoDup_cons_iff in ND; destruct ND as [N1 N2].
  - cbn [filter]. rewrite Nat.eqb_refl. f_equal. apply filter_none. intros y Hy. apply Nat.eqb_neq.
    intros E. apply N1. rewrite <- E. apply in_map. auto.
  - cbn [filter]. destruct (Nat.eqb_spec (n_pk x) (n_pk r)) as [E|_]; auto.
    exfalso. apply N1. rewrite E. apply in_map. auto.
Qed.

Lemma get_by_pk_in r : In r t -> get_by_pk t (n_pk r) = Ok r.
Proof.
  intros H. unfold get_by_pk. rewrite filter_pk by auto. auto.
Qed.

Lemma get_by_pk_none i : ~ In i (ids F) -> get_by_pk t i = Err DoesNotExist.
Proof.
  intros H. unfold get_by_pk. rewrite filter_none; auto. intros x Hx. apply Nat.eqb_neq.
  intros <-. apply H, row_pk; auto.
Qed.

Lemma kids_row r : In r t -> exists k P1 P2, children_of (n_pk r) F = Some k /\
  around (layout ts F) r k P1 P2 /\ forall l', exists F', Ctx (Some (n_pk r)) k l' F F'.
Proof.
  intros Hr. destruct (kids_ctx _ _ (row_pk _ Hr)) as [k C]. destruct (C k) as [F' C'].
  destruct I as (I1 & I2 & I3). destruct (layout_ctx _ _ _ _ _ C' ts I1 I2) as (x & P1 & P2 & A & E).
  assert (Hx : In x t). { apply in_t. destruct A as [-> _]. apply in_app_iff. simpl. auto. }
  assert (x = r) by (apply row_eq; auto). subst x. exists k, P1, P2.
  split; [|auto]. apply (Ctx_kids_of C' W).
Qed.

Lemma rgt_size r k P1 P2 : around (layout ts F) r k P1 P2 -> n_rgt r = n_lft r + 2 * Z.of_nat (size k) + 1.
Proof. intros (_ & H & _). auto. Qed.

Lemma leaf_iff r k P1 P2 : around (layout ts F) r k P1 P2 -> (is_leaf r = true <-> k = Nil).
Proof.
  intros H. apply rgt_size in H. unfold is_leaf. rewrite Z.eqb_eq, H. split; intros E.
  - destruct k; auto. cbn [size] in E. lia.
  - subst k. cbn [size]. lia.
Qed.

Lemma branch_rows r k P1 P2 : around (layout ts F) r k P1 P2 ->
  filter (fun x => (n_tree x =? n_tree r) && ((n_lft r <=? n_lft x) && (n_lft x <=? n_rgt r - 1))) (layout ts F)
  = r :: number (n_tree r) (n_depth r + 1) (n_lft r + 1) k.
Proof.
  intros (A1 & A2 & A3 & A4). rewrite A1 at 1. rewrite filter_app. cbn [filter]. rewrite filter_app.
  rewrite !Z.eqb_refl. rewrite (filter_none _ P1), (filter_none _ P2).
  - replace ((n_lft r <=? n_lft r) && (n_lft r <=? n_rgt r - 1)) with true
      by (symmetry; apply andb_true_iff; rewrite !Z.leb_le; lia).
    cbn [andb app]. rewrite app_nil_r. f_equal. apply filter_all. intros x Hx.
    rewrite (number_tree _ _ _ _ _ Hx), Z.eqb_refl. apply number_bounds in Hx.
    apply andb_true_iff; split; auto; apply andb_true_iff; rewrite !Z.leb_le; lia.
  - intros x Hx. apply A4 in Hx. destruct Hx as [Hx|[Hx Hx2]].
    + apply andb_false_iff. left. apply Z.eqb_neq. lia.
    + apply andb_false_iff. right. apply andb_false_iff. right. apply Z.leb_gt. lia.
  - intros x Hx. apply A3 in Hx. destruct Hx as [Hx|[Hx Hx2]].
    + apply andb_false_iff. left. apply Z.eqb_neq. lia.
    + apply andb_false_iff. right. apply andb_false_iff. left. apply Z.leb_gt. lia.
Qed.

Lemma get_tree_branch r k P1 P2 : In r t -> around (layout ts F) r k P1 P2 -> forall d,
  get_tree t (Some r) d = r :: filter (depth_ok d (n_depth r)) (number (n_tree r) (n_depth r + 1) (n_lft r + 1) k)
  \/ (exists z, d = Some z /\ z < 0).
Proof.
  intros Hr A d. assert (L := leaf_iff _ _ _ _ A). cbn [get_tree].
  destruct (is_leaf r).
  - left. assert (k = Nil) by (apply L; auto). subst k. cbn [number filter].
    rewrite filter_pk by auto. reflexivity.
  - rewrite query. rewrite <- filter_filter with (Q := fun x => (n_tree x =? n_tree r) && ((n_lft r <=? n_lft x) && (n_lft x <=? n_rgt r - 1))).
    rewrite (branch_rows _ _ _ _ A). cbn [filter].
    destruct d as [d|]; [|auto]. destruct (Z.lt_ge_cases d 0); [right; eauto|left].
    replace (depth_ok (Some d) (n_depth r) r) with true; auto.
    symmetry. unfold depth_ok. destruct (d =? 0); auto. apply Z.leb_le. lia.
Qed.

Lemma get_descendants_branch r k P1 P2 : In r t -> around (layout ts F) r k P1 P2 -> forall d,
  (forall z, d = Some z -> 0 <= z) ->
  get_descendants t r false d = filter (depth_ok d (n_depth r)) (number (n_tree r) (n_depth r + 1) (n_lft r + 1) k).
Proof.
  intros Hr A d Hd. unfold get_descendants. assert (L := leaf_iff _ _ _ _ A). destruct (is_leaf r).
  - assert (k = Nil) by (apply L; auto). subst k. reflexivity.
  - destruct (get_tree_branch r k P1 P2 Hr A d) as [->|(z & -> & Hz)]; [|specialize (Hd z eq_refl); lia].
    cbn [filter]. rewrite Nat.eqb_refl. cbn [negb]. apply filter_all. intros x Hx.
    apply filter_In in Hx. destruct Hx as [Hx _]. apply negb_true_iff, Nat.eqb_neq. intros E.
    assert (x = r).
    { apply row_eq; auto. apply in_t. destruct A as [-> _]. apply in_app_iff. right. right.
      apply in_app_iff. auto. }
    subst x. apply number_bounds in Hx. lia.
Qed.

Lemma around_tops r k P1 P2 : In r t -> around (layout ts F) r k P1 P2 ->
  get_children t r = tops (n_tree r) (n_depth r + 1) (n_lft r + 1) k.
Proof.
  intros Hr A. unfold get_children. rewrite (get_descendants_branch _ _ _ _ Hr A) by discriminate.
  rewrite filter_filter. cbn [depth_ok andb]. apply tops_number.
Qed.

Lemma get_root_nodes_heads : get_root_nodes t = heads ts F.
Proof. unfold get_root_nodes. rewrite query. apply heads_layout. Qed.

Lemma around_in r k P1 P2 x : around (layout ts F) r k P1 P2 ->
  In x (number (n_tree r) (n_depth r + 1) (n_lft r + 1) k) -> In x t.
Proof.
  intros [A _] H. apply in_t. rewrite A. apply in_app_iff. right. right. apply in_app_iff. auto.
Qed.

Lemma around_self r k P1 P2 : around (layout ts F) r k P1 P2 -> In r t.
Proof. intros [A _]. apply in_t. rewrite A. apply in_app_iff. simpl. auto. Qed.

(** A non-root row among its siblings: [x] is its parent. *)
Definition sib_in (r : nsrow) (x : nsrow) (l1 : forest node) (a : node) (k l2 : forest node) : Prop :=
  row_node r = a /\ n_tree r = n_tree x /\ n_depth r = n_depth x + 1 /\
  n_lft r = n_lft x + 1 + 2 * Z.of_nat (size l1) /\ n_rgt r = n_lft r + 2 * Z.of_nat (size k) + 1.

Definition up_row (up : option nat) (r : nsrow) (l1 : forest node) (a : node) (k l2 : forest node) : Prop :=
  match up with
  | None => F = fapp l1 (Cons a k l2) /\ n_lft r = 1 /\ n_depth r = 1 /\ row_node r = a /\
            n_rgt r = 2 * Z.of_nat (size k) + 2 /\
            exists ts1 ts2, ts = ts1 ++ n_tree r :: ts2 /\ length ts1 = length (roots l1)
  | Some p => exists x P1 P2, In x t /\ n_pk x = p /\
      around (layout ts F) x (fapp l1 (Cons a k l2)) P1 P2 /\ sib_in r x l1 a k l2 /\
      query_parent t r = Ok x /\ n_lft r <> 1
  end.

Lemma anc_query r : is_root r = false ->
  get_ancestors t r = filter (anc r) (layout ts F).
Proof. intros H. unfold get_ancestors. rewrite H. apply query. Qed.

Lemma lft_pos r : In r t -> 1 <= n_lft r.
Proof.
  intros H. apply in_t in H. destruct I as (I1 & I2 & I3).
  destruct (layout_anc ts F W I2 r H) as (L & _ & _ & _ & _ & G). auto.
Qed.

Lemma sibs_row r : In r t -> exists up l1 a k l2, nid a = n_pk r /\
  (forall l', exists F', Ctx up (fapp l1 (Cons a k l2)) l' F F') /\ up_row up r l1 a k l2.
Proof.
  intros Hr. destruct (node_ctx _ _ (row_pk _ Hr)) as (up & l & Hl & C).
  destruct (root_split _ _ Hl) as (l1 & a & k & l2 & Ea & ->).
  exists up, l1, a, k, l2. split; auto. split; auto.
  destruct (C (fapp l1 (Cons a k l2))) as [F' C']. destruct up as [p|].
  - destruct I as (I1 & I2 & I3). destruct (layout_ctx _ _ _ _ _ C' ts I1 I2) as (x & P1 & P2 & A & E).
    assert (Hx := around_self _ _ _ _ A).
    set (r' := mkNS (nid a) (n_tree x) (n_lft x + 1 + 2 * Z.of_nat (size l1))
                 (n_lft x + 1 + 2 * Z.of_nat (size l1) + 2 * Z.of_nat (size k) + 1) (n_depth x + 1) (ndata a)).
    assert (Hn : number (n_tree x) (n_depth x + 1) (n_lft x + 1) (fapp l1 (Cons a k l2)) =
       number (n_tree x) (n_depth x + 1) (n_lft x + 1) l1 ++ r' ::
       number (n_tree x) (n_depth x + 1 + 1) (n_lft r' + 1) k ++
       number (n_tree x) (n_depth x + 1) (n_rgt r' + 1) l2).
    { rewrite number_fapp. cbn [number]. unfold r'. cbn [n_lft n_rgt].
      replace (n_lft x + 1 + 2 * Z.of_nat (size l1) + 2 * Z.of_nat (size k) + 1 + 1)
        with (n_lft x + 1 + 2 * Z.of_nat (size l1) + 2 * Z.of_nat (size k) + 2) by lia. auto. }
    assert (Hr' : In r' t).
    { apply (around_in _ _ _ _ r' A). rewrite Hn. apply in_app_iff. simpl. auto. }
    assert (Er : r' = r) by (apply row_eq; auto). clear Hr'. assert (Lx := lft_pos _ Hx).
    exists x, P1, P2. split; auto. split; auto. split; auto. split.
    { rewrite <- Er. unfold sib_in, row_node, r'. cbn [n_pk n_data n_tree n_depth n_lft n_rgt]. rewrite node_eta. auto. }
    assert (N1 : n_lft r <> 1). { rewrite <- Er. unfold r'. cbn [n_lft]. lia. }
    split; auto. unfold query_parent. rewrite anc_query by (apply Z.eqb_neq; auto).
    destruct A as (A1 & A2 & A3 & A4). rewrite A1 at 1. rewrite filter_app. cbn [filter].
    rewrite size_fapp in A2. cbn [size] in A2.
    replace (anc r x) with true.
    + rewrite filter_app, (filter_none _ (number _ _ _ _)), (filter_none _ P2).
      * cbn [app]. rewrite last_opt_app. auto.
      * intros y Hy. apply A4 in Hy. apply anc_false. rewrite <- Er. unfold r'. cbn [n_tree n_lft n_rgt].
        destruct Hy as [Hy|Hy]; lia.
      * intros y. rewrite Hn, in_app_iff. cbn [In]. rewrite in_app_iff. intros Hy. apply anc_false.
        rewrite <- Er. destruct Hy as [Hy|[<-|[Hy|Hy]]].
        -- apply number_bounds in Hy. unfold r'. cbn [n_tree n_lft n_rgt]. lia.
        -- lia.
        -- apply number_bounds in Hy. lia.
        -- apply number_bounds in Hy. unfold r' in *. cbn [n_tree n_lft n_rgt] in *. lia.
    + symmetry. apply anc_true. rewrite <- Er. unfold r'. cbn [n_tree n_lft n_rgt]. lia.
  - assert (EF : F = fapp l1 (Cons a k l2)) by (inversion C'; auto). destruct I as (I1 & I2 & I3).
    assert (exists ts1 T ts2, ts = ts1 ++ T :: ts2 /\ length ts1 = length (roots l1)) as (ts1 & T & ts2 & E1 & E2).
    { rewrite EF in I1. clear - I1. rewrite roots_fapp, app_length in I1. cbn [roots length] in I1.
      exists (firstn (length (roots l1)) ts). destruct (skipn (length (roots l1)) ts) as [|T ts2] eqn:E.
      - apply (f_equal (@length Z)) in E. rewrite skipn_length in E. simpl in E. lia.
      - exists T, ts2. rewrite <- E, firstn_skipn. split; auto. rewrite firstn_length. lia. }
    set (r' := mkNS (nid a) T 1 (1 + 2 * Z.of_nat (size k) + 1) 1 (ndata a)).
    assert (Hr' : In r' t).
    { apply in_t. rewrite E1, EF. rewrite layout_fapp by auto. apply in_app_iff. right. cbn [layout].
      apply in_app_iff. left. left. auto. }
    assert (Er : r' = r) by (apply row_eq; auto). rewrite <- Er. unfold up_row, r', row_node.
    cbn [n_pk n_data n_tree n_depth n_lft n_rgt]. rewrite node_eta.
    split; auto. split; auto. split; auto. split; auto. split; [lia|]. eauto.
Qed.

Lemma get_siblings_row up r l1 a k l2 : up_row up r l1 a k l2 ->
  get_siblings t r = Ok (match up with
                         | None => heads ts F
                         | Some _ => match query_parent t r with
                                     | Ok x => tops (n_tree x) (n_depth x + 1) (n_lft x + 1) (fapp l1 (Cons a k l2))
                                     | Err _ => []
                                     end
                         end).
Proof.
  unfold get_siblings. destruct up as [p|]; cbn [up_row].
  - intros (x & P1 & P2 & Hx & Ex & A & Hs & Hq & N). destruct (Z.eqb_spec (n_lft r) 1); [tauto|].
    rewrite Hq. cbn [bind]. rewrite (around_tops _ _ _ _ Hx A). auto.
  - intros (_ & -> & _). cbn. rewrite get_root_nodes_heads. auto.
Qed.

Lemma up_row_ctx up r l1 a k l2 : nid a = n_pk r -> (forall l', exists F', Ctx up (fapp l1 (Cons a k l2)) l' F F') ->
  parent_of (n_pk r) F = Some up /\ kids_of up F = Some (fapp l1 (Cons a k l2)) /\
  siblings_of (n_pk r) F = roots l1 ++ a :: roots l2.
Proof.
  intros E C. destruct (C Nil) as [F' C']. 
  assert (E1 : parent_of (n_pk r) F = Some up).
  { eapply Ctx_parent_of; eauto. rewrite roots_fapp, map_app. apply in_app_iff. right. simpl. auto. }
  assert (E2 := Ctx_kids_of C' W). split; auto. split; auto. unfold siblings_of. rewrite E1, E2, roots_fapp. auto.
Qed.

Lemma heads_in x : In x (heads ts F) -> In x t.
Proof. rewrite <- heads_layout, filter_In, in_t. tauto. Qed.

Lemma siblings_list r : In r t -> exists L L1 L2, get_siblings t r = Ok L /\ L = L1 ++ r :: L2 /\
  map row_node L = siblings_of (n_pk r) F /\ (forall x, In x L -> In x t).
Proof.
  intros Hr. destruct (sibs_row r Hr) as (up & l1 & a & k & l2 & Ea & C & U).
  destruct (up_row_ctx _ _ _ _ _ _ Ea C) as (U1 & U2 & U3).
  rewrite (get_siblings_row _ _ _ _ _ _ U), U3. set (L := match up with Some _ => _ | None => _ end).
  assert (E : map row_node L = roots l1 ++ a :: roots l2 /\ forall x, In x L -> In x t).
  { unfold L. destruct up as [p|]; cbn [up_row] in U.
    - destruct U as (x & P1 & P2 & Hx & Ex & A & Hs & Hq & N). rewrite Hq. split.
      + rewrite tops_roots, roots_fapp. auto.
      + intros y Hy. apply tops_in in Hy. eapply around_in; eauto.
    - destruct U as (EF & _). split; [|apply heads_in].
      rewrite heads_roots by apply I. rewrite EF, roots_fapp. auto. }
  destruct E as [E1 E2]. destruct (map_app_split _ _ _ _ E1) as (L1 & L' & EL & M1 & M2).
  destruct L' as [|r' L2]; [discriminate|]. cbn [map] in M2. injection M2 as M2 M3.
  assert (r' = r).
  { apply row_eq; auto.
    - apply E2. rewrite EL. apply in_app_iff. simpl. auto.
    - rewrite <- Ea, <- M2. auto. }
  subst r'. exists L, L1, L2. auto.
Qed.

Lemma layout_bounds us G r : In r (layout us G) -> 1 <= n_lft r /\ n_lft r < n_rgt r.
Proof.
  revert us. induction G as [|a k _ s IH]; intros [|T us]; cbn [layout]; try (intros []; fail).
  rewrite in_app_iff. intros [H|H]; [apply number_bounds in H; lia|eauto].
Qed.

Lemma desc_row n k P1 P2 r : around (layout ts F) n k P1 P2 -> In r t ->
  (is_descendant_of r n = true <-> In r (number (n_tree n) (n_depth n + 1) (n_lft n + 1) k)).
Proof.
  intros A Hr. unfold is_descendant_of. rewrite !andb_true_iff, Z.eqb_eq, !Z.ltb_lt. split.
  - intros [[H1 H2] H3]. assert (Hi := Hr). apply in_t in Hi. assert (B := layout_bounds _ _ _ Hi).
    destruct A as (A1 & A2 & A3 & A4). rewrite A1 in Hi. apply in_app_iff in Hi.
    destruct Hi as [Hi|[<-|Hi]].
    + apply A3 in Hi. destruct Hi; lia.
    + lia.
    + apply in_app_iff in Hi. destruct Hi as [Hi|Hi]; auto. apply A4 in Hi. destruct Hi; lia.
  - intros H. rewrite (number_tree _ _ _ _ _ H). apply number_bounds in H.
    apply rgt_size in A. lia.
Qed.
End Table.

(** ** The queries *)

(** get_tree without a parent *)
Theorem tree_read t F d : stores t F ->
  map row_node (get_tree t None (option_map Z.of_nat d)) = preorder (prune_opt (levels d) F) /\
  (forall r, In r (get_tree t None (option_map Z.of_nat d)) -> In r t).
Proof.
  intros (W & ts & I & P). cbn [get_tree]. rewrite (query t F ts I P). split.
  - destruct d as [[|d]|]; cbn [option_map levels prune_opt].
    + rewrite filter_all by reflexivity. apply layout_nodes, I.
    + unfold depth_ok. destruct (Z.eqb_spec (Z.of_nat (S d)) 0); [lia|].
      replace (Z.of_nat (S d) + 0) with (Z.of_nat (S d)) by lia. apply layout_prune, I.
    + rewrite filter_all by reflexivity. apply layout_nodes, I.
  - intros r Hr. apply filter_In in Hr. apply (in_t t F ts P). tauto.
Qed.

Theorem children_read t F r : stores t F -> In r t ->
  exists k, children_of (n_pk r) F = Some k /\ map row_node (get_children t r) = roots k /\
    get_children_count t r = length (roots k) /\ (is_leaf r = true <-> k = Nil) /\
    (forall x, In x (get_children t r) -> In x t).
Proof.
  intros (W & ts & I & P) Hr. destruct (kids_row t F ts W I P r Hr) as (k & P1 & P2 & Ek & A & _).
  exists k. unfold get_children_count. rewrite (around_tops t F ts W I P r k P1 P2 Hr A).
  split; auto. split; [apply tops_roots|].
  split; [rewrite <- (tops_roots (n_tree r) k (n_depth r + 1) (n_lft r + 1)), map_length; auto|].
  split; [eapply leaf_iff; eauto|]. intros x Hx. apply tops_in in Hx. eapply around_in; eauto.
Qed.

Theorem descendants_read t F r d : stores t F -> In r t ->
  exists k, children_of (n_pk r) F = Some k /\
    (let m := option_map Z.of_nat d in
     let K := preorder (prune_opt (levels d) k) in
     map row_node (get_tree t (Some r) m) = row_node r :: K /\
     map row_node (get_descendants t r true m) = row_node r :: K /\
     map row_node (get_descendants t r false m) = K /\
     get_descendant_count t r m = Z.of_nat (size (prune_opt (levels d) k)) /\
     (forall x, In x (get_tree t (Some r) m) -> In x t)).
Proof.
  intros (W & ts & I & P) Hr. destruct (kids_row t F ts W I P r Hr) as (k & P1 & P2 & Ek & A & _).
  exists k. split; auto. cbv zeta.
  assert (Hd : forall z, option_map Z.of_nat d = Some z -> 0 <= z).
  { intros z E. destruct d; [|discriminate]. injection E as <-. lia. }
  assert (D := get_descendants_branch t F ts W I P r k P1 P2 Hr A _ Hd).
  assert (E : get_tree t (Some r) (option_map Z.of_nat d) = r :: get_descendants t r false (option_map Z.of_nat d)).
  { rewrite D. destruct (get_tree_branch t F ts W I P r k P1 P2 Hr A (option_map Z.of_nat d)) as [E|(z & E & Hz)]; auto.
    apply Hd in E. lia. }
  assert (M : map row_node (get_descendants t r false (option_map Z.of_nat d)) = preorder (prune_opt (levels d) k)).
  { rewrite D. destruct d as [[|d]|]; cbn [option_map levels prune_opt].
    - rewrite filter_all by reflexivity. apply number_nodes.
    - unfold depth_ok. destruct (Z.eqb_spec (Z.of_nat (S d)) 0); [lia|].
      rewrite number_prune. do 2 f_equal. lia.
    - rewrite filter_all by reflexivity. apply number_nodes. }
  assert (R := rgt_size F ts r k P1 P2 A).
  assert (Q : (n_rgt r - n_lft r - 1) / 2 = Z.of_nat (size k)).
  { rewrite R. replace (n_lft r + 2 * Z.of_nat (size k) + 1 - n_lft r - 1) with (Z.of_nat (size k) * 2) by lia.
    apply Z.div_mul. lia. }
  split; [rewrite E; cbn [map]; congruence|].
  split; [unfold get_descendants at 1; rewrite E; cbn [map]; congruence|].
  split; [auto|]. split.
  - destruct d as [[|d]|]; cbn [option_map levels prune_opt get_descendant_count].
    + cbn. auto.
    + destruct (Z.eqb_spec (Z.of_nat (S d)) 0); [lia|]. f_equal.
      rewrite <- (map_length row_node). change (Some (Z.of_nat (S d))) with (option_map Z.of_nat (Some (S d))).
      rewrite M. apply size_preorder.
    + auto.
  - intros x Hx. rewrite E in Hx. destruct Hx as [<-|Hx]; auto. rewrite D in Hx.
    apply filter_In in Hx. eapply around_in; eauto. apply Hx.
Qed.

Theorem roots_read t F : stores t F ->
  map row_node (get_root_nodes t) = roots F /\ (forall x, In x (get_root_nodes t) -> In x t) /\
  option_map row_node (get_first_root_node t) = hd_error (roots F) /\
  option_map row_node (get_last_root_node t) = last_opt (roots F).
Proof.
  intros (W & ts & I & P). unfold get_first_root_node, get_last_root_node.
  rewrite (get_root_nodes_heads t F ts I P). rewrite <- hd_error_map, <- last_opt_map, heads_roots by apply I.
  split; auto. split; auto. apply (heads_in t F ts P).
Qed.

Theorem siblings_read t F r : stores t F -> In r t ->
  exists L, get_siblings t r = Ok L /\ map row_node L = siblings_of (n_pk r) F /\ (forall x, In x L -> In x t) /\
    In r L.
Proof.
  intros (W & ts & I & P) Hr. destruct (siblings_list t F ts W I P r Hr) as (L & L1 & L2 & E & EL & M & H).
  exists L. split; auto. split; auto. split; auto. rewrite EL. apply in_app_iff. simpl. auto.
Qed.

Lemma wf_roots f : wf_ids f -> NoDup (map nid (roots f)).
Proof.
  induction f as [|a k _ r IH]; intros W; cbn [roots map]; constructor; apply wf_cons_inv in W.
  - intros H. apply roots_ids in H. tauto.
  - apply IH. tauto.
Qed.

Lemma siblings_NoDup s F : wf_ids F -> NoDup (map nid (siblings_of s F)).
Proof.
  intros W. unfold siblings_of. destruct (parent_of s F) as [up|]; [|constructor].
  destruct (kids_of up F) as [l|] eqn:E; [|constructor]. apply wf_roots.
  destruct up as [p|]; cbn [kids_of] in E; [|congruence].
  destruct (in_dec Nat.eq_dec p (ids F)) as [Hp|Hp].
  - destruct (kids_ctx _ _ Hp) as [l' C]. destruct (C Nil) as [F' C'].
    assert (E' := Ctx_kids_of C' W). cbn [kids_of] in E'. rewrite E in E'. injection E' as ->. apply (Ctx_wf_l C' W).
  - rewrite children_of_notin in E by auto. discriminate.
Qed.

Lemma pk_index_app k l1 l2 : ~ In k l1 -> pk_index k (l1 ++ k :: l2) = Some (length l1).
Proof.
  induction l1 as [|x l1 IH]; cbn [app pk_index length].
  - rewrite Nat.eqb_refl. auto.
  - intros H. destruct (Nat.eqb_spec x k) as [->|_]; [destruct H; simpl; auto|].
    rewrite IH; auto. intros Hk. apply H. simpl. auto.
Qed.

Lemma get_by_pk_list L r : NoDup (map n_pk L) -> In r L -> get_by_pk L (n_pk r) = Ok r.
Proof.
  unfold get_by_pk. intros ND H. destruct (filter (fun x => (n_pk x =? n_pk r)%nat) L) as [|x l] eqn:E.
  - assert (Hr : In r (filter (fun x => (n_pk x =? n_pk r)%nat) L)) by (apply filter_In; rewrite Nat.eqb_refl; auto).
    rewrite E in Hr. destruct Hr.
  - assert (Hx : In x (filter (fun x => (n_pk x =? n_pk r)%nat) L)) by (rewrite E; simpl; auto).
    apply filter_In in Hx. destruct Hx as [Hx Ex]. apply Nat.eqb_eq in Ex. f_equal.
    apply (NoDup_map_inj n_pk L); auto.
Qed.

Theorem neighbours_read t F r : stores t F -> In r t ->
  (exists o, get_next_sibling t r = Ok o /\ option_map row_node o = next_of (n_pk r) (siblings_of (n_pk r) F) /\
     (forall x, o = Some x -> In x t)) /\
  (exists o, get_prev_sibling t r = Ok o /\ option_map row_node o = prev_of (n_pk r) (siblings_of (n_pk r) F) /\
     (forall x, o = Some x -> In x t)).
Proof.
  intros (W & ts & I & P) Hr. destruct (siblings_list t F ts W I P r Hr) as (L & L1 & L2 & E & EL & M & H).
  assert (ND := siblings_NoDup (n_pk r) F W). rewrite <- M in ND |- *.
  assert (ND' : NoDup (map n_pk L)) by (rewrite map_map in ND; exact ND).
  unfold get_next_sibling, get_prev_sibling. rewrite E. cbn [bind].
  assert (Ei : pk_index (n_pk r) (map n_pk L) = Some (length L1)).
  { rewrite EL, map_app. cbn [map]. rewrite pk_index_app; [rewrite map_length; auto|].
    intros Hi. rewrite EL, map_app in ND'. apply NoDup_app_iff in ND'. destruct ND' as (_ & _ & N).
    apply (N (n_pk r)); simpl; auto. }
  assert (M' : map row_node L = map row_node L1 ++ row_node r :: map row_node L2) by (rewrite EL, map_app; auto).
  rewrite Ei. rewrite M' in ND |- *. rewrite EL.
  rewrite next_of_split, prev_of_split by auto. rewrite hd_error_map, last_opt_map. split.
  - rewrite EL in ND'. destruct L2 as [|y L2].
    + exists None. rewrite app_length. cbn [length]. replace (length L1 + 1 - 1)%nat with (length L1) by lia.
      rewrite Nat.ltb_irrefl. split; auto. split; auto. discriminate.
    + exists (Some y). destruct (Nat.ltb_spec (length L1) (length (L1 ++ r :: y :: L2) - 1)) as [_|B].
      2: { rewrite app_length in B. cbn [length] in B. lia. }
      replace (nth (S (length L1)) (map n_pk (L1 ++ r :: y :: L2)) 0%nat) with (n_pk y).
      * rewrite get_by_pk_list; auto.
        -- cbn [bind hd_error option_map]. split; auto. split; auto. intros x Ex. injection Ex as <-.
           apply H. rewrite EL. apply in_app_iff. simpl. auto.
        -- apply in_app_iff. simpl. auto.
      * rewrite map_app, app_nth2, map_length by (rewrite map_length; lia).
        replace (S (length L1) - length L1)%nat with 1%nat by lia. auto.
  - rewrite EL in ND'. destruct (last_opt L1) as [y|] eqn:El.
    + apply last_opt_Some in El. destruct El as [L0 ->]. rewrite app_length. cbn [length].
      replace (length L0 + 1)%nat with (S (length L0)) by lia.
      exists (Some y). replace (nth (length L0) (map n_pk ((L0 ++ [y]) ++ r :: L2)) 0%nat) with (n_pk y).
      * rewrite get_by_pk_list; auto.
        -- cbn [bind option_map]. split; auto. split; auto. intros x Ex. injection Ex as <-.
           apply H. rewrite EL. rewrite !in_app_iff. simpl. auto.
        -- rewrite !in_app_iff. simpl. auto.
      * rewrite <- app_assoc. rewrite map_app, app_nth2, map_length by (rewrite map_length; lia).
        rewrite Nat.sub_diag. auto.
    + apply last_opt_None in El. subst L1. exists None. cbn. split; auto. split; auto. discriminate.
Qed.

Theorem ancestors_read t F r : stores t F -> In r t ->
  exists L, ancestors_of (n_pk r) F = Some L /\ map row_node (get_ancestors t r) = L /\
    n_depth r = 1 + Z.of_nat (length L) /\ (is_root r = true <-> L = []) /\
    (forall x, In x (get_ancestors t r) -> In x t).
Proof.
  intros (W & ts & I & P) Hr. assert (Hi := Hr). apply (in_t t F ts P) in Hi.
  destruct (layout_anc ts F W ltac:(apply I) r Hi) as (L & H1 & H2 & H3 & H4 & _).
  exists L. split; auto. unfold get_ancestors. destruct (is_root r) eqn:E.
  - assert (L = []) by (apply H4; apply Z.eqb_eq; auto). subst L.
    split; auto. split; auto. split; [tauto|]. intros x [].
  - change (fun r0 => (n_tree r0 =? n_tree r) && (n_lft r0 <? n_lft r) && (n_rgt r <? n_rgt r0)) with (anc r).
    rewrite (query t F ts I P). split; auto. split; auto. split.
    + split; [discriminate|]. intros EL. apply H4 in EL. unfold is_root in E. apply Z.eqb_neq in E. lia.
    + intros x Hx. apply filter_In in Hx. apply (in_t t F ts P). tauto.
Qed.

(** A freshly fetched object has no cached parent. *)
Theorem parent_read t F r : stores t F -> In r t ->
  exists o, get_parent t (fresh r) = Ok o /\ parent_of (n_pk r) F = Some (option_map n_pk o) /\
    (forall x, o = Some x -> In x t).
Proof.
  intros (W & ts & I & P) Hr. destruct (sibs_row t F ts W I P r Hr) as (up & l1 & a & k & l2 & Ea & C & U).
  destruct (up_row_ctx F W _ _ _ _ _ _ Ea C) as (U1 & U2 & U3). rewrite U1.
  unfold get_parent, fresh, is_root. cbn [o_row o_up]. destruct up as [p|]; cbn [up_row] in U.
  - destruct U as (x & P1 & P2 & Hx & Ex & A & Hs & Hq & N). destruct (Z.eqb_spec (n_lft r) 1); [tauto|].
    rewrite Hq. exists (Some x). cbn [bind option_map]. rewrite Ex. split; auto. split; auto. congruence.
  - destruct U as (_ & -> & _). exists None. split; auto. split; auto. discriminate.
Qed.

Theorem root_read t F r : stores t F -> In r t -> exists x L, get_root t r = Ok x /\ In x t /\
  ancestors_of (n_pk r) F = Some L /\ row_node x = hd (row_node r) L.
Proof.
  intros St Hr. destruct (ancestors_read t F r St Hr) as (L & H1 & H2 & H3 & H4 & H5).
  destruct St as (W & ts & I & P). unfold get_root. unfold get_ancestors in *. unfold is_root in *.
  destruct (Z.eqb_spec (n_lft r) 1) as [E|E].
  - exists r, L. split; auto. split; auto. split; auto. rewrite <- H2. auto.
  - change (fun r0 => (n_tree r0 =? n_tree r) && (n_lft r0 <? n_lft r) && (n_rgt r <? n_rgt r0)) with (anc r) in *.
    rewrite (query t F ts I P) in *. set (Q := fun r0 => (n_tree r0 =? n_tree r) && (n_lft r0 =? 1)).
    assert (G : exists x M, filter Q (layout ts F) = [x] /\ filter (anc r) (layout ts F) = x :: M).
    { assert (Hi := Hr). apply (in_t t F ts P) in Hi. clear H2 H5.
      assert (S : StronglySorted Z.lt ts) by apply I. clear - S Hi E. unfold Q. clear Q.
      revert ts S Hi. induction F as [|a k _ s IH]; intros [|T ts] S; cbn [layout]; try (intros []; fail).
      inversion S as [|? ? S1 S2]; subst. rewrite Forall_forall in S2. rewrite in_app_iff, !filter_app. intros [H|H].
      - assert (Tr := number_tree _ _ _ _ _ H). assert (Bd := number_bounds _ _ _ _ _ H).
        rewrite (filter_none _ (layout ts s)), (filter_none (anc r) (layout ts s)), !app_nil_r.
        + cbn [number] in *. rewrite app_nil_r in *. destruct H as [H|H]; [rewrite <- H in E; cbn in E; lia|].
          apply number_bounds in H. exists (mkNS (nid a) T 1 (1 + 2 * Z.of_nat (size k) + 1) 1 (ndata a)).
          exists (filter (anc r) (number T (1 + 1) (1 + 1) k)). cbn [filter]. cbn [n_tree n_lft]. rewrite Tr, Z.eqb_refl.
          cbn [Z.eqb Pos.eqb andb]. split.
          * f_equal. apply filter_none. intros y Hy. apply number_bounds in Hy. apply andb_false_iff. right. apply Z.eqb_neq. lia.
          * replace (anc r _) with true; auto. symmetry. apply anc_true. cbn [n_tree n_lft n_rgt]. lia.
        + intros y Hy. apply layout_tree, S2 in Hy. apply anc_false. lia.
        + intros y Hy. apply layout_tree, S2 in Hy. apply andb_false_iff. left. apply Z.eqb_neq. lia.
      - assert (Tr := layout_tree _ _ _ H). apply S2 in Tr.
        rewrite (filter_none _ (number T 1 1 _)), (filter_none (anc r) (number T 1 1 _)); cbn [app]; auto.
        + intros y Hy. apply number_tree in Hy. apply anc_false. lia.
        + intros y Hy. apply number_tree in Hy. apply andb_false_iff. left. apply Z.eqb_neq. lia. }
    destruct G as (x & M & G1 & G2).
    assert (Gp : Permutation (filter Q t) [x]) by (rewrite <- G1; apply Permutation_filter; auto).
    apply Permutation_sym, Permutation_length_1_inv in Gp. fold Q. rewrite Gp. exists x, L.
    split; auto. split; [apply H5; rewrite G2; simpl; auto|]. split; auto. rewrite <- H2, G2. auto.
Qed.

Lemma has_pk_in L n : has_pk L n = true <-> In (n_pk n) (map n_pk L).
Proof.
  unfold has_pk. rewrite existsb_exists, in_map_iff. split.
  - intros (x & H & E). apply Nat.eqb_eq in E. eauto.
  - intros (x & E & H). exists x. split; auto. apply Nat.eqb_eq; auto.
Qed.

Lemma pks_of_nodes L : map n_pk L = map nid (map row_node L).
Proof. rewrite map_map. auto. Qed.

Theorem child_read t F r n : stores t F -> In r t -> In n t ->
  (is_child_of t r n = true <-> parent_of (n_pk r) F = Some (Some (n_pk n))).
Proof.
  intros St Hr Hn. destruct (children_read t F n St Hn) as (k & Ek & Em & _ & _ & _).
  unfold is_child_of. rewrite has_pk_in, pks_of_nodes, Em.
  destruct St as (W & ts & I & P). split.
  - intros H. destruct (kids_row t F ts W I P n Hn) as (k' & P1 & P2 & Ek' & A & C).
    rewrite Ek in Ek'. injection Ek' as <-. destruct (C Nil) as [F' C']. eapply Ctx_parent_of; eauto.
  - intros H. destruct (sibs_row t F ts W I P r Hr) as (up & l1 & a & k' & l2 & Ea & C & U).
    destruct (up_row_ctx F W _ _ _ _ _ _ Ea C) as (U1 & U2 & U3). rewrite H in U1. injection U1 as <-.
    cbn [kids_of] in U2. rewrite Ek in U2. injection U2 as ->. rewrite roots_fapp, map_app.
    apply in_app_iff. right. simpl. auto.
Qed.

Theorem sibling_read t F r n : stores t F -> In r t -> In n t ->
  exists b, is_sibling_of t r n = Ok b /\ (b = true <-> parent_of (n_pk r) F = parent_of (n_pk n) F).
Proof.
  intros St Hr Hn. destruct (siblings_read t F r St Hr) as (L & E & Em & _ & _).
  unfold is_sibling_of. rewrite E. cbn [bind]. eexists. split; [reflexivity|].
  rewrite has_pk_in, pks_of_nodes, Em. destruct St as (W & ts & I & P).
  destruct (sibs_row t F ts W I P r Hr) as (up & l1 & a & k & l2 & Ea & C & U).
  destruct (up_row_ctx F W _ _ _ _ _ _ Ea C) as (U1 & U2 & U3).
  destruct (sibs_row t F ts W I P n Hn) as (up' & l1' & a' & k' & l2' & Ea' & C' & U').
  destruct (up_row_ctx F W _ _ _ _ _ _ Ea' C') as (U1' & U2' & U3').
  rewrite U1, U1'. unfold siblings_of. rewrite U1, U2. split.
  - intros H. destruct (C Nil) as [F' C1]. rewrite <- U1'. symmetry. eapply Ctx_parent_of; eauto.
  - intros H. injection H as <-. rewrite U2 in U2'. injection U2' as ->. rewrite roots_fapp, map_app.
    apply in_app_iff. right. simpl. auto.
Qed.

Theorem descendant_read t F r n : stores t F -> In r t -> In n t ->
  (is_descendant_of r n = true <-> descends F (n_pk n) (n_pk r)).
Proof.
  intros (W & ts & I & P) Hr Hn. destruct (kids_row t F ts W I P n Hn) as (k & P1 & P2 & Ek & A & C).
  rewrite (desc_row t F ts P n k P1 P2 r A Hr). unfold descends. split.
  - intros H. exists k. split; auto. rewrite <- (number_pks (n_tree n) (n_depth n + 1) (n_lft n + 1) k). apply in_map; auto.
  - intros (l & El & Hl). rewrite Ek in El. injection El as <-.
    rewrite <- (number_pks (n_tree n) (n_depth n + 1) (n_lft n + 1) k) in Hl. apply in_map_iff in Hl.
    destruct Hl as (x & Ex & Hx). assert (x = r).
    { apply (row_eq t F ts W I P); auto. eapply around_in; eauto. }
    subst x. auto.
Qed.

Theorem group_count_read t F o : stores t F -> (forall p, o = Some p -> In p t) ->
  exists l, kids_of (option_map n_pk o) F = Some l /\
  map (fun x => (row_node (fst x), snd x)) (get_descendants_group_count t o)
  = map (fun a => (a, match children_of (nid a) F with Some k => Z.of_nat (size k) | None => 0 end)) (roots l).
Proof.
  intros St Ho.
  assert (G : forall L l, map row_node L = roots l -> (forall x, In x L -> In x t) ->
    map (fun x => (row_node (fst x), snd x)) (map (fun n => (n, get_descendant_count t n None)) L)
    = map (fun a => (a, match children_of (nid a) F with Some k => Z.of_nat (size k) | None => 0 end)) (roots l)).
  { intros L l E H. rewrite <- E, !map_map. apply map_ext_in. intros x Hx. cbn [fst snd]. f_equal.
    destruct (descendants_read t F x None St (H x Hx)) as (k & Ek & D). cbv zeta in D.
    destruct D as (_ & _ & _ & D & _). unfold row_node. cbn [nid]. rewrite Ek. exact D. }
  unfold get_descendants_group_count. destruct o as [p|]; cbn [option_map kids_of].
  - destruct (children_read t F p St (Ho p eq_refl)) as (k & Ek & Em & _ & _ & Hi). exists k. split; auto.
  - exists F. split; auto. destruct (roots_read t F St) as (R1 & R2 & _). auto.
Qed.
