(** All queries of adjacency lists collected: what they answer about the listed forest. *)
From Coq Require Import String List Arith ZArith Lia Bool Permutation Sorted.
From Verif Require Import Prelude Forest SpecFacts SpecSane CommonModel Order History SpecRun SpecKids ALModel ALInv ALReads ALUpd ALOk.
Import ListNotations.

Lemma hd_map {A B} (f : A -> B) l : option_map f (hd_error l) = hd_error (map f l).
Proof. destruct l; auto. Qed.
Lemma last_map {A B} (f : A -> B) l : option_map f (last_opt l) = last_opt (map f l).
Proof. unfold last_opt. rewrite <- map_rev. apply hd_map. Qed.

(** A max_depth of 0 means no limit (as written, [if max_depth and ...]). *)
Definition levels (m : option nat) : option nat := match m with Some O => None | _ => m end.

Lemma collect_ext {A B} (f g : A -> res (list B)) l : (forall x, f x = g x) -> collect f l = collect g l.
Proof. intros H. induction l as [|x l IH]; auto. cbn. rewrite H, IH. auto. Qed.

Lemma zero_rec o k : forall t parent nhc d, tree_rec o k t parent nhc d (Some 0%Z) = tree_rec o k t parent nhc d None.
Proof.
  induction k as [|k IH]; intros; auto. rewrite !tree_rec_S. cbn [too_deep]. change (0 =? 0)%Z with true. cbn [negb andb].
  apply collect_ext. intros x. rewrite IH. auto.
Qed.

Lemma zero_tree o t p : get_tree o t p (Some 0%Z) = get_tree o t p None.
Proof.
  unfold get_tree. destruct p as [p|]; [|apply zero_rec]. destruct (get_depth t p false) as [(d & q)|]; auto.
  cbn [bind]. change (0 =? 0)%Z with true. cbn iota. rewrite zero_rec. auto.
Qed.

Lemma levels_tree o t p d : get_tree o t p (option_map Z.of_nat d) = get_tree o t p (option_map Z.of_nat (levels d)).
Proof. destruct d as [[|d]|]; auto. apply zero_tree. Qed.

Definition row_nodes (l : al_table) : list node := map row_node l.

(** A node object whose cached depth, if any, is the level [1 + length A] of the node. *)
Definition good_depth (F : forest node) (n : alobj) : Prop :=
  forall d A, o_depth n = Some d -> ancestors_of (a_pk (o_row n)) F = Some A -> d = Z.of_nat (S (length A)).

(** Nodes with their levels. *)
Definition with_level (x : alobj) : option Z * node := (o_depth x, obj_node x).
Definition at_level (x : nat * node) : option Z * node := (Some (Z.of_nat (fst x)), snd x).

Record answers (o : ordering) (t : al_table) (F : forest node) : Prop := {
  an_roots : row_nodes (get_root_nodes o t) = roots F /\
    option_map row_node (get_first_root_node o t) = hd_error (roots F) /\
    option_map row_node (get_last_root_node o t) = last_opt (roots F);
  an_children : forall r, In r t -> exists k, kid_list (Some (a_pk r)) F = Some k /\
    row_nodes (get_children o t r) = k /\ get_children_count o t r = length k /\ (is_leaf o t r = true <-> k = []) /\
    option_map row_node (get_first_child o t r) = hd_error k /\ option_map row_node (get_last_child o t r) = last_opt k;
  an_siblings : forall r, In r t ->
    row_nodes (get_siblings o t r) = siblings_of (a_pk r) F /\
    option_map row_node (get_first_sibling o t r) = hd_error (siblings_of (a_pk r) F) /\
    option_map row_node (get_last_sibling o t r) = last_opt (siblings_of (a_pk r) F);
  (* the listed objects carry their right level *)
  an_tree : forall d, exists L, get_tree o t None (option_map Z.of_nat d) = Ok L /\
    map with_level L = map at_level (preorder_d 1 (prune_opt (levels d) F)) /\ (forall x, In x L -> In (o_row x) t);
  an_descendants : forall n d, In (o_row n) t -> good_depth F n -> exists k A L,
    children_of (a_pk (o_row n)) F = Some k /\ ancestors_of (a_pk (o_row n)) F = Some A /\
    get_descendants o t n false (option_map Z.of_nat d) = Ok L /\
    map with_level L = map at_level (preorder_d (S (S (length A))) (prune_opt (levels d) k)) /\
    (forall x, In x L -> In (o_row x) t) /\
    (exists c, get_tree o t (Some n) (option_map Z.of_nat d) = Ok (mkAObj (o_row n) c :: L) /\
               get_descendants o t n true (option_map Z.of_nat d) = Ok (mkAObj (o_row n) c :: L)) /\
    get_descendant_count o t n (option_map Z.of_nat d) = Ok (size (prune_opt (levels d) k));
  an_groups : forall parent, (forall p, parent = Some p -> In p t) -> exists K L,
    kid_list (option_map a_pk parent) F = Some K /\ get_descendants_group_count o t parent = Ok L /\
    map (fun x => (row_node (fst x), snd x)) L =
    map (fun a => (a, match children_of (nid a) F with Some k => size k | None => 0 end)) K }.

Lemma objs_in so t F : wf_ids F -> fits so t F -> forall G up d, (forall q c, children_of q G = Some c -> children_of q F = Some c) ->
  (forall a, In a (roots G) -> In a (kl up F)) -> wf_ids G -> forall lv x, In x (objs so up d (prune_opt lv G)) -> In (o_row x) t.
Proof.
  intros W Fit G up d H1 H2 WG lv.
  assert (All : forall G, (forall q c, children_of q G = Some c -> children_of q F = Some c) -> wf_ids G ->
     forall up d, (forall a, In a (roots G) -> In a (kl up F)) -> forall x, In x (objs so up d G) -> In (o_row x) t).
  { clear - W Fit. induction G as [|a k IHk r IHr]; intros H WG up d H2 x Hx; [destruct Hx|].
    assert (Wl := wf_cons_inv WG). destruct Wl as (W1 & W2 & W3 & W4 & W5).
    cbn [objs In] in Hx. rewrite in_app_iff in Hx. destruct Hx as [<-|[Hx|Hx]].
    - cbn [o_row]. eapply fits_node; eauto. apply H2. cbn; auto.
    - revert Hx. apply IHk; auto.
      + intros q c E. apply H. cbn [children_of]. assert (Hq := children_in _ _ _ E).
        destruct (Nat.eqb_spec (nid a) q) as [Eq|_]; [subst q; tauto|]. rewrite E. auto.
      + intros b Hb. rewrite (kl_some (Some (nid a)) F k); auto. apply H. cbn [children_of]. rewrite Nat.eqb_refl. auto.
    - revert Hx. apply IHr; auto.
      + intros q c E. apply H. cbn [children_of]. assert (Hq := children_in _ _ _ E).
        destruct (Nat.eqb_spec (nid a) q) as [Eq|_]; [subst q; tauto|]. rewrite (children_of_notin q k) by (intros Hk; eauto). auto.
      + intros b Hb. apply H2. cbn; auto. }
  intros x Hx. apply (All G H1 WG up d H2 x). destruct lv as [lv|]; auto. cbn [prune_opt] in Hx.
  clear - Hx. revert lv up d Hx. induction G as [|a k IHk r IHr]; intros lv up d Hx; [destruct lv; destruct Hx|].
  destruct lv as [|lv]; [destruct Hx|]. cbn [prune objs In] in *. rewrite in_app_iff in *.
  destruct Hx as [Hx|[Hx|Hx]]; eauto.
Qed.

Lemma level_objs so F up d : map with_level (objs so up (Z.of_nat d) F) = map at_level (preorder_d d F).
Proof. apply objs_depths. Qed.

Lemma lists_answers o so t F : wf_ids F -> fits so t F -> lists o so t F -> answers o t F.
Proof.
  intros W Fit Ls.
  assert (Kids : forall p L, kid_list p F = Some L -> row_nodes (kids o t p) = L).
  { intros p L E. rewrite (Ls p), (kl_kid_list _ _ _ E). apply map_row_node. }
  assert (Desc : forall n d, In (o_row n) t -> good_depth F n -> exists k A L,
    children_of (a_pk (o_row n)) F = Some k /\ ancestors_of (a_pk (o_row n)) F = Some A /\
    get_descendants o t n false (option_map Z.of_nat d) = Ok L /\
    map with_level L = map at_level (preorder_d (S (S (length A))) (prune_opt (levels d) k)) /\
    (forall x, In x L -> In (o_row x) t) /\
    (exists c, get_tree o t (Some n) (option_map Z.of_nat d) = Ok (mkAObj (o_row n) c :: L) /\
               get_descendants o t n true (option_map Z.of_nat d) = Ok (mkAObj (o_row n) c :: L)) /\
    get_descendant_count o t n (option_map Z.of_nat d) = Ok (size (prune_opt (levels d) k))).
  { intros n d Hn Hg. destruct (read_depth so t F W Fit _ Hn) as (A & EA & Ec).
    assert (Hc : cache_pos n).
    { unfold cache_pos. destruct (o_depth n) as [z|] eqn:Ez; auto. rewrite (Hg _ _ Ez EA). lia. }
    assert (Hl : levels d <> Some 0) by (destruct d as [[|d]|]; discriminate).
    destruct (read_descendants o so t F W Fit Ls n (levels d) Hn Hc Hl) as (k & z & c & Ek & Ed & Et).
    assert (Ez : z = Z.of_nat (S (length A))).
    { destruct (get_depth_ok so t F W Fit n false Hn Hc) as (z' & c' & Ed' & _ & X). rewrite Ed in Ed'. injection Ed' as <- <-.
      unfold get_depth in Ed. destruct (o_depth n) as [y|] eqn:Ey.
      - destruct (a_parent (o_row n)) eqn:Ep; injection Ed as <- _; [apply (Hg _ _ Ey EA)|].
        destruct (fits_pk so t F W Fit _ Hn) as (Hi & P & _). rewrite Ep in P.
        destruct (anc_parent _ F W Hi) as (A0 & E0 & [(_ & ->)|(q & A' & P' & _)]); [|congruence].
        rewrite EA in E0. injection E0 as ->. auto.
      - destruct X as (A' & EA' & X); auto. congruence. }
    subst z. replace (Z.of_nat (S (length A)) + 1)%Z with (Z.of_nat (S (S (length A)))) in Et by lia.
    rewrite <- levels_tree in Et. exists k, A. eexists. split; auto. split; auto.
    split; [unfold get_descendants; rewrite Et; reflexivity|].
    split; [apply level_objs|]. split.
    - intros x Hx. eapply (objs_in so t F W Fit k (Some (a_pk (o_row n)))); eauto.
      + intros q e E. rewrite (children_sub (a_pk (o_row n)) F k q); eauto. eapply children_in; eauto.
      + intros a Ha. rewrite (kl_some (Some (a_pk (o_row n))) F k); auto.
      + apply (wf_kids (Some (a_pk (o_row n))) F); auto.
    - split; [exists c; split; auto; unfold get_descendants; rewrite Et; auto|].
      unfold get_descendant_count, get_descendants. rewrite Et. cbn [bind tl].
      rewrite <- (map_length obj_node), objs_nodes, size_preorder. auto. }
  constructor; auto.
  - assert (R := Kids None (roots F) eq_refl). split; auto. unfold get_first_root_node, get_last_root_node.
    rewrite hd_map, last_map. fold (row_nodes (get_root_nodes o t)). unfold get_root_nodes. rewrite R. auto.
  - intros r Hr. destruct (read_children o so t F W Fit Ls r Hr) as (l & El & _).
    assert (E : kid_list (Some (a_pk r)) F = Some (roots l)) by (unfold kid_list; cbn [kids_of]; rewrite El; auto).
    exists (roots l). split; auto. assert (K := Kids _ _ E). fold (get_children o t r) in K. split; auto.
    unfold get_first_child, get_last_child, get_children_count, is_leaf. rewrite hd_map, last_map.
    fold (row_nodes (get_children o t r)). rewrite K. repeat split; auto.
    + rewrite <- K. unfold row_nodes. rewrite map_length. auto.
    + destruct (get_children o t r); [cbn in K; auto|discriminate].
    + intros Nl. rewrite Nl in K. destruct (get_children o t r); [auto|discriminate].
  - intros r Hr. assert (K : row_nodes (get_siblings o t r) = siblings_of (a_pk r) F).
    { rewrite (read_siblings o so t F W Fit Ls r Hr). apply map_row_node. }
    split; auto. unfold get_first_sibling, get_last_sibling. rewrite hd_map, last_map.
    fold (row_nodes (get_siblings o t r)). rewrite K. auto.
  - intros d. assert (Hl : levels d <> Some 0) by (destruct d as [[|d]|]; discriminate).
    rewrite levels_tree, (read_tree o so t F W Fit Ls _ Hl). eexists. split; [reflexivity|]. split; [apply (level_objs so _ None 1)|].
    intros x Hx. eapply (objs_in so t F W Fit F None); eauto.
  - intros parent Hp. set (q := option_map a_pk parent).
    assert (EK : kid_list q F = Some (kl q F)).
    { unfold kl. destruct (kid_list q F) eqn:E; auto. unfold q in E. destruct parent as [p|]; [|discriminate].
      destruct (fits_pk so t F W Fit p (Hp p eq_refl)) as (Hi & _). destruct (children_some _ _ Hi) as (l & El).
      unfold kid_list in E. cbn [option_map kids_of] in E. rewrite El in E. discriminate. }
    exists (kl q F). assert (Eq : get_descendants_group_count o t parent =
      collect (fun n => do c <- get_descendant_count o t (fresh n) None; Ok [(n, c)]) (map (arow so q) (kl q F))).
    { unfold get_descendants_group_count, q. destruct parent as [p|]; cbn [option_map]; rewrite <- Ls; auto. }
    rewrite Eq. assert (Sub : forall a, In a (kl q F) -> In (arow so q a) t) by (intros a; eapply fits_node; eauto).
    clearbody q. clear Eq. destruct (kid_list q F); [|discriminate]. injection EK as ->.
    induction (kl q F) as [|a K IH]; [exists []; auto|].
    destruct IH as (L & E1 & E2 & E3). { intros b Hb. apply Sub. cbn; auto. }
    destruct (Desc (fresh (arow so q a)) None (Sub a (or_introl eq_refl))) as (k & A & L0 & Ek & _ & _ & _ & _ & _ & Ec).
    { intros d A E. discriminate. }
    cbn [fresh o_row arow a_pk option_map levels prune_opt] in Ek, Ec.
    cbn [map collect]. rewrite Ec, E2. cbn [bind app]. eexists. split; auto. split; [reflexivity|].
    cbn [map fst snd]. rewrite E3, row_node_arow, Ek. auto.
Qed.

(** ** Neighbours, by sib_order *)
Lemma neighbours so t F r : wf_ids F -> fits so t F -> inc so F -> In r t ->
  exists next prev, get_next_sibling [] t r = Ok next /\ option_map row_node next = next_of (a_pk r) (siblings_of (a_pk r) F) /\
    get_prev_sibling [] t r = Ok prev /\ option_map row_node prev = prev_of (a_pk r) (siblings_of (a_pk r) F).
Proof.
  intros W Fit I Hr. assert (Ls := unsorted_lists so t F Fit I).
  destruct (fits_pk so t F W Fit r Hr) as (Hi & Hp & Hk & Hs).
  unfold get_next_sibling, get_prev_sibling. cbn [is_sorted].
  exists (hd_error (filter (fun x => (a_sib r <? a_sib x)%Z) (get_siblings [] t r))),
    (last_opt (filter (fun x => (a_sib x <? a_sib r)%Z) (get_siblings [] t r))).
  rewrite (read_siblings [] so t F W Fit Ls r Hr), (siblings_kl _ _ _ Hp), !filter_map. cbn [arow a_sib].
  assert (S := proj1 (I (a_parent r))). assert (ND := kl_nodup (a_parent r) F W).
  apply in_split in Hk. destruct Hk as (A & B & E). rewrite E in *.
  rewrite (next_of_split (a_pk r) A (row_node r) B ND eq_refl), (prev_of_split (a_pk r) A (row_node r) B ND eq_refl).
  assert (HA : forall a, In a A -> (so (nid a) < a_sib r)%Z).
  { intros a Ha. rewrite Hs. apply (ssorted_app _ _ _ S a (row_node r) Ha). cbn; auto. }
  assert (HB : forall a, In a B -> (a_sib r < so (nid a))%Z).
  { intros a Ha. rewrite Hs. change (row_node r :: B) with ([row_node r] ++ B) in S. rewrite app_assoc in S.
    apply (ssorted_app _ _ _ S (row_node r) a); auto. apply in_or_app. cbn; auto. }
  assert (F1 : filter (fun x => (a_sib r <? so (nid x))%Z) (A ++ row_node r :: B) = B).
  { rewrite filter_app. cbn [filter]. rewrite (filter_none _ A), (filter_all _ B).
    - cbn [row_node nid]. rewrite <- Hs, Z.ltb_irrefl. auto.
    - intros x Hx. apply Z.ltb_lt. auto.
    - intros x Hx. apply Z.ltb_ge. specialize (HA x Hx). lia. }
  assert (F2 : filter (fun x => (so (nid x) <? a_sib r)%Z) (A ++ row_node r :: B) = A).
  { rewrite filter_app. cbn [filter]. rewrite (filter_none _ B), (filter_all _ A).
    - cbn [row_node nid]. rewrite <- Hs, Z.ltb_irrefl. apply app_nil_r.
    - intros x Hx. apply Z.ltb_lt. auto.
    - intros x Hx. apply Z.ltb_ge. specialize (HB x Hx). lia. }
  rewrite F1, F2, hd_map, last_map, !map_row_node. auto.
Qed.
