(** What the form should do to the forest. *)
From Coq Require Import String List Arith Lia Bool ZArith.
From Verif Require Import Prelude Forest SpecFacts SpecSane SpecKids CommonModel Order History SpecRun.
Import ListNotations.

(** ** A node with new data at the same place *)
Definition put_data (i : nat) (d : fields) (a : node) : node := if nid a =? i then mkNode i d else a.
Definition set_data (i : nat) (d : fields) (F : forest node) : forest node := fmap (put_data i d) F.

Lemma put_id i d a : nid (put_data i d a) = nid a.
Proof. unfold put_data. destruct (Nat.eqb_spec (nid a) i); auto. Qed.

Lemma set_data_ids i d F : ids (set_data i d F) = ids F.
Proof. unfold ids, set_data. rewrite preorder_fmap, map_map. apply map_ext. intros. apply put_id. Qed.

Lemma set_data_wf i d F : wf_ids F -> wf_ids (set_data i d F).
Proof. unfold wf_ids. rewrite set_data_ids. auto. Qed.

Lemma children_fmap g (Hg : forall a, nid (g a) = nid a) q F :
  children_of q (fmap g F) = option_map (fmap g) (children_of q F).
Proof.
  induction F as [|a k IHk r IHr]; auto. cbn [fmap children_of]. rewrite Hg. destruct (nid a =? q); auto.
  rewrite IHk. destruct (children_of q k); auto.
Qed.

(** The lists of children are the same, with the new data in the node. *)
Lemma set_data_kids i d F q : kid_list q (set_data i d F) = option_map (map (put_data i d)) (kid_list q F).
Proof.
  unfold kid_list, set_data. destruct q as [q|]; cbn [kids_of].
  - rewrite children_fmap by (intros; apply put_id). destruct (children_of q F); cbn; auto. rewrite roots_fmap. auto.
  - cbn. rewrite roots_fmap. auto.
Qed.

Lemma set_data_same F i d : wf_ids F -> (forall a, In a (preorder F) -> nid a = i -> ndata a = d) -> set_data i d F = F.
Proof.
  intros W H. unfold set_data. assert (E : fmap (put_data i d) F = fmap (fun a => a) F).
  { apply fmap_ext. intros a Ha. unfold put_data. destruct (Nat.eqb_spec (nid a) i) as [E|E]; auto.
    destruct a as [j e]. cbn in *. specialize (H _ Ha E). cbn in H. congruence. }
  rewrite E. clear. induction F as [|a k IHk r IHr]; cbn; congruence.
Qed.

Lemma set_data_descends i d F n t : descends (set_data i d F) n t <-> descends F n t.
Proof.
  unfold descends, set_data. rewrite children_fmap by (intros; apply put_id).
  destruct (children_of n F) as [l|]; cbn; [|tauto].
  split; intros (k & E & H); injection E as <-; eexists; split; eauto;
    fold (set_data i d l) in *; rewrite set_data_ids in *; auto.
Qed.

Lemma set_data_inside i d F n t P : inside (set_data i d F) n t P <-> inside F n t P.
Proof. unfold inside. rewrite set_data_descends. tauto. Qed.

Lemma parent_from_fmap g (Hg : forall a, nid (g a) = nid a) s F : forall up,
  parent_from up s (fmap g F) = parent_from up s F.
Proof.
  induction F as [|a k IHk r IHr]; intros up; auto. cbn [fmap parent_from]. rewrite Hg.
  destruct (nid a =? s); auto. rewrite IHk. destruct (parent_from (Some (nid a)) s k); auto.
Qed.

Lemma set_data_parent i d F s : parent_of s (set_data i d F) = parent_of s F.
Proof. unfold parent_of, set_data. apply parent_from_fmap. intros. apply put_id. Qed.

(** ** Creating: first the last child of the reference node, then moved *)
Lemma drop_notin n L : ~ In n (map nid L) -> drop n L = L.
Proof.
  intros H. unfold drop. induction L as [|a L IH]; auto. cbn in *. destruct (Nat.eqb_spec (nid a) n); cbn; [tauto|].
  rewrite IH; auto.
Qed.

Lemma drop_app n L M : drop n (L ++ M) = drop n L ++ drop n M.
Proof. apply filter_app. Qed.

Lemma kid_list_fresh q F L i : kid_list q F = Some L -> ~ In i (ids F) -> ~ In i (map nid L).
Proof.
  intros E H Hi. apply H. apply in_map_iff in Hi. destruct Hi as (a & <- & Ha).
  apply (kl_in q). rewrite (kl_kid_list _ _ _ E). auto.
Qed.

Lemma drop_added F H up x K1 K2 q : added F H up x K1 K2 -> ~ In (nid x) (ids F) -> q <> Some (nid x) ->
  option_map (drop (nid x)) (kid_list q H) = kid_list q F.
Proof.
  intros A Hx Hq. destruct (opt_dec q up) as [->|Nu].
  - rewrite (ad_after _ _ _ _ _ _ A), (ad_before _ _ _ _ _ _ A). cbn. f_equal.
    assert (N := kid_list_fresh _ _ _ _ (ad_before _ _ _ _ _ _ A) Hx). rewrite map_app, in_app_iff in N.
    rewrite drop_app. unfold drop at 2. cbn. rewrite Nat.eqb_refl. cbn. fold (drop (nid x) K2).
    rewrite !drop_notin by tauto. auto.
  - rewrite (ad_rest _ _ _ _ _ _ A) by auto. destruct (kid_list q F) as [L|] eqn:E; auto. cbn. f_equal.
    apply drop_notin. eapply kid_list_fresh; eauto.
Qed.

Theorem moved_added F H G up0 up x a K1 K2 L1 L2 : wf_ids H -> ~ In (nid x) (ids F) ->
  added F H up0 x K1 K2 -> nid a = nid x -> moved H G up a L1 L2 -> up <> Some (nid x) -> added F G up x L1 L2.
Proof.
  intros W Hx A Ea M Nu.
  assert (Hin : In x (preorder H)).
  { apply (kl_pre up0). rewrite (kl_kid_list _ _ _ (ad_after _ _ _ _ _ _ A)). apply in_elt. }
  assert (a = x) as -> by (apply (node_eq H); auto; apply M).
  constructor.
  - destruct (mv_before _ _ _ _ _ _ M) as (L & E & Ed). assert (X := drop_added _ _ _ _ _ _ up A Hx Nu).
    rewrite E in X. cbn in X. rewrite Ed in X. auto.
  - apply M.
  - rewrite (mv_rest _ _ _ _ _ _ M) by auto. rewrite (ad_leaf _ _ _ _ _ _ A). auto.
  - intros q N1 N2. rewrite (mv_rest _ _ _ _ _ _ M) by auto. apply (drop_added _ _ _ _ _ _ q A Hx N2).
Qed.

Lemma added_parent F H up x K1 K2 t : wf_ids F -> wf_ids H -> added F H up x K1 K2 -> ~ In (nid x) (ids F) ->
  In t (ids F) -> parent_of t H = parent_of t F.
Proof.
  intros W W' A Hx Ht. destruct (kl_ex F t W Ht) as (q & a & Ha & <- & E). rewrite E.
  apply kl_parent; auto. destruct (opt_dec q up) as [->|N].
  - rewrite (kl_kid_list _ _ _ (ad_after _ _ _ _ _ _ A)). rewrite (kl_kid_list _ _ _ (ad_before _ _ _ _ _ _ A)) in Ha.
    apply in_app_iff in Ha. apply in_app_iff. cbn. tauto.
  - unfold kl. rewrite (ad_rest _ _ _ _ _ _ A); auto. intros ->. apply Hx. apply (kl_up _ _ _ Ha).
Qed.

Lemma leaf_inside H x t P : kid_list (Some (nid x)) H = Some [] -> t <> nid x -> ~ inside H (nid x) t P.
Proof.
  unfold kid_list. cbn [kids_of]. destruct (children_of (nid x) H) as [l|] eqn:E; [|discriminate].
  cbn. intros El Nt [(k & Ek & Hk)|[E1 _]]; [|congruence]. rewrite E in Ek. injection Ek as <-.
  destruct l; [destruct Hk|discriminate].
Qed.

(** The new node is at the chosen place, and nothing else has changed. *)
Theorem create_sane F H x t P gt K1 K2 : wf_ids F -> wf_ids H -> In t (ids F) -> ~ In (nid x) (ids F) ->
  added F H (Some t) x K1 K2 ->
  ~ inside H (nid x) t P /\
  exists up L1 L2, (if is_child_pos P then up = Some t else parent_of t F = Some up) /\
    added F (sp_move (nid x) t P gt H) up x L1 L2 /\ ins_split (sib_place P t gt) L1 L2.
Proof.
  intros W W' Ht Hx A. assert (Nt : t <> nid x) by (intros ->; auto).
  assert (NI : ~ inside H (nid x) t P) by (apply leaf_inside; auto; apply A). split; auto.
  assert (Hin : In (nid x) (ids H)).
  { apply (kl_in (Some t)). rewrite (kl_kid_list _ _ _ (ad_after _ _ _ _ _ _ A)). apply in_elt. }
  assert (Pt := added_parent _ _ _ _ _ _ t W W' A Hx Ht).
  assert (Ht' : In t (ids H)).
  { destruct (kl_ex F t W Ht) as (q & a & Ha & <- & E). apply (kl_in q).
    destruct (opt_dec q (Some (nid a))) as [->|N].
    - rewrite (kl_kid_list _ _ _ (ad_after _ _ _ _ _ _ A)). rewrite (kl_kid_list _ _ _ (ad_before _ _ _ _ _ _ A)) in Ha.
      apply in_app_iff in Ha. apply in_app_iff. cbn. tauto.
    - unfold kl. rewrite (ad_rest _ _ _ _ _ _ A); auto. intros ->. apply Hx. apply (kl_up _ _ _ Ha). }
  destruct (move_sane (nid x) t P gt H W' Hin Ht' NI) as [(E & _)|(up & a & L1 & L2 & Hup & Ea & M & Sp)]; [congruence|].
  rewrite Pt in Hup. exists up, L1, L2. split; auto. split; auto.
  apply (moved_added F H _ (Some t) up x a K1 K2); auto.
  destruct (is_child_pos P); [congruence|]. intros ->.
  destruct (kl_ex F t W Ht) as (q & b & Hb & Eb & E). rewrite E in Hup. injection Hup as ->.
  apply Hx. apply (kl_up _ _ _ Hb).
Qed.

(** ** The initial values describe the present place of the node *)

(** The reference node and the position that the form shows first: the previous sibling,
    else the parent; None stands for the root level. *)
Definition sp_initial (n : nat) (F : forest node) : option nat * pos :=
  match prev_of n (siblings_of n F) with
  | Some p => (Some (nid p), Right)
  | None => (match parent_of n F with Some q => q | None => None end, FirstChild)
  end.

Lemma other_drop F q up a : wf_ids F -> In a (kl up F) -> q <> up ->
  option_map (drop (nid a)) (kid_list q F) = kid_list q F.
Proof.
  intros W Ha N. destruct (kid_list q F) as [L|] eqn:E; auto. cbn. f_equal. apply drop_notin. intros Hi.
  apply in_map_iff in Hi. destruct Hi as (b & Eb & Hb). apply N.
  apply (kl_unique q up F b a W); auto. rewrite (kl_kid_list _ _ _ E). auto.
Qed.

Lemma moved_back F G up a A B L1 L2 : wf_ids F -> wf_ids G -> kid_list up F = Some (A ++ a :: B) ->
  moved F G up a L1 L2 -> L1 = A -> G = F.
Proof.
  intros W W' E M ->. apply kid_list_ext; auto. intros q.
  assert (Ha : In a (kl up F)) by (rewrite (kl_kid_list _ _ _ E); apply in_elt).
  destruct (opt_dec q up) as [->|N].
  - rewrite (mv_after _ _ _ _ _ _ M), E. f_equal. f_equal. f_equal.
    destruct (mv_before _ _ _ _ _ _ M) as (L & El & Ed). rewrite E in El. injection El as <-.
    assert (ND := kl_nodup up F W). rewrite (kl_kid_list _ _ _ E) in ND. rewrite map_app in ND. cbn in ND.
    apply NoDup_remove in ND. destruct ND as [_ ND]. rewrite in_app_iff in ND.
    rewrite drop_app in Ed. unfold drop at 2 in Ed. cbn in Ed. rewrite Nat.eqb_refl in Ed. cbn in Ed.
    fold (drop (nid a) B) in Ed. rewrite !drop_notin in Ed by tauto. apply app_inv_head in Ed. auto.
  - rewrite (mv_rest _ _ _ _ _ _ M) by auto. eapply other_drop; eauto.
Qed.

Lemma prev_cases n F q : wf_ids F -> In n (ids F) -> parent_of n F = Some q ->
  exists A a B, nid a = n /\ kid_list q F = Some (A ++ a :: B) /\ prev_of n (siblings_of n F) = last_opt A.
Proof.
  intros W Hn Eq. destruct (kl_ex F n W Hn) as (q' & a & Ha & Ea & E). rewrite Eq in E. injection E as <-.
  destruct (kl_inv _ _ _ Ha) as (l & El & Hl & Ekl).
  destruct (in_split _ _ Hl) as (A & B & Es). exists A, a, B. split; auto.
  assert (Ek : kid_list q F = Some (A ++ a :: B)) by (unfold kid_list; rewrite El; cbn; congruence). split; auto.
  rewrite (siblings_kl n F q) by auto. rewrite (kl_kid_list _ _ _ Ek). apply prev_of_split; auto.
  assert (ND := kl_nodup q F W). rewrite (kl_kid_list _ _ _ Ek) in ND. auto.
Qed.

Lemma last_opt_snoc {A} (L : list A) x : last_opt L = Some x -> exists M, L = M ++ [x].
Proof.
  destruct L as [|y L] using rev_ind; [discriminate|]. rewrite last_opt_app. intros E. injection E as ->. eauto.
Qed.

Lemma last_opt_nil {A} (L : list A) : last_opt L = None -> L = [].
Proof. destruct L as [|y L] using rev_ind; auto. rewrite last_opt_app. discriminate. Qed.

Lemma not_below_self F n c : wf_ids F -> children_of n F = Some c -> ~ In n (ids c).
Proof.
  intros W Ec H. assert (X := children_sub n F c n W Ec H). rewrite Ec in X. symmetry in X.
  assert (S1 : forall G k, children_of n G = Some k -> size k < size G).
  { clear. induction G as [|b u IHu v IHv]; intros k E; [discriminate|]. cbn [children_of size] in *.
    destruct (nid b =? n); [injection E as ->; lia|].
    destruct (children_of n u); [injection E as ->; specialize (IHu _ eq_refl); lia|specialize (IHv _ E); lia]. }
  apply S1 in X. lia.
Qed.

Lemma below_parent F n c p : wf_ids F -> children_of n F = Some c -> In p (ids c) ->
  exists m, parent_of p F = Some (Some m) /\ (m = n \/ In m (ids c)).
Proof.
  intros W E Hp. assert (Wc : wf_ids c) by (apply (wf_kids (Some n) F c W E)).
  destruct (kl_ex c p Wc Hp) as (q & b & Hb & <- & _). destruct q as [m|].
  - assert (Hm : In m (ids c)) by (apply (kl_up _ _ _ Hb)). exists m. split; auto. apply kl_parent; auto.
    unfold kl, kid_list in *. cbn [kids_of] in *. rewrite (children_sub n F c m W E Hm). auto.
  - exists n. split; auto. apply kl_parent; auto. unfold kl, kid_list in *. cbn [kids_of] in *. rewrite E. auto.
Qed.

Lemma parent_not_below F n q c : wf_ids F -> parent_of n F = Some (Some q) -> In n (ids F) -> children_of n F = Some c ->
  q <> n /\ ~ In q (ids c).
Proof.
  intros W Eq Hn Ec. destruct (kl_ex F n W Hn) as (q' & a & Ha & Ea & E). rewrite Eq in E. injection E as <-.
  destruct (kl_inv _ _ _ Ha) as (l & El & Hl & _). cbn [kids_of] in El.
  assert (Hin : In n (ids l)) by (rewrite <- Ea; apply roots_ids, in_map; auto).
  split.
  - intros ->. apply (not_below_self F n l W El Hin).
  - intros H. rewrite (children_sub n F c q W Ec H) in El. apply (not_below_self F n c W Ec).
    apply (kids_in (Some q) c l n); auto.
Qed.

Lemma sibling_not_below F n p q l : wf_ids F -> In n (ids F) -> parent_of n F = Some q -> parent_of p F = Some q ->
  children_of n F = Some l -> ~ In p (ids l).
Proof.
  intros W Hn En Ep El Hp. destruct (below_parent F n l p W El Hp) as (m & Em & Hm). rewrite Ep in Em. injection Em as ->.
  destruct (parent_not_below F n m l W En Hn El) as [H1 H2]. tauto.
Qed.

Lemma parent_not_inside F n t P : wf_ids F -> In n (ids F) -> parent_of n F = Some (Some t) -> ~ inside F n t P.
Proof.
  intros W Hn E. destruct (children_some n F Hn) as (c & Ec). destruct (parent_not_below F n t c W E Hn Ec) as [H1 H2].
  intros [(l & El & Hl)|[-> _]]; [|tauto]. rewrite Ec in El. injection El as <-. tauto.
Qed.

Lemma wf_moved F n t P gt p : wf_ids F -> In n (ids F) -> In t (ids F) -> ~ inside F n t P ->
  (P, p) = (Right, "right"%string) \/ (P, p) = (FirstChild, "first-child"%string) -> wf_ids (sp_move n t P gt F).
Proof.
  intros W Hn Ht NI HP. apply has_spec in Hn, Ht. apply insideb_false in NI.
  assert (E : sp_exec [] F (CMove n t (Some p)) = Ok (sp_move n t P gt F)).
  { cbn [sp_exec]. rewrite Hn, Ht. destruct HP as [HP|HP]; injection HP as -> ->; cbn -[insideb sp_move]; rewrite NI; reflexivity. }
  apply (sp_exec_ids [] F (CMove n t (Some p)) _ W); auto. intros i [].
Qed.

(** Moving a node to the place that the form shows is no change. *)
Theorem initial_place n F gt : wf_ids F -> In n (ids F) ->
  match sp_initial n F with
  | (Some t, P) => In t (ids F) /\ ~ inside F n t P /\ sp_move n t P gt F = F
  | (None, _) => exists a L, kid_list None F = Some (a :: L) /\ nid a = n
  end.
Proof.
  intros W Hn. destruct (kl_ex F n W Hn) as (q & a0 & Ha0 & Ea0 & Eq).
  destruct (prev_cases n F q W Hn Eq) as (A & a & B & Ea & Ek & Ep).
  assert (ND := kl_nodup q F W). rewrite (kl_kid_list _ _ _ Ek) in ND. rewrite map_app in ND. cbn in ND.
  unfold sp_initial in *. rewrite Ep, Eq in *. destruct (last_opt A) as [p|] eqn:El.
  - destruct (last_opt_snoc _ _ El) as (M & ->).
    assert (Hp : In p (kl q F)) by (rewrite (kl_kid_list _ _ _ Ek), !in_app_iff; cbn; auto).
    assert (Ht : In (nid p) (ids F)) by (apply (kl_in q); auto).
    assert (Np : n <> nid p).
    { intros E. apply NoDup_remove in ND. destruct ND as [_ ND]. apply ND. rewrite in_app_iff, map_app, in_app_iff. left. right.
      cbn. left. congruence. }
    assert (Par := kl_parent _ _ _ W Hp).
    assert (NI : ~ inside F n (nid p) Right).
    { intros [D|[E _]]; [|congruence]. destruct D as (l & El' & Hl).
      (* the previous sibling is not below the node *)
      assert (X := sibling_not_below F n (nid p) q l W Hn Eq Par El' Hl). auto. }
    split; auto. split; auto. assert (Wm := wf_moved F n (nid p) Right gt _ W Hn Ht NI (or_introl eq_refl)).
    destruct (move_sane n (nid p) Right gt F W Hn Ht NI) as [(E & _)|(up & b & L1 & L2 & Hup & Eb & Mv & Sp)]; [congruence|].
    cbn [is_child_pos] in Hup. rewrite Par in Hup. injection Hup as <-.
    assert (b = a) as ->. { apply (node_eq F); [auto|apply Mv|apply (kl_pre q); rewrite (kl_kid_list _ _ _ Ek); apply in_elt|congruence]. }
    eapply moved_back; eauto. cbn in Sp. destruct Sp as (L & c & -> & Ec & Hc).
    destruct (mv_before _ _ _ _ _ _ Mv) as (L0 & E0 & Ed). rewrite Ek in E0. injection E0 as <-.
    assert (ND' := ND). apply NoDup_remove in ND'. destruct ND' as [ND1 ND2]. rewrite in_app_iff in ND2.
    rewrite Ea in ND2.
    rewrite drop_app in Ed. unfold drop at 2 in Ed. cbn in Ed. rewrite Ea, Nat.eqb_refl in Ed. cbn in Ed.
    fold (drop n B) in Ed. rewrite !drop_notin in Ed by tauto. rewrite <- !app_assoc in Ed. cbn in Ed.
    rewrite map_app in ND1. cbn in ND1.
    assert (Hs : forall M M' L L' (u v : node), M ++ u :: M' = L ++ v :: L' -> nid u = nid v ->
      ~ In (nid u) (map nid M) -> (forall x, In x L -> nid x <> nid u) -> M = L /\ u = v).
    { clear. induction M as [|m M IH]; intros M' L L' u v E Euv Hm HL; destruct L as [|y L]; cbn in *.
      - injection E as -> _. auto.
      - injection E as -> _. exfalso. apply (HL y); auto.
      - injection E as -> _. exfalso. apply Hm. auto.
      - injection E as -> E. destruct (IH M' L L' u v E Euv); auto. subst. auto. }
    assert (X : M = L /\ p = c).
    { eapply (Hs M B L L2 p c); eauto.
      rewrite <- app_assoc in ND1. cbn in ND1. apply NoDup_remove in ND1. destruct ND1 as [_ ND1].
      rewrite in_app_iff in ND1. auto. }
    destruct X as [-> ->]. auto.
  - apply last_opt_nil in El. subst A. cbn in Ek. destruct q as [t|]; [|eauto].
    assert (Ht : In t (ids F)) by (apply (kl_up _ _ _ Ha0)).
    assert (NI : ~ inside F n t FirstChild).
    { apply parent_not_inside; auto. }
    split; auto. split; auto. assert (Wm := wf_moved F n t FirstChild gt _ W Hn Ht NI (or_intror eq_refl)).
    destruct (move_sane n t FirstChild gt F W Hn Ht NI) as [(_ & [E|E] & _)|(up & b & L1 & L2 & Hup & Eb & Mv & Sp)]; try discriminate.
    cbn [is_child_pos] in Hup. subst up.
    assert (b = a) as ->. { apply (node_eq F); [auto|apply Mv|apply (kl_pre (Some t)); rewrite (kl_kid_list _ _ _ Ek); cbn; auto|congruence]. }
    eapply (moved_back F _ _ a [] B); eauto.
Qed.

(** ** What the form has to do *)

(** The place meant by a reference node and a position; "-- root --" means a root. *)
Definition chosen (F : forest node) (ref : option nat) (P : pos) (gt : node -> bool) (up : option nat) (L1 L2 : list node) : Prop :=
  match ref with
  | Some t => (if is_child_pos P then up = Some t else parent_of t F = Some up) /\ ins_split (sib_place P t gt) L1 L2
  | None => up = None
  end.

(** A new node, alone, at the chosen place; a new root is the last one, or at its place in
    a sorted tree. *)
Definition created (o : ordering) (F G : forest node) (x : node) (ref : option nat) (P : pos) : Prop :=
  exists up L1 L2, added F G up x L1 L2 /\ chosen F ref P (gt_of o (ndata x)) up L1 L2 /\
    (ref = None -> if sorts o then ins_split (PSorted (gt_of o (ndata x))) L1 L2 else L2 = []).

(** A node that was there, with what is below it, at the chosen place; as a root it becomes
    the first one. *)
Definition relocated (F G : forest node) (n : nat) (ref : option nat) (P : pos) (gt : node -> bool) : Prop :=
  exists up a L1 L2, nid a = n /\ moved F G up a L1 L2 /\ chosen F ref P gt up L1 L2 /\ (ref = None -> L1 = []).

Lemma created_at o F H x t P K1 K2 gt : wf_ids F -> wf_ids H -> In t (ids F) -> ~ In (nid x) (ids F) ->
  added F H (Some t) x K1 K2 -> (forall n, gt n = gt_of o (ndata x) n) ->
  ~ inside H (nid x) t P /\ created o F (sp_move (nid x) t P gt H) x (Some t) P.
Proof.
  intros W W' Ht Hx A Eg. destruct (create_sane F H x t P gt K1 K2 W W' Ht Hx A) as (NI & up & L1 & L2 & Hup & Ad & Sp).
  split; auto. exists up, L1, L2. split; auto. split; [|discriminate]. cbn. split; auto.
  destruct P; cbn [sib_place ins_split] in *; auto; destruct Sp as [S1 S2]; split; intros; rewrite <- Eg; eauto.
Qed.

Lemma relocated_at F n t P gt : wf_ids F -> In n (ids F) -> In t (ids F) -> n <> t -> ~ descends F n t ->
  ~ inside F n t P /\ relocated F (sp_move n t P gt F) n (Some t) P gt.
Proof.
  intros W Hn Ht N D. assert (NI : ~ inside F n t P) by (intros [H|[H _]]; auto). split; auto.
  destruct (move_sane n t P gt F W Hn Ht NI) as [(E & _)|(up & a & L1 & L2 & Hup & Ea & M & Sp)]; [congruence|].
  exists up, a, L1, L2. split; auto. split; auto. split; [|discriminate]. cbn. auto.
Qed.

Lemma not_first_sibling F n t : wf_ids F -> In n (ids F) -> parent_of t F = Some None -> ~ inside F n t FirstSibling.
Proof.
  intros W Hn Et [(l & El & Hl)|[_ H]]; [|discriminate].
  destruct (below_parent F n l t W El Hl) as (m & Em & _). congruence.
Qed.

Lemma relocated_root F n r L gt P gt' : wf_ids F -> In n (ids F) -> kid_list None F = Some (r :: L) ->
  In (nid r) (ids F) /\ ~ inside F n (nid r) FirstSibling /\
  relocated F (sp_move n (nid r) FirstSibling gt F) n None P gt'.
Proof.
  intros W Hn Ek. assert (Hr : In r (kl None F)) by (rewrite (kl_kid_list _ _ _ Ek); left; auto).
  assert (Er := kl_parent _ _ _ W Hr). assert (Ht : In (nid r) (ids F)) by (apply (kl_in None); auto).
  assert (NI := not_first_sibling F n (nid r) W Hn Er). split; auto. split; auto.
  destruct (move_sane n (nid r) FirstSibling gt F W Hn Ht NI) as [(_ & [E|E] & _)|(up & a & L1 & L2 & Hup & Ea & M & Sp)]; try discriminate.
  cbn [is_child_pos] in Hup. rewrite Er in Hup. injection Hup as <-. exists None, a, L1, L2. cbn in *. auto.
Qed.
