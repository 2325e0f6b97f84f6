(** Theorems about the tree views of the admin for inherited models (C49). *)
From Coq Require Import String List Arith Lia Bool ZArith Sorted Permutation.
From Verif Require Import Prelude Forest NumConv SpecFacts SpecSane SpecKids CommonModel Order History SpecRun Fixture
  AdminModel InheritModel PropsAdmin.
From Verif Require MPModel MPStep MPInv MPAdd MPMoveOk MPReads MPHist MPRoom PropsMP.
From Verif Require NSModel NSInv NSAdd NSMoveOk NSReads NSHist PropsNS.
From Verif Require ALModel ALInv ALReads ALAnswers ALOk ALHist PropsAL.
From Verif Require LTModel LTInv LTReads LTAdd LTMove LTHist PropsLT LTRefuted SpecPerm.
Import ListNotations.
Local Open Scope string_scope.
Local Open Scope list_scope.
Local Open Scope nat_scope.

(** ** What the lists should show *)
Section Spec.
Variable cls : nat -> bool.

(** The nodes that can be listed: those below a parent of the class, or the roots. *)
Definition shown (parent : option nat) (F : forest node) : option (list node) :=
  match parent with Some k => if cls k then kid_list parent F else None | None => kid_list None F end.

(** The nodes of the class among them; [flag] tells which have an expander. *)
Definition listed_in (flag : nat -> bool) (F : forest node) (parent : option nat) (L : list node) : list entry :=
  map (fun a => mkEntry (nid a) match parent with Some q => q | None => 0 end
         match parent with Some q => Z.of_nat (level_of q F) + 1 | None => 1 end%Z (flag (nid a)))
    (filter (fun a => cls (nid a)) L).

(** Some child is of the class; some descendant is. *)
Definition kids_in (F : forest node) (n : nat) : bool := existsb (fun a => cls (nid a)) (kl (Some n) F).
Definition below_in (F : forest node) (n : nat) : bool :=
  match children_of n F with Some k => existsb cls (ids k) | None => false end.

(** The entries are the children of the parent (the roots) that are of the class, in order, with
    the level in the whole tree.  With the flag [kids_in] an entry has an expander exactly if the
    list below it is not empty. *)
Theorem C49_listed F parent L flag : wf_ids F -> shown parent F = Some L ->
  map e_node (listed_in flag F parent L) = filter cls (map nid L) /\
  (forall n, In n (map e_node (listed_in flag F parent L)) <-> In n (ids F) /\ cls n = true /\ parent_of n F = Some parent) /\
  (forall e, In e (listed_in flag F parent L) ->
    (exists A, ancestors_of (e_node e) F = Some A /\ e_level e = Z.of_nat (S (length A))) /\
    e_parent e = match parent with Some q => q | None => 0 end /\ e_kids e = flag (e_node e)) /\
  (forall n, cls n = true -> In n (ids F) -> exists L', shown (Some n) F = Some L' /\
    (kids_in F n = true <-> listed_in flag F (Some n) L' <> [])).
Proof.
  intros W E. assert (E' : kid_list parent F = Some L) by (unfold shown in E; destruct parent as [k|]; auto; destruct (cls k); congruence).
  assert (En : map e_node (listed_in flag F parent L) = filter cls (map nid L)).
  { unfold listed_in. rewrite map_map. cbn [e_node]. clear. induction L as [|a L IH]; auto. cbn. destruct (cls (nid a)); cbn; rewrite IH; auto. }
  destruct (C45_listed F parent L W E') as (_ & Hn & He). split; auto. split; [|split].
  - intros n. rewrite En, filter_In. unfold listed in Hn. specialize (Hn n). rewrite map_map in Hn. cbn [e_node] in Hn. tauto.
  - intros e Hi. unfold listed_in in Hi. apply in_map_iff in Hi. destruct Hi as (a & <- & Ha). apply filter_In in Ha. cbn [e_node e_parent e_kids].
    split; auto. cbn [e_level].
    destruct (He (mkEntry (nid a) match parent with Some q => q | None => 0 end
      match parent with Some q => Z.of_nat (level_of q F) + 1 | None => 1 end%Z (has_kids (nid a) F))) as (H & _); auto.
    unfold listed. apply in_map_iff. exists a. tauto.
  - intros n Cn Hi. unfold shown. rewrite Cn. unfold kids_in, kl, kid_list. cbn [kids_of].
    destruct (children_some n F Hi) as (k & ->). cbn [option_map]. exists (roots k). split; auto. unfold listed_in.
    induction (roots k) as [|a l IH]; cbn [existsb filter map]; [split; [discriminate|congruence]|].
    destruct (cls (nid a)); cbn [orb map]; [split; [discriminate|auto]|auto].
Qed.

(** The three flags. *)
Theorem C49_flags F n : wf_ids F -> (kids_in F n = true -> below_in F n = true) /\ (below_in F n = true -> has_kids n F = true) /\
  (below_in F n = true <-> exists c, descends F n c /\ cls c = true).
Proof.
  intros W. unfold kids_in, below_in, has_kids, kl, kid_list, descends. cbn [kids_of].
  destruct (children_of n F) as [k|]; cbn [option_map]; [|split; [discriminate|split; [discriminate|split; [discriminate|intros (c & (l & D & _) & _); discriminate]]]].
  split; [|split].
  - intros H. apply existsb_exists in H. destruct H as (a & Ha & H). apply existsb_exists. exists (nid a). split; auto.
    clear -Ha. induction k as [|x k1 IH1 k2 IH2]; [destruct Ha|]. rewrite ids_cons. cbn [roots In] in *. rewrite in_app_iff. destruct Ha as [<-|Ha]; auto.
  - intros H. destruct k; [discriminate|auto].
  - rewrite existsb_exists. split.
    + intros (c & Hc & H). exists c. split; eauto.
    + intros (c & (l & E & Hc) & H). injection E as <-. eauto.
Qed.

Lemma listed_in_read {R} (pk : R -> nat) (nodes : R -> node) (kids : R -> bool) flag (t rows : list R) F L parent q lv :
  (forall r, nid (nodes r) = pk r) -> map nodes rows = L -> (forall r, In r rows -> In r t) ->
  (forall r, In r t -> kids r = flag (pk r)) ->
  q = match parent with Some q => q | None => 0 end ->
  lv = match parent with Some q => Z.of_nat (level_of q F) + 1 | None => 1 end%Z ->
  map (fun r => mkEntry (pk r) q lv (kids r)) (specific cls pk rows) = listed_in flag F parent L.
Proof.
  intros Hn <- Hin Hk -> ->. unfold listed_in, specific. induction rows as [|r rows IH]; auto. cbn [filter map].
  rewrite Hn. destruct (cls (pk r)); cbn [map]; rewrite IH by (intros; apply Hin; cbn; auto); auto.
  rewrite Hn, Hk by (apply Hin; cbn; auto). auto.
Qed.
End Spec.

(** ** Materialized paths: the flag is that of the whole tree *)
Section MP.
Import MPModel MPStep MPInv MPAdd MPMoveOk MPReads MPHist MPRoom PropsMP.
Variable cfg : mp_cfg.
Hypothesis radix2 : 2 <= radix cfg.
Hypothesis step1 : 1 <= steplen cfg.
Variable cls : nat -> bool.
Notation stores := (stores cfg).

(** Missing for the claim: the flag, see C49_mp_refuted. *)
Theorem C49_mp_list_partial t F parent : stores t F ->
  mp_context_in cfg cls t parent =
  match shown cls parent F with Some L => Ok (listed_in cls (fun n => has_kids n F) F parent L) | None => Err DoesNotExist end.
Proof.
  intros S. unfold mp_context_in, mp_list_in, shown, of_class.
  assert (HK : forall r, In r t -> mp_has_children r = has_kids (m_pk r) F).
  { intros r Hr. destruct (C07_children cfg radix2 step1 t F r S Hr) as (k & Ek & _ & _ & Lf & _).
    rewrite (has_kids_spec _ _ _ Ek). unfold mp_has_children. unfold is_leaf in Lf. rewrite Nat.eqb_eq in Lf.
    destruct k; destruct (Nat.ltb_spec 0 (m_nc r)); auto.
    - assert (m_nc r = 0) by (apply Lf; auto). lia.
    - assert (E : m_nc r = 0) by lia. apply Lf in E. discriminate. }
  destruct parent as [k|].
  - destruct (cls k); auto.
    destruct (get_pk_cases cfg t F k S) as [[E H]|(p & E & Hp & Ep & _)]; rewrite E; cbn [bind].
    { rewrite kid_none; auto. }
    destruct (C07_children cfg radix2 step1 t F p S Hp) as (L & El & Ec & _).
    destruct (C07_ancestors cfg radix2 step1 t F p S Hp) as (A & EA & _ & Ed & _). rewrite Ep in *. rewrite El. f_equal.
    apply (listed_in_read cls m_pk node_of mp_has_children _ t); auto.
    + intros r Hr. unfold get_children in Hr. destruct (is_leaf p); [destruct Hr|]. apply sort_in in Hr. tauto.
    + unfold level_of. rewrite EA, Ed. lia.
  - destruct (C07_roots cfg radix2 step1 t F S) as (Er & _). cbn [bind]. change (kid_list None F) with (Some (roots F)). cbv iota. f_equal.
    apply (listed_in_read cls m_pk node_of mp_has_children _ t); auto.
    intros r Hr. apply sort_in in Hr. tauto.
Qed.
End MP.

(** ** Nested sets: the same *)
Section NS.
Import NSModel NSInv NSAdd NSMoveOk NSReads NSHist PropsNS.
Variable cls : nat -> bool.

(** Missing for the claim: the flag, see C49_ns_refuted. *)
Theorem C49_ns_list_partial t F parent : stores t F ->
  ns_context_in cls t parent =
  match shown cls parent F with Some L => Ok (listed_in cls (fun n => has_kids n F) F parent L) | None => Err DoesNotExist end.
Proof.
  intros S. unfold ns_context_in, ns_list_in, shown, of_class.
  assert (HK : forall r, In r t -> ns_has_children r = has_kids (n_pk r) F).
  { intros r Hr. destruct (C20_children t F r S Hr) as (k & Ek & _ & _ & Lf & _).
    rewrite (has_kids_spec _ _ _ Ek). unfold ns_has_children. unfold is_leaf in Lf. rewrite Z.eqb_eq in Lf.
    destruct S as (W & ts & I & P). apply (in_t _ F ts P) in Hr. apply layout_bounds in Hr.
    destruct k; destruct (Z.ltb_spec 1 (n_rgt r - n_lft r)); auto.
    - assert (n_rgt r - n_lft r = 1)%Z by (apply Lf; auto). lia.
    - assert (E : (n_rgt r - n_lft r = 1)%Z) by lia. apply Lf in E. discriminate. }
  destruct parent as [k|].
  - destruct (cls k); auto.
    destruct (get_pk_cases t F k S) as [[E H]|(p & E & Hp & Ep & _)]; rewrite E; cbn [bind].
    { rewrite kid_none; auto. intros C. apply has_spec in C. congruence. }
    destruct (C20_children t F p S Hp) as (L & El & Ec & _ & _ & _ & _ & Hin).
    destruct (C20_ancestors t F p S Hp) as (A & EA & _ & Ed & _). rewrite Ep in *. rewrite El. f_equal.
    apply (listed_in_read cls n_pk row_node ns_has_children _ t); auto.
    unfold level_of. rewrite EA, Ed. lia.
  - destruct (C20_roots t F S) as (Er & Hin & _). cbn [bind]. change (kid_list None F) with (Some (roots F)). cbv iota. f_equal.
    apply (listed_in_read cls n_pk row_node ns_has_children _ t); auto.
Qed.
End NS.

(** ** Adjacency lists *)
Section AL.
Import ALModel ALInv ALReads ALAnswers ALOk ALHist PropsAL.
Variable o : ordering.
Variable cls : nat -> bool.

Lemma al_list_in_answers t F parent : stores o t F -> answers o t F ->
  al_context_in o cls t parent =
  match shown cls parent F with Some L => Ok (listed_in cls (kids_in cls F) F parent L) | None => Err DoesNotExist end.
Proof.
  intros S An. unfold al_context_in, al_list_in, shown, of_class.
  assert (HK : forall r, In r t -> al_has_children_in cls t r = kids_in cls F (a_pk r)).
  { intros r Hr. destruct (an_children _ _ _ An r Hr) as (k & Ek & Er & _).
    unfold al_has_children_in, kids_in, kl. rewrite Ek. apply eq_true_iff_eq. rewrite !existsb_exists. rewrite <- Er. unfold row_nodes, specific. split.
    - intros (x & Hx & Ex). apply filter_In in Hx. exists (row_node x). split; [|apply Hx]. apply in_map.
      unfold get_children, kids, order_rows. apply (Permutation_in _ (Permutation_sym (isort_perm _ _))). apply filter_In. tauto.
    - intros (a & Ha & Ca). apply in_map_iff in Ha. destruct Ha as (x & <- & Hx).
      apply (sort_in (fun a b => negb (row_before o b a)) (fun x => par_eqb (a_parent x) (Some (a_pk r))) t x) in Hx.
      exists x. rewrite filter_In. tauto. }
  destruct parent as [k|].
  - destruct (cls k); auto. assert (S' := S). destruct S' as (W & _ & so & Fit & _).
    destruct (in_dec Nat.eq_dec k (ids F)) as [Hk|Hk].
    2:{ rewrite (get_none so t F W Fit k Hk). cbn [bind]. rewrite kid_none; auto. }
    destruct (fits_ex so t F W Fit k Hk) as (p & Hp & Ep). subst k. rewrite (get_in so t F W Fit p Hp). cbn [bind].
    destruct (an_children _ _ _ An p Hp) as (L & El & Ec & _).
    destruct (C27_ancestors o t F p S Hp) as (_ & A & _ & EA & _ & _ & _ & _ & (c & Ed)). rewrite Ed. cbn [bind]. rewrite El. f_equal.
    apply (listed_in_read cls a_pk row_node (al_has_children_in cls t) _ t); auto.
    + intros r Hr. apply sort_in in Hr. tauto.
    + unfold level_of. rewrite EA. lia.
  - destruct (an_roots _ _ _ An) as (Er & _). cbn [bind]. change (kid_list None F) with (Some (roots F)). cbv iota. f_equal.
    apply (listed_in_read cls a_pk row_node (al_has_children_in cls t) _ t); auto.
    intros r Hr. apply sort_in in Hr. tauto.
Qed.

Theorem C49_al_list t F parent : stores o t F -> o = [] \/ strict o F ->
  al_context_in o cls t parent =
  match shown cls parent F with Some L => Ok (listed_in cls (kids_in cls F) F parent L) | None => Err DoesNotExist end.
Proof. intros S H. apply al_list_in_answers; auto. apply C27_reads; auto. Qed.

(** Siblings with equal values may be listed in another order, the same in all lists. *)
Theorem C49_al_list_ties t F : stores o t F -> exists F', stores o t F' /\ SpecPerm.same_kids F F' /\
  forall parent, al_context_in o cls t parent =
    match shown cls parent F' with Some L => Ok (listed_in cls (kids_in cls F') F' parent L) | None => Err DoesNotExist end.
Proof.
  intros S. destruct (C27_ties o t F S) as (F' & S' & An & P). exists F'. split; auto. split; [exact P|].
  intros parent. apply al_list_in_answers; auto.
Qed.
End AL.

(** ** Ltree: the flag looks at all descendants of the class *)
Section LT.
Import LTModel LTInv LTReads LTAdd LTMove LTHist PropsLT.
Variable cfg : lt_cfg.
Variable cls : nat -> bool.
Notation stores := (stores cfg).

(** Missing for the claim: the flag, see C49_lt_refuted. *)
Theorem C49_lt_list_partial t F parent : stores t F ->
  lt_context_in cls t parent =
  match shown cls parent F with Some L => Ok (listed_in cls (below_in cls F) F parent L) | None => Err DoesNotExist end.
Proof.
  intros S. unfold lt_context_in, lt_list_in, shown, of_class.
  assert (HK : forall r, In r t -> lt_has_children_in cls t r = below_in cls F (l_pk r)).
  { intros r Hr. destruct (C32_descendants cfg t F r None S Hr) as (k & Ek & _ & _ & Ed & _); [discriminate|].
    cbn [levels prune_opt] in Ed. unfold below_in. rewrite Ek. unfold lt_has_children_in, specific, ids.
    apply eq_true_iff_eq. rewrite !existsb_exists.
    assert (In_d : forall x, In x (get_descendants t r false None) <-> In x t /\ ppre (l_path r) (l_path x) && negb (l_pk x =? l_pk r) = true).
    { intros x. unfold get_descendants, get_tree, order_path. rewrite filter_In, andb_true_iff. split.
      - intros (H1 & H2). apply sort_in in H1. rewrite andb_true_r in H1. tauto.
      - intros (H1 & H2 & H3). split; auto. apply (Permutation_in _ (Permutation_sym (isort_perm _ _))), filter_In.
        rewrite H2. auto. }
    rewrite <- Ed, map_map. split.
    - intros (x & Hx & Px). apply filter_In in Hx. exists (l_pk x). split; [|tauto]. apply in_map_iff. exists x. split; auto. apply In_d. tauto.
    - intros (i & Hi & Ci). apply in_map_iff in Hi. destruct Hi as (x & <- & Hx). apply In_d in Hx. exists x. rewrite filter_In. tauto. }
  destruct parent as [k|].
  - destruct (cls k); auto.
    destruct (lt_pk_cases cfg t F k S) as [[E H]|(p & E & Hp & Ep)]; rewrite E; cbn [bind].
    { rewrite kid_none; auto. }
    destruct (C32_children cfg t F p S Hp) as (L & El & Ec & _).
    destruct (C32_ancestors cfg t F p S Hp) as (A & EA & _ & Ed & _). rewrite Ep in *. rewrite El. f_equal.
    apply (listed_in_read cls l_pk node_of (lt_has_children_in cls t) _ t); auto.
    + intros r Hr. apply sort_in in Hr. tauto.
    + unfold level_of. rewrite EA, Ed. lia.
  - assert (Er := C32_roots cfg t F S). cbn [bind]. change (kid_list None F) with (Some (roots F)). cbv iota. f_equal.
    apply (listed_in_read cls l_pk node_of (lt_has_children_in cls t) _ t); auto.
    intros r Hr. apply sort_in in Hr. tauto.
Qed.
End LT.

(** ** Examples and refutations: the nodes of the class are 2, 3, 5, 6 or 1, 3 and 7 of the example *)
Definition cls1 (n : nat) : bool := existsb (Nat.eqb n) [2; 3; 5; 6].
Definition cls2 (n : nat) : bool := existsb (Nat.eqb n) [1; 3; 7].

Example C49_listed_example : wf_ids ex_F /\ shown cls2 None ex_F = Some (roots ex_F) /\
  listed_in cls2 (kids_in cls2 ex_F) ex_F None (roots ex_F) = [mkEntry 7 0 1%Z false; mkEntry 1 0 1%Z true] /\
  shown cls2 (Some 2) ex_F = None /\
  kids_in cls1 ex_F 2 = false /\ below_in cls1 ex_F 2 = true /\ kids_in cls2 ex_F 1 = true /\ below_in cls1 ex_F 4 = true.
Proof. split; [apply (PropsMP.stores_wf PropsMP.c10 _ _ PropsMP.ex_stores)|]. vm_compute. repeat split. Qed.

Example C49_example :
  mp_context_in PropsMP.c10 cls2 (MPModel.db_rows PropsMP.ex_db) None = Ok [mkEntry 7 0 1%Z false; mkEntry 1 0 1%Z true] /\
  mp_context_in PropsMP.c10 cls2 (MPModel.db_rows PropsMP.ex_db) (Some 1) = Ok [mkEntry 3 1 2%Z false] /\
  mp_context_in PropsMP.c10 cls2 (MPModel.db_rows PropsMP.ex_db) (Some 2) = Err DoesNotExist /\
  ns_context_in cls2 (NSModel.ns_rows PropsNS.ex_db) (Some 1) = Ok [mkEntry 3 1 2%Z false] /\
  al_context_in [] cls2 PropsAL.ex_t None = Ok [mkEntry 7 0 1%Z false; mkEntry 1 0 1%Z true] /\
  al_context_in [] cls1 PropsAL.ex_t None = Ok [mkEntry 2 0 1%Z false] /\
  lt_context_in cls2 (LTModel.lt_rows PropsLT.ex_db) None = Ok [mkEntry 7 0 1%Z false; mkEntry 1 0 1%Z true].
Proof. vm_compute. repeat split. Qed.

(** An expander with nothing below it. *)
Theorem C49_mp_refuted : exists cls, MPInv.stores PropsMP.c10 (MPModel.db_rows PropsMP.ex_db) ex_F /\
  mp_context_in PropsMP.c10 cls (MPModel.db_rows PropsMP.ex_db) None = Ok [mkEntry 2 0 1%Z true] /\
  mp_context_in PropsMP.c10 cls (MPModel.db_rows PropsMP.ex_db) (Some 2) = Ok [].
Proof. exists cls1. split; [apply PropsMP.ex_stores|split; reflexivity]. Qed.

Theorem C49_ns_refuted : exists cls, NSInv.stores (NSModel.ns_rows PropsNS.ex_db) ex_F /\
  ns_context_in cls (NSModel.ns_rows PropsNS.ex_db) None = Ok [mkEntry 2 0 1%Z true] /\
  ns_context_in cls (NSModel.ns_rows PropsNS.ex_db) (Some 2) = Ok [].
Proof. exists cls1. split; [apply PropsNS.ex_stores|split; reflexivity]. Qed.

Theorem C49_lt_refuted : exists cls, LTInv.stores PropsLT.c0 (LTModel.lt_rows PropsLT.ex_db) ex_F /\
  lt_context_in cls (LTModel.lt_rows PropsLT.ex_db) None = Ok [mkEntry 2 0 1%Z true] /\
  lt_context_in cls (LTModel.lt_rows PropsLT.ex_db) (Some 2) = Ok [].
Proof. exists cls1. split; [apply PropsLT.ex_stores|split; reflexivity]. Qed.

Print Assumptions C49_listed.
Print Assumptions C49_flags.
Print Assumptions C49_mp_list_partial.
Print Assumptions C49_ns_list_partial.
Print Assumptions C49_al_list.
Print Assumptions C49_al_list_ties.
Print Assumptions C49_lt_list_partial.
Print Assumptions C49_mp_refuted.
Print Assumptions C49_ns_refuted.
Print Assumptions C49_lt_refuted.
