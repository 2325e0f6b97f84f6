(** Editing a node with MoveNodeForm in trees with node_order_by, forms.py (C42). *)
From Coq Require Import String List Arith Lia Bool ZArith Sorted Permutation.
From Verif Require Import Prelude Forest NumConv SpecFacts SpecSane SpecKids CommonModel Order History SpecRun SpecPerm Fixture FormModel FormSpec FormFacts FormSorted PropsForm.
From Verif Require MPModel MPStep MPInv MPAdd MPMoveOk MPReads MPHist MPRoom PropsMP.
From Verif Require NSModel NSInv NSAdd NSMoveOk NSReads NSHist PropsNS FormNS.
From Verif Require ALModel ALInv ALReads ALAnswers ALOk ALHist PropsAL.
From Verif Require LTModel LTInv LTReads LTAdd LTMove SessionLT PropsLT.
Import ListNotations.
Local Open Scope string_scope.
Local Open Scope list_scope.
Local Open Scope nat_scope.

(** The form moves a node of a sorted tree if a value of the two added fields was changed,
    or the value of a column that ascends. *)
Definition calls_move (o : ordering) (n : nat) (F : forest node) (sent : where_to) (d : fields) : Prop :=
  sent <> shown true n F \/ exists i, In (i, false) o /\ fval (data_of n F) i <> fval d i.

Lemma value_eqb_iff v w : value_eqb v w = true <-> v = w.
Proof. destruct v, w; cbn; rewrite ?Z.eqb_eq; split; try congruence. Qed.

Lemma changed_sorted o init sent d d' : tree_changed o init sent d d' = true <->
  sent <> init \/ exists i, In (i, false) o /\ fval d i <> fval d' i.
Proof.
  unfold tree_changed. rewrite !orb_true_iff, !negb_true_iff, existsb_exists. split.
  - intros [[H|H]|((i & b) & Hi & E)].
    + left. intros ->. rewrite (proj2 (ref_eqb_iff _ _) eq_refl) in H. discriminate.
    + left. intros ->. rewrite String.eqb_refl in H. discriminate.
    + right. cbn in E. apply andb_true_iff in E. rewrite !negb_true_iff in E. destruct E as [-> E]. exists i. split; auto.
      intros X. apply value_eqb_iff in X. congruence.
  - intros [H|(i & Hi & N)].
    + left. destruct (ref_eqb (w_ref init) (w_ref sent)) eqn:E1; [right|left; auto].
      destruct (w_pos init =? w_pos sent)%string eqn:E2; auto. exfalso. apply H. apply ref_eqb_iff in E1. apply String.eqb_eq in E2.
      destruct init, sent; cbn in *; congruence.
    + right. exists (i, false). split; auto. cbn. apply negb_true_iff. destruct (value_eqb _ _) eqn:E; auto.
      apply value_eqb_iff in E. contradiction.
Qed.

Lemma changed_not o init sent d d' : tree_changed o init sent d d' = false <->
  ~ (sent <> init \/ exists i, In (i, false) o /\ fval d i <> fval d' i).
Proof. rewrite <- changed_sorted, not_true_iff_false. tauto. Qed.

Lemma not_calls o n F sent d : ~ calls_move o n F sent d ->
  sent = shown true n F /\ forall i, In (i, false) o -> fval (data_of n F) i = fval d i.
Proof.
  intros H. split.
  - destruct (ref_eqb (w_ref sent) (w_ref (shown true n F))) eqn:E1, (w_pos sent =? w_pos (shown true n F))%string eqn:E2.
    + apply ref_eqb_iff in E1. apply String.eqb_eq in E2. destruct sent, (shown true n F); cbn in *; congruence.
    + exfalso. apply H. left. intros ->. rewrite String.eqb_refl in E2. discriminate.
    + exfalso. apply H. left. intros ->. rewrite (proj2 (ref_eqb_iff _ _) eq_refl) in E1. discriminate.
    + exfalso. apply H. left. intros ->. rewrite String.eqb_refl in E2. discriminate.
  - intros i Hi. destruct (value_eqb (fval (data_of n F) i) (fval d i)) eqn:E; [apply value_eqb_iff; auto|].
    exfalso. apply H. right. exists i. split; auto. intros X. rewrite X, value_eqb_refl in E. discriminate.
Qed.

Lemma calls_dec o n F sent d : calls_move o n F sent d \/ ~ calls_move o n F sent d.
Proof.
  destruct (tree_changed o (shown true n F) sent (data_of n F) d) eqn:E.
  - left. apply changed_sorted in E. auto.
  - right. apply changed_not in E. auto.
Qed.

(** The place that a form shows for a node of a sorted tree is below its parent. *)
Lemma shown_parent n F p up ref P : parent_of n F = Some up -> mkWhere ref p = shown true n F ->
  prepare_pos_move true (Some p) = Ok P -> chosen_parent F ref P up.
Proof.
  intros Ep E EP. unfold shown in E. rewrite Ep in E. injection E as -> ->. injection EP as <-. destruct up; cbn; auto.
Qed.

Lemma data_row F a : wf_ids F -> In a (preorder F) -> data_of (nid a) F = ndata a.
Proof. intros W H. apply data_of_spec; auto. Qed.

(** ** Materialized paths *)
Section MP.
Import MPModel MPStep MPInv MPAdd MPMoveOk MPReads MPHist MPRoom PropsMP.
Variable cfg : mp_cfg.
Hypothesis radix2 : 2 <= radix cfg.
Hypothesis step1 : 1 <= steplen cfg.
(** The alphabet is in the order of code points. *)
Hypothesis py : py_agrees cfg.
Notation stores := (stores cfg).
Notation o := (order_by cfg).
Notation settles := (settles cfg).

Lemma mp_node t F n : stores t F -> In n t -> In (node_of n) (preorder F).
Proof.
  intros S Hn. assert (E := C07_tree cfg radix2 step1 t F None S). cbn [prune_opt] in E. rewrite <- E. apply in_map.
  apply (Permutation_in _ (Permutation_sym (isort_perm _ _))). apply filter_In. auto.
Qed.

Lemma settles_set F n d q : o <> [] -> wf_ids F -> ordered o F -> has_values o d ->
  settles n (gt_of o d) (kl q (set_data n d F)).
Proof.
  intros No W O V. assert (Sp := splits_others o F n d q No O V). set (L := kl q (set_data n d F)) in *.
  destruct (in_dec Nat.eq_dec n (map nid L)) as [Hi|Hi]; [|left; rewrite drop_notin in Sp; auto].
  apply in_map_iff in Hi. destruct Hi as (a & Ea & Ha). assert (Hp := kl_pre _ _ _ Ha).
  assert (Ga : gt_of o d a = false) by (apply gt_self; auto; apply (set_data_node F n d a W Hp Ea)).
  assert (ND : NoDup (map nid L)) by (apply kl_nodup, set_data_wf; auto).
  apply in_split in Ha. destruct Ha as (A & B & EL). rewrite EL in *.
  rewrite map_app in ND. apply NoDup_remove_2 in ND. rewrite in_app_iff in ND.
  rewrite drop_app in Sp. unfold drop at 2 in Sp. cbn [filter] in Sp. rewrite Ea, Nat.eqb_refl in Sp. cbn [negb] in Sp. fold (drop n B) in Sp.
  rewrite <- Ea, !drop_notin in Sp by tauto. destruct Sp as (L1 & L2 & E & H1 & H2).
  apply app_eq_app in E. destruct E as (M & [[-> ->]|[-> ->]]).
  - destruct M as [|m M].
    + left. exists (L1 ++ [a]), B. rewrite app_nil_r. split; [rewrite <- app_assoc; auto|]. split; auto.
      intros x Hx. apply in_app_iff in Hx. destruct Hx as [Hx|[<-|[]]]; auto.
    + right. split; [exact py|]. exists L1, (m :: M), a, B. rewrite <- app_assoc. split; auto. split; [discriminate|]. split; auto. split; auto. split; auto.
      split; intros x Hx; apply H2; apply in_app_iff; auto.
  - left. exists (A ++ a :: M), L2. rewrite <- app_assoc. split; auto. split; auto.
    intros x Hx. apply in_app_iff in Hx. destruct Hx as [Hx|[<-|Hx]]; auto; apply H1; apply in_app_iff; auto.
Qed.

Theorem C42_mp_edit_sorted db F n d ref p P : stores (db_rows db) F -> ordered o F -> In n (db_rows db) -> o <> [] -> has_values o d ->
  (forall t, ref = Some t -> In t (db_rows db) /\ m_pk t <> m_pk n /\ ~ descends F (m_pk n) (m_pk t)) ->
  prepare_pos_move true (Some p) = Ok P -> calls_move o (m_pk n) F (mkWhere (option_map m_pk ref) p) d ->
  roomy_by cfg 2 (db_rows db) ->
  (exists db' G, mp_form_edit cfg db n d ref p = Ok db' /\ stores (db_rows db') G /\ refiled o F G (m_pk n) d (option_map m_pk ref) P) \/
  (mp_form_edit cfg db n d ref p = Err PathOverflow /\ exists q, step_taken cfg (db_rows db) q).
Proof.
  intros S O Hn No V Href EP Ec Rm. unfold mp_form_edit. rewrite (C42_mp_initial cfg radix2 step1 _ F n S Hn). cbn [bind].
  assert (Es : is_sorted cfg = true) by (unfold is_sorted; destruct o; congruence). rewrite Es.
  assert (W := stores_wf _ _ _ S). assert (Hi := stores_ids _ _ _ _ S Hn).
  assert (Hna := mp_node _ _ _ S Hn).
  rewrite (proj2 (changed_sorted _ _ _ _ _)) by (unfold calls_move in Ec; rewrite (data_of_spec (m_pk n) F _ W Hna eq_refl) in Ec; exact Ec).
  destruct (mp_save_ok cfg step1 db F n d S Hn) as (db1 & E & S1 & Hn1 & Hr & Epa & _).
  assert (W1 := stores_wf _ _ _ S1).
  assert (Inp : forall r, In r (db_rows db1) -> exists r', In r' (db_rows db) /\ m_path r' = m_path r).
  { intros r Hr1. apply (in_map m_path) in Hr1. rewrite Epa in Hr1. apply in_map_iff in Hr1. destruct Hr1 as (r' & ? & ?). eauto. }
  assert (Tr : forall q, temp_room cfg (db_rows db1) q (m_path n)).
  { intros q _ r Hr1 _. destruct (Inp r Hr1) as (r' & H1 & <-). apply Rm. auto. }
  assert (Tk : forall q, step_taken cfg (db_rows db1) q -> step_taken cfg (db_rows db) q).
  { intros q (r & H1 & H2). destruct (Inp r H1) as (r' & H3 & E3). exists r'. rewrite E3. auto. }
  assert (Sk : forall t q, parent_of (m_pk t) (set_data (m_pk n) d F) = Some q ->
             settles (m_pk n) (gt_of o d) (siblings_of (m_pk t) (set_data (m_pk n) d F))).
  { intros t q Eq. unfold siblings_of. rewrite Eq. assert (X := settles_set F (m_pk n) d q No W O V).
    unfold kl, kid_list in X. destruct (kids_of q (set_data (m_pk n) d F)); auto. }
  assert (Mv : forall t pp Q, In t (db_rows db1) -> prepare_pos_move true (Some pp) = Ok Q ->
    ~ inside (set_data (m_pk n) d F) (m_pk n) (m_pk t) Q ->
    (exists db' n' t', move cfg db1 (mp_set_data n d) t (Some pp) = Ok (db', n', t') /\
       stores (db_rows db') (sp_move (m_pk n) (m_pk t) Q (gt_of o d) (set_data (m_pk n) d F))) \/
    (move cfg db1 (mp_set_data n d) t (Some pp) = Err PathOverflow /\ exists q, step_taken cfg (db_rows db) q)).
  { intros t pp Q Ht EQ NI. rewrite <- Es in EQ.
    destruct (move_settles cfg radix2 step1 db1 _ (mp_set_data n d) t (Some pp) Q S1 Hn1 Ht EQ) as [[H _]|[_ [(db' & n' & t' & E1 & S' & _)|[E1 T]]]].
    - intros _. destruct (kl_ex _ (m_pk t) W1 (stores_ids _ _ _ _ S1 Ht)) as (q & b & _ & _ & Eq). apply (Sk t q Eq).
    - intros _. assert (X := settles_set F (m_pk n) d (Some (m_pk t)) No W O V).
      unfold kl, kid_list in X. destruct (kids_of (Some (m_pk t)) (set_data (m_pk n) d F)); auto.
    - apply Tr.
    - contradiction.
    - left. exists db', n', t'. auto.
    - right. split; auto. eauto. }
  assert (HP : P = SortedSibling \/ P = SortedChild) by (apply (prepare_move_sorted (Some p)); auto).
  unfold mp_form_move. rewrite E. cbn [bind]. destruct ref as [t|].
  - destruct (Href t eq_refl) as (Ht & Nt & Dt). assert (Ht1 : In t (db_rows db1)) by auto.
    destruct (refiled_at o F (m_pk n) d (m_pk t) P W Hi (stores_ids _ _ _ _ S Ht)) as [NI Rl]; auto.
    destruct (Mv t p P Ht1 EP NI) as [(db' & n' & t' & E1 & S')|[E1 H]]; rewrite E1; cbn [bind].
    + left. eauto.
    + right. auto.
  - destruct (C07_roots cfg radix2 step1 _ _ S1) as (_ & E1 & _).
    destruct (get_first_root_node (db_rows db1)) as [r|] eqn:Er; cbn [MPModel.opt_res bind].
    2:{ exfalso. rewrite <- (set_data_ids (m_pk n) d) in Hi. destruct (set_data (m_pk n) d F); [destruct Hi|discriminate]. }
    cbn in E1. assert (Hr1 : In r (db_rows db1)) by (apply first_root_in; auto).
    assert (Hrk : In (node_of r) (kl None (set_data (m_pk n) d F))).
    { unfold kl, kid_list. cbn. destruct (roots (set_data (m_pk n) d F)); [discriminate|]. injection E1 as ->. left; auto. }
    assert (Epr := kl_parent _ _ _ W1 Hrk). rewrite set_data_parent in Epr. change (nid (node_of r)) with (m_pk r) in Epr.
    assert (Hri := stores_ids _ _ _ _ S1 Hr1). rewrite set_data_ids in Hri.
    destruct (refiled_root o F (m_pk n) d (m_pk r) P W Hi Hri Epr O V) as [NI Rl].
    unfold root_pos. rewrite Es.
    destruct (Mv r "sorted-sibling" SortedSibling Hr1 eq_refl NI) as [(db' & n' & t' & E2 & S')|[E2 H]]; rewrite E2; cbn [bind].
    + left. eauto.
    + right. auto.
Qed.

(** Otherwise the new values are saved and the node stays where it is. *)
Theorem C42_mp_kept_sorted db F n d ref p : stores (db_rows db) F -> ordered o F -> In n (db_rows db) -> o <> [] ->
  ~ calls_move o (m_pk n) F (mkWhere (option_map m_pk ref) p) d ->
  exists db', mp_form_edit cfg db n d ref p = Ok db' /\ stores (db_rows db') (set_data (m_pk n) d F) /\
    map m_path (db_rows db') = map m_path (db_rows db) /\
    ((forall i b, In (i, b) o -> fval d i = fval (m_data n) i) -> ordered o (set_data (m_pk n) d F)).
Proof.
  intros S O Hn No Ec. unfold mp_form_edit. rewrite (C42_mp_initial cfg radix2 step1 _ F n S Hn). cbn [bind].
  assert (Es : is_sorted cfg = true) by (unfold is_sorted; destruct o; congruence). rewrite Es.
  assert (W := stores_wf _ _ _ S). assert (Hi := stores_ids _ _ _ _ S Hn).
  assert (Hna := mp_node _ _ _ S Hn).
  assert (Ed := data_of_spec (m_pk n) F _ W Hna eq_refl). cbn [ndata node_of] in Ed.
  rewrite (proj2 (changed_not _ _ _ _ _)) by (unfold calls_move in Ec; rewrite Ed in Ec; exact Ec).
  destruct (mp_save_ok cfg step1 db F n d S Hn) as (db1 & E & S1 & _ & _ & Epa & _). exists db1. split; auto. split; auto. split; auto.
  intros H. apply ordered_same; auto. intros i b Hb. rewrite Ed. apply (H i b Hb).
Qed.

(** With ascending columns only, no edit disturbs the order. *)
Theorem C42_mp_ascending db F n d ref p P : stores (db_rows db) F -> ordered o F -> In n (db_rows db) -> o <> [] -> has_values o d ->
  (forall c, In c o -> snd c = false) ->
  (forall t, ref = Some t -> In t (db_rows db) /\ m_pk t <> m_pk n /\ ~ descends F (m_pk n) (m_pk t)) ->
  prepare_pos_move true (Some p) = Ok P -> roomy_by cfg 2 (db_rows db) ->
  (exists db' G, mp_form_edit cfg db n d ref p = Ok db' /\ stores (db_rows db') G /\ ordered o G /\
     exists up, chosen_parent F (option_map m_pk ref) P up /\ parent_of (m_pk n) G = Some up) \/
  (mp_form_edit cfg db n d ref p = Err PathOverflow /\ exists q, step_taken cfg (db_rows db) q).
Proof.
  intros S O Hn No V Asc Href EP Rm. destruct (calls_dec o (m_pk n) F (mkWhere (option_map m_pk ref) p) d) as [Ec|Ec].
  - destruct (C42_mp_edit_sorted db F n d ref p P S O Hn No V Href EP Ec Rm) as [(db' & G & E & S' & OG & up & Hu & a & L1 & L2 & Ea & M & _)|H]; [left|right; auto].
    exists db', G. split; auto. split; auto. split; auto. exists up. split; auto. rewrite <- Ea. apply kl_parent; [apply (stores_wf _ _ _ S')|].
    rewrite (kl_kid_list _ _ _ (mv_after _ _ _ _ _ _ M)). apply in_elt.
  - left. assert (Hc := not_calls _ _ _ _ _ Ec).
    assert (W := stores_wf _ _ _ S). assert (Hi := stores_ids _ _ _ _ S Hn).
    assert (Hna := mp_node _ _ _ S Hn).
    assert (Ed := data_of_spec (m_pk n) F _ W Hna eq_refl). cbn [ndata node_of] in Ed.
    destruct (C42_mp_kept_sorted db F n d ref p S O Hn No Ec) as (db' & E & S' & _ & OG). exists db', (set_data (m_pk n) d F).
    split; auto. split; auto. destruct Hc as [Ew Hc]. split.
    + apply OG. intros i b Hb. assert (b = false) as -> by (apply (Asc _ Hb)). rewrite <- Ed. symmetry. auto.
    + destruct (kl_ex F (m_pk n) W Hi) as (up & b & _ & _ & Ep). exists up. rewrite set_data_parent. split; auto.
      eapply shown_parent; eauto.
Qed.
End MP.

(** ** Nested sets *)
Section NS.
Import NSModel NSInv NSAdd NSMoveOk NSReads NSHist PropsNS.
Variable o : ordering.

Lemma ns_node t F n : stores t F -> In n t -> In (row_node n) (preorder F).
Proof.
  intros S Hn. destruct (C20_tree t F None S) as [E _]. cbn [levels option_map prune_opt] in E. rewrite <- E. apply in_map.
  apply (Permutation_in _ (Permutation_sym (isort_perm _ _))). apply filter_In. auto.
Qed.

Theorem C42_ns_edit_sorted db F n d ref p P : stores (ns_rows db) F -> ordered o F -> In n (ns_rows db) -> o <> [] -> has_values o d ->
  (forall t, ref = Some t -> In t (ns_rows db) /\ n_pk t <> n_pk n /\ ~ descends F (n_pk n) (n_pk t)) ->
  prepare_pos_move true (Some p) = Ok P -> calls_move o (n_pk n) F (mkWhere (option_map n_pk ref) p) d ->
  exists db' G, ns_form_edit o db n d ref p = Ok db' /\ stores (ns_rows db') G /\ refiled o F G (n_pk n) d (option_map n_pk ref) P.
Proof.
  intros S O Hn No V Href EP Ec. unfold ns_form_edit. rewrite (C42_ns_initial o _ F n S Hn). cbn [bind].
  assert (Es : is_sorted o = true) by (destruct o; [congruence|auto]). rewrite Es.
  assert (W := stores_wf _ _ S). assert (Hi := stores_ids _ _ _ S Hn). assert (Hna := ns_node _ _ _ S Hn).
  rewrite (proj2 (changed_sorted _ _ _ _ _)) by (unfold calls_move in Ec; rewrite (data_of_spec (n_pk n) F _ W Hna eq_refl) in Ec; exact Ec).
  destruct (ns_save_ok db F n d S Hn) as (S1 & Hn1 & Hr). assert (W1 := stores_wf _ _ S1).
  unfold ns_form_move. set (db1 := save_row db (ns_set_data n d)) in *.
  assert (Mv : forall t pp Q, In t (ns_rows db1) -> prepare_pos_move true (Some pp) = Ok Q ->
    ~ inside (set_data (n_pk n) d F) (n_pk n) (n_pk t) Q ->
    exists db' n' t', move o db1 (fresh (ns_set_data n d)) (fresh t) (Some pp) = Ok (db', n', t') /\
       stores (ns_rows db') (sp_move (n_pk n) (n_pk t) Q (gt_of o d) (set_data (n_pk n) d F))).
  { intros t pp Q Ht EQ NI. rewrite <- Es in EQ.
    destruct (move_ok o db1 _ (fresh (ns_set_data n d)) (fresh t) (Some pp) Q S1 (good_fresh _ _ Hn1) (good_fresh _ _ Ht) EQ)
      as [[H _]|[_ (db' & n' & t' & E1 & S' & _)]].
    - contradiction.
    - exists db', n', t'. auto. }
  assert (HP : P = SortedSibling \/ P = SortedChild) by (apply (prepare_move_sorted (Some p)); auto).
  destruct ref as [t|].
  - destruct (Href t eq_refl) as (Ht & Nt & Dt). assert (Ht1 : In t (ns_rows db1)) by auto.
    destruct (refiled_at o F (n_pk n) d (n_pk t) P W Hi (stores_ids _ _ _ S Ht)) as [NI Rl]; auto.
    destruct (Mv t p P Ht1 EP NI) as (db' & n' & t' & E1 & S'). rewrite E1. cbn [bind]. eauto.
  - destruct (C20_roots _ _ S1) as (_ & Hin & E1 & _).
    destruct (get_first_root_node (ns_rows db1)) as [r|] eqn:Er; cbn [MPModel.opt_res bind].
    2:{ exfalso. rewrite <- (set_data_ids (n_pk n) d) in Hi. destruct (set_data (n_pk n) d F); [destruct Hi|discriminate]. }
    cbn in E1. assert (Hr1 : In r (ns_rows db1)) by (apply Hin; unfold get_first_root_node in Er; destruct (get_root_nodes (ns_rows db1)); [discriminate|injection Er as ->; left; auto]).
    assert (Hrk : In (row_node r) (kl None (set_data (n_pk n) d F))).
    { unfold kl, kid_list. cbn. destruct (roots (set_data (n_pk n) d F)); [discriminate|]. injection E1 as ->. left; auto. }
    assert (Epr := kl_parent _ _ _ W1 Hrk). rewrite set_data_parent in Epr. change (nid (row_node r)) with (n_pk r) in Epr.
    assert (Hri := stores_ids _ _ _ S1 Hr1). rewrite set_data_ids in Hri.
    destruct (refiled_root o F (n_pk n) d (n_pk r) P W Hi Hri Epr O V) as [NI Rl].
    unfold root_pos. rewrite Es.
    destruct (Mv r "sorted-sibling" SortedSibling Hr1 eq_refl NI) as (db' & n' & t' & E2 & S'). rewrite E2. cbn [bind]. eauto.
Qed.

Theorem C42_ns_kept_sorted db F n d ref p : stores (ns_rows db) F -> ordered o F -> In n (ns_rows db) -> o <> [] ->
  ~ calls_move o (n_pk n) F (mkWhere (option_map n_pk ref) p) d ->
  exists db', ns_form_edit o db n d ref p = Ok db' /\ stores (ns_rows db') (set_data (n_pk n) d F) /\
    ((forall i b, In (i, b) o -> fval d i = fval (n_data n) i) -> ordered o (set_data (n_pk n) d F)).
Proof.
  intros S O Hn No Ec. unfold ns_form_edit. rewrite (C42_ns_initial o _ F n S Hn). cbn [bind].
  assert (Es : is_sorted o = true) by (destruct o; [congruence|auto]). rewrite Es.
  assert (W := stores_wf _ _ S). assert (Hi := stores_ids _ _ _ S Hn). assert (Hna := ns_node _ _ _ S Hn).
  assert (Ed := data_of_spec (n_pk n) F _ W Hna eq_refl). cbn [ndata row_node] in Ed.
  rewrite (proj2 (changed_not _ _ _ _ _)) by (unfold calls_move in Ec; rewrite Ed in Ec; exact Ec).
  eexists. split; [reflexivity|]. split; [apply ns_save_ok; auto|].
  intros H. apply ordered_same; auto. intros i b Hb. rewrite Ed. apply (H i b Hb).
Qed.

Theorem C42_ns_ascending db F n d ref p P : stores (ns_rows db) F -> ordered o F -> In n (ns_rows db) -> o <> [] -> has_values o d ->
  (forall c, In c o -> snd c = false) ->
  (forall t, ref = Some t -> In t (ns_rows db) /\ n_pk t <> n_pk n /\ ~ descends F (n_pk n) (n_pk t)) ->
  prepare_pos_move true (Some p) = Ok P ->
  exists db' G, ns_form_edit o db n d ref p = Ok db' /\ stores (ns_rows db') G /\ ordered o G /\
     exists up, chosen_parent F (option_map n_pk ref) P up /\ parent_of (n_pk n) G = Some up.
Proof.
  intros S O Hn No V Asc Href EP. destruct (calls_dec o (n_pk n) F (mkWhere (option_map n_pk ref) p) d) as [Ec|Ec].
  - destruct (C42_ns_edit_sorted db F n d ref p P S O Hn No V Href EP Ec) as (db' & G & E & S' & OG & up & Hu & a & L1 & L2 & Ea & M & _).
    exists db', G. split; auto. split; auto. split; auto. exists up. split; auto. rewrite <- Ea. apply kl_parent; [apply (stores_wf _ _ S')|].
    rewrite (kl_kid_list _ _ _ (mv_after _ _ _ _ _ _ M)). apply in_elt.
  - assert (Hc := not_calls _ _ _ _ _ Ec).
    assert (W := stores_wf _ _ S). assert (Hi := stores_ids _ _ _ S Hn). assert (Hna := ns_node _ _ _ S Hn).
    assert (Ed := data_of_spec (n_pk n) F _ W Hna eq_refl). cbn [ndata row_node] in Ed.
    destruct (C42_ns_kept_sorted db F n d ref p S O Hn No Ec) as (db' & E & S' & OG). exists db', (set_data (n_pk n) d F).
    split; auto. split; auto. destruct Hc as [Ew Hc]. split.
    + apply OG. intros i b Hb. assert (b = false) as -> by (apply (Asc _ Hb)). rewrite <- Ed. symmetry. auto.
    + destruct (kl_ex F (n_pk n) W Hi) as (up & b & _ & _ & Ep). exists up. rewrite set_data_parent. split; auto.
      eapply shown_parent; eauto.
Qed.
End NS.

(** ** Adjacency lists *)
Section AL.
Import ALModel ALInv ALReads ALAnswers ALOk PropsAL.
Variable o : ordering.

(** The order is part of the queries: saving other values is enough to move the node to its
    place in the order. *)
Lemma al_save_sorted t F n d : o <> [] -> stores o t F -> In n t -> has_values o d ->
  stores o (save_row t (al_set_data n d)) (resort o (a_pk n) d F) /\
  In (al_set_data n d) (save_row t (al_set_data n d)) /\
  (forall r, In r t -> a_pk r <> a_pk n -> In r (save_row t (al_set_data n d))).
Proof.
  intros No S Hn V. assert (Hi := stores_ids _ _ _ _ S Hn). destruct S as (W & O & so & Fit & _).
  destruct (al_save_fits so t F n d W Fit Hn) as (Fit1 & H). split; auto.
  split; [apply resort_wf; auto|]. split; [apply ordered_settle; auto|]. exists so. split; [|congruence].
  intros q. rewrite (Fit1 q). apply Permutation_map, same_kl, resort_same; auto.
Qed.

(** Whether the form moves the node or not, it is in its place in the order afterwards. *)
Theorem C42_al_edit_sorted t F n d ref p P : stores o t F -> In n t -> o <> [] -> has_values o d ->
  (forall r, ref = Some r -> In r t /\ a_pk r <> a_pk n /\ ~ descends F (a_pk n) (a_pk r)) ->
  prepare_pos_move true (Some p) = Ok P ->
  exists t' G, al_form_edit o t n d ref p = Ok t' /\ stores o t' G /\ refiled o F G (a_pk n) d (option_map a_pk ref) P.
Proof.
  intros S Hn No V Href EP. unfold al_form_edit. rewrite (C42_al_initial o _ F n S Hn). cbn [bind].
  assert (Es : is_sorted o = true) by (destruct o; [congruence|auto]). rewrite Es.
  assert (W := stores_wf _ _ _ S). assert (Hi := stores_ids _ _ _ _ S Hn). assert (O : ordered o F) by apply S.
  destruct (al_save_sorted t F n d No S Hn V) as (S1 & Hn1 & Hr). assert (W1 := stores_wf _ _ _ S1).
  assert (Wd := set_data_wf (a_pk n) d F W). assert (Sk := resort_same o F (a_pk n) d W Hi).
  destruct (kl_ex F (a_pk n) W Hi) as (up0 & b0 & _ & _ & Ep0).
  assert (R0 := resort_settled o F (a_pk n) d up0 W Hi Ep0).
  destruct (tree_changed o _ _ _ _) eqn:Ec.
  2:{ apply changed_not in Ec. eexists _, _. split; [reflexivity|]. split; [exact S1|]. split; [apply S1|]. exists up0. split; auto.
      apply (shown_parent (a_pk n) F p); auto.
      destruct (calls_dec [] (a_pk n) F (mkWhere (option_map a_pk ref) p) d) as [[C|(i & [] & _)]|C].
      - exfalso. apply Ec. left. auto.
      - apply (not_calls _ _ _ _ _ C). }
  clear Ec. unfold al_form_move. set (t1 := save_row t (al_set_data n d)) in *. set (H := resort o (a_pk n) d F) in *.
  assert (Mv : forall r pp Q, In r t1 -> prepare_pos_move true (Some pp) = Ok Q -> ~ inside F (a_pk n) (a_pk r) Q ->
    exists t' n', move o t1 (fresh (al_set_data n d)) r (Some pp) = Ok (t', n') /\
      let G := sp_move (a_pk n) (a_pk r) Q (gt_of o d) H in
      stores o t' G /\ exists up, chosen_parent F (Some (a_pk r)) Q up /\ settled (set_data (a_pk n) d F) G (a_pk n) up (gt_of o d)).
  { intros r pp Q Ht EQ NI.
    assert (NI1 : ~ inside H (a_pk n) (a_pk r) Q).
    { apply insideb_false. rewrite <- (same_inside (set_data (a_pk n) d F) H) by auto. apply insideb_false. rewrite set_data_inside. auto. }
    assert (HQ : Q = SortedSibling \/ Q = SortedChild) by (apply (prepare_move_sorted (Some pp)); auto).
    rewrite <- Es in EQ.
    destruct (move_ok o t1 H (fresh (al_set_data n d)) r (Some pp) Q S1 Hn1 Logic.I Ht EQ) as [[C _]|[_ (t' & n' & E1 & S' & _)]].
    - contradiction.
    - exists t', n'. split; auto. cbn zeta. split; auto.
      assert (Hi1 := stores_ids _ _ _ _ S1 Hn1). assert (Hr1 := stores_ids _ _ _ _ S1 Ht).
      destruct (settle_at H (a_pk n) (a_pk r) Q (gt_of o d) W1 Hi1 Hr1 NI1 HQ) as (up & Hu & St).
      exists up. split; [|eapply settled_twice; eauto].
      cbn [chosen_parent] in *. rewrite <- (same_parent (set_data (a_pk n) d F) H), set_data_parent in Hu; auto. }
  destruct ref as [r|].
  - destruct (Href r eq_refl) as (Ht & Nt & Dt). assert (Ht1 : In r t1) by auto.
    destruct (Mv r p P Ht1 EP) as (t' & n' & E1 & S' & up & Hu & St); [intros [C|[C _]]; auto|]. rewrite E1. cbn [bind].
    eexists _, _. split; [reflexivity|]. split; [exact S'|]. split; [apply S'|]. exists up. auto.
  - assert (X : forall x, In x (get_root_nodes o t1) -> In x t1 /\ a_parent x = None).
    { intros x Hx. unfold get_root_nodes, kids in Hx. apply (Permutation_in _ (isort_perm _ _)) in Hx. apply filter_In in Hx.
      destruct Hx as [Hx E]. split; auto. destruct (a_parent x); [discriminate|auto]. }
    assert (S1' := S1). destruct S1' as (_ & _ & so & Fit & _).
    assert (Ne : get_root_nodes o t1 <> []).
    { unfold get_root_nodes, kids, order_rows. intros E.
      match type of E with isort ?f ?l = _ => assert (Pm := isort_perm f l) end. rewrite E, (Fit None) in Pm. apply Permutation_nil in Pm. apply map_eq_nil in Pm.
      assert (Y := proj1 (same_ids _ _ Sk (a_pk n))). rewrite set_data_ids in Y. specialize (Y Hi).
      assert (Er : roots H = []) by exact Pm. clear - Y Er. fold H in Y. destruct H; [destruct Y|discriminate]. }
    unfold get_first_root_node. destruct (get_root_nodes o t1) as [|r L]; [congruence|]. cbn [hd_error MPModel.opt_res bind].
    destruct (X r (or_introl eq_refl)) as [Hr1 Er].
    destruct (fits_pk so t1 H W1 Fit r Hr1) as (_ & Epr & _). rewrite Er in Epr.
    rewrite <- (same_parent (set_data (a_pk n) d F) H), set_data_parent in Epr by auto.
    unfold root_pos. rewrite Es.
    destruct (Mv r "sorted-sibling" SortedSibling Hr1 eq_refl) as (t' & n' & E1 & S' & up & Hu & St); [apply not_inside_root; auto|].
    rewrite E1. cbn [bind]. eexists _, _. split; [reflexivity|]. split; [exact S'|]. split; [apply S'|].
    cbn in Hu. rewrite Epr in Hu. injection Hu as <-. exists None. split; [reflexivity|auto].
Qed.
End AL.

(** ** Ltree *)
Section LT.
Import LTModel LTInv LTReads LTAdd LTMove PropsLT.
Variable cfg : lt_cfg.
Hypothesis max2 : 2 <= label_max cfg.
Notation stores := (stores cfg).
Notation o := (lt_order cfg).

Lemma lt_node t F n : stores t F -> In n t -> In (node_of n) (preorder F).
Proof.
  intros S Hn. assert (E := C32_tree cfg t F None S). cbn [levels option_map prune_opt] in E. rewrite <- E. apply in_map.
  apply (Permutation_in _ (Permutation_sym (isort_perm _ _))). apply filter_In. auto.
Qed.

(** Up to the order among the new siblings; exactly with enough room between the labels. *)
Theorem C42_lt_edit_sorted_partial db F n d ref p P : stores (lt_rows db) F -> In n (lt_rows db) -> o <> [] ->
  (forall t, ref = Some t -> In t (lt_rows db) /\ l_pk t <> l_pk n /\ ~ descends F (l_pk n) (l_pk t)) ->
  prepare_pos_move true (Some p) = Ok P -> calls_move o (l_pk n) F (mkWhere (option_map l_pk ref) p) d ->
  exists db1 t Q, lt_save cfg db (lt_set_data n d) = Ok db1 /\ In t (lt_rows db1) /\
    (ref = Some t /\ Q = P \/ ref = None /\ get_first_root_node (lt_rows db1) = Some t /\ Q = SortedSibling) /\
  ((exists db' G S, lt_form_edit cfg db n d ref p = Ok db' /\ stores (lt_rows db') G /\
     filed o F S (l_pk n) d (option_map l_pk ref) P /\ (ordered o F -> has_values o d -> ordered o S) /\ same_kids S G /\
     (calm_pos cfg (lt_rows db1) t Q d -> G = S)) \/
   no_label cfg (lt_rows db1) (if is_child_pos Q then l_path t else parent_path (l_path t)) (lt_form_edit cfg db n d ref p)).
Proof.
  intros S Hn No Href EP Ec. unfold lt_form_edit. rewrite (C42_lt_initial cfg _ F n S Hn). cbn [bind].
  assert (Es : is_sorted cfg = true) by (unfold is_sorted; destruct o; congruence). rewrite Es.
  assert (W := stores_wf _ _ _ S). assert (Hi := stores_ids _ _ _ _ S Hn). assert (Hna := lt_node _ _ _ S Hn).
  rewrite (proj2 (changed_sorted _ _ _ _ _)) by (unfold calls_move in Ec; rewrite (data_of_spec (l_pk n) F _ W Hna eq_refl) in Ec; exact Ec).
  destruct (lt_save_ok cfg db F n d S Hn) as (db1 & E & S1 & Hn1 & Hr). assert (W1 := stores_wf _ _ _ S1).
  assert (Mv : forall t pp Q, In t (lt_rows db1) -> prepare_pos_move true (Some pp) = Ok Q ->
    ~ inside (set_data (l_pk n) d F) (l_pk n) (l_pk t) Q ->
    (exists db' n' G, move cfg db1 (lt_set_data n d) t (Some pp) = Ok (db', n') /\ stores (lt_rows db') G /\
       same_kids (sp_move (l_pk n) (l_pk t) Q (gt_of o d) (set_data (l_pk n) d F)) G /\
       (calm_pos cfg (lt_rows db1) t Q d -> G = sp_move (l_pk n) (l_pk t) Q (gt_of o d) (set_data (l_pk n) d F))) \/
    no_label cfg (lt_rows db1) (if is_child_pos Q then l_path t else parent_path (l_path t)) (move cfg db1 (lt_set_data n d) t (Some pp))).
  { intros t pp Q Ht EQ NI. rewrite <- Es in EQ.
    destruct (move_ok cfg max2 db1 _ (lt_set_data n d) t (Some pp) Q S1 Hn1 Ht EQ) as [[H _]|[_ Mo]]; [contradiction|].
    destruct Mo as [(db' & r & G & E1 & H1 & H2 & H3 & H4 & H5)|[H|H]]; [left|right; left; auto|right; right; auto].
    exists db', r, G. auto. }
  assert (HP : P = SortedSibling \/ P = SortedChild) by (apply (prepare_move_sorted (Some p)); auto).
  exists db1. unfold lt_form_move. rewrite E. cbn [bind]. destruct ref as [t|].
  - destruct (Href t eq_refl) as (Ht & Nt & Dt). assert (Ht1 : In t (lt_rows db1)) by auto.
    destruct (filed_at o F (l_pk n) d (l_pk t) P W Hi (stores_ids _ _ _ _ S Ht)) as [NI Rl]; auto.
    exists t, P. split; auto. split; auto. split; auto.
    destruct (Mv t p P Ht1 EP NI) as [(db' & n' & G & E1 & S' & Sk & Hc)|[[E1 H]|[E1 H]]]; rewrite E1; cbn [bind].
    + left. exists db', G. eexists. split; [reflexivity|]. split; [exact S'|]. split; [exact Rl|]. split; [|auto].
      intros O V. apply ordered_settle; auto.
    + right. left. auto.
    + right. right. auto.
  - assert (E0 := C32_roots cfg _ _ S1). assert (E1 : option_map node_of (get_first_root_node (lt_rows db1)) = hd_error (roots (set_data (l_pk n) d F))).
    { rewrite <- E0. unfold get_first_root_node. destruct (get_root_nodes (lt_rows db1)); auto. }
    destruct (get_first_root_node (lt_rows db1)) as [r|] eqn:Er; cbn [MPModel.opt_res bind].
    2:{ exfalso. rewrite <- (set_data_ids (l_pk n) d) in Hi. destruct (set_data (l_pk n) d F); [destruct Hi|discriminate]. }
    cbn in E1. assert (Hr1 : In r (lt_rows db1)).
    { unfold get_first_root_node in Er. destruct (get_root_nodes (lt_rows db1)) as [|r0 L0] eqn:E2; [discriminate|]. injection Er as ->.
      assert (X : In r (get_root_nodes (lt_rows db1))) by (rewrite E2; left; auto). unfold get_root_nodes, order_path in X.
      apply (Permutation_in _ (isort_perm _ _)) in X. apply filter_In in X. apply X. }
    assert (Hrk : In (node_of r) (kl None (set_data (l_pk n) d F))).
    { unfold kl, kid_list. cbn. destruct (roots (set_data (l_pk n) d F)); [discriminate|]. injection E1 as ->. left; auto. }
    assert (Epr := kl_parent _ _ _ W1 Hrk). rewrite set_data_parent in Epr. change (nid (node_of r)) with (l_pk r) in Epr.
    assert (Hri := stores_ids _ _ _ _ S1 Hr1). rewrite set_data_ids in Hri.
    destruct (filed_root o F (l_pk n) d (l_pk r) P W Hi Hri Epr) as [NI Rl].
    exists r, SortedSibling. split; auto. split; auto. split; auto.
    unfold root_pos. rewrite Es.
    destruct (Mv r "sorted-sibling" SortedSibling Hr1 eq_refl NI) as [(db' & n' & G & E2 & S' & Sk & Hc)|[[E2 H]|[E2 H]]]; rewrite E2; cbn [bind].
    + left. exists db', G. eexists. split; [reflexivity|]. split; [exact S'|]. split; [exact Rl|]. split; [|auto].
      intros O V. apply ordered_settle; auto.
    + right. left. auto.
    + right. right. auto.
Qed.

Theorem C42_lt_kept_sorted db F n d ref p : stores (lt_rows db) F -> In n (lt_rows db) -> o <> [] ->
  ~ calls_move o (l_pk n) F (mkWhere (option_map l_pk ref) p) d ->
  exists db', lt_form_edit cfg db n d ref p = Ok db' /\ stores (lt_rows db') (set_data (l_pk n) d F) /\
    (ordered o F -> (forall i b, In (i, b) o -> fval d i = fval (l_data n) i) -> ordered o (set_data (l_pk n) d F)).
Proof.
  intros S Hn No Ec. unfold lt_form_edit. rewrite (C42_lt_initial cfg _ F n S Hn). cbn [bind].
  assert (Es : is_sorted cfg = true) by (unfold is_sorted; destruct o; congruence). rewrite Es.
  assert (W := stores_wf _ _ _ S). assert (Hi := stores_ids _ _ _ _ S Hn). assert (Hna := lt_node _ _ _ S Hn).
  assert (Ed := data_of_spec (l_pk n) F _ W Hna eq_refl). cbn [ndata node_of] in Ed.
  rewrite (proj2 (changed_not _ _ _ _ _)) by (unfold calls_move in Ec; rewrite Ed in Ec; exact Ec).
  destruct (lt_save_ok cfg db F n d S Hn) as (db1 & E & S1 & _). exists db1. split; auto. split; auto.
  intros O H. apply ordered_same; auto. intros i b Hb. rewrite Ed. apply (H i b Hb).
Qed.

(** Creating, with or without node_order_by.  A sorted add_child may already change the
    labels of siblings; the reference node is not among them. *)
Lemma lt_child_keeps db F t x db1 r : stores (lt_rows db) F -> In t (lt_rows db) -> ~ In (nid x) (ids F) ->
  add_child cfg db t (new_of x) = Ok (db1, r) -> In t (lt_rows db1).
Proof.
  intros S Ht Hx E. destruct S as (f & L & <- & W). assert (Pk := lay_pks cfg _ _ L).
  destruct (SessionLT.child_keeps cfg db t (new_of x) db1 r) as [K _]; auto.
  - intros k _ a b Ha Hb Ea Eb. assert (Ga := get_by_pk_lay cfg _ _ _ L W Ha). assert (Gb := get_by_pk_lay cfg _ _ _ L W Hb). congruence.
  - intros H. apply Hx. apply (Permutation_in _ Pk). exact H.
Qed.

Theorem C42_lt_create_sorted_partial db F x ref p P : stores (lt_rows db) F -> ~ In (nid x) (ids F) ->
  (forall t, ref = Some t -> In t (lt_rows db)) -> prepare_pos_move (is_sorted cfg) (Some p) = Ok P ->
  (exists db' G S, lt_form_create cfg db (new_of x) ref p = Ok db' /\ stores (lt_rows db') G /\
     created o F S x (option_map l_pk ref) P /\ same_kids S G /\
     (match ref with
      | None => calm_root cfg (lt_rows db) (ndata x)
      | Some t => calm_child cfg (lt_rows db) t (ndata x) /\
          forall db1 r, add_child cfg db t (new_of x) = Ok (db1, r) -> calm_pos cfg (lt_rows db1) t P (ndata x)
      end -> G = S)) \/
  match ref with
  | None => no_label cfg (lt_rows db) [] (lt_form_create cfg db (new_of x) ref p)
  | Some t => no_label cfg (lt_rows db) (l_path t) (lt_form_create cfg db (new_of x) ref p) \/
      exists db1 r, add_child cfg db t (new_of x) = Ok (db1, r) /\
        no_label cfg (lt_rows db1) (if is_child_pos P then l_path t else parent_path (l_path t)) (lt_form_create cfg db (new_of x) ref p)
  end.
Proof.
  intros S Hx Href EP. assert (W := stores_wf _ _ _ S). unfold lt_form_create. destruct ref as [t|].
  - assert (Ht := Href t eq_refl). assert (Hti := stores_ids _ _ _ _ S Ht).
    destruct (add_child_ok cfg max2 db F t x S Ht Hx) as [(db1 & r & H & E1 & Hr & Er1 & Er2 & S1 & Sk1 & Hc1)|[[E1 C]|[E1 C]]]; rewrite E1; cbn [bind].
    2:{ right. left. left. auto. }
    2:{ right. left. right. auto. }
    assert (Ht1 := lt_child_keeps db F t x db1 r S Ht Hx E1).
    destruct (add_child_sane (gt_opt o (ndata x)) (l_pk t) x F W Hti Hx) as (K1 & K2 & Ad & _).
    set (H0 := sp_add_child (gt_opt o (ndata x)) (l_pk t) x F) in *. assert (W1 := stores_wf _ _ _ S1).
    assert (W0 : wf_ids H0).
    { assert (Ee : sp_exec o F (CAddChild (l_pk t) x) = Ok H0) by (cbn [sp_exec]; rewrite (proj2 (has_spec _ _) Hti); auto).
      apply (sp_exec_ids o F (CAddChild (l_pk t) x) _ W); auto. intros i [<-|[]]; auto. }
    assert (Egt : forall n, (fun y => sorted_after o (l_data r) (ndata y)) n = gt_of o (ndata x) n) by (intros n; rewrite Er2; auto).
    destruct (created_at o F H0 x (l_pk t) P K1 K2 _ W W0 Hti Hx Ad Egt) as [NI Cr].
    assert (NI1 : ~ inside H (nid x) (l_pk t) P) by (apply insideb_false; rewrite <- (same_inside H0 H) by auto; apply insideb_false; auto).
    destruct (move_ok cfg max2 db1 H r t (Some p) P S1 Hr Ht1 EP) as [[C _]|[_ Mo]]; [rewrite Er1 in C; contradiction|].
    rewrite Er1 in Mo. destruct Mo as [(db2 & r2 & G & E2 & _ & _ & S2 & Sk & Hc)|[[E2 C]|[E2 C]]]; rewrite E2; cbn [bind].
    + left. exists db2, G. eexists. split; [reflexivity|]. split; [exact S2|]. split; [exact Cr|]. split.
      * eapply same_trans; [|exact Sk]. apply same_move; auto.
        -- apply (same_ids _ _ (same_sym _ _ Sk1)). rewrite <- Er1. apply (stores_ids _ _ _ _ S1 Hr).
        -- apply (same_ids _ _ (same_sym _ _ Sk1)). apply (stores_ids _ _ _ _ S1 Ht1).
      * intros [Ca1 Ca2]. rewrite <- (Hc1 Ca1). apply Hc. rewrite Er2. exact (Ca2 db1 r eq_refl).
    + right. right. exists db1, r. split; auto. left. auto.
    + right. right. exists db1, r. split; auto. right. auto.
  - destruct (C30_add_root_partial cfg max2 db F x S Hx) as [(db' & r & G & S' & L1 & L2 & E & _ & _ & A & Sp & SG & Sk & Hc)|[[E C]|[E C]]]; rewrite E; cbn [bind].
    + left. exists db', G, S'. split; auto. split; auto. split; [|split; auto]. exists None, L1, L2. split; auto. split; [reflexivity|].
      intros _. exact Sp.
    + right. left. auto.
    + right. right. auto.
Qed.
End LT.

(** ** Examples *)
Section Examples.
Definition vl (z : Z) : fields := [Some z].
Arguments vl _%Z_scope.

(** A tree sorted by the first column, ascending: 1(2, 3, 4), 5(6). *)
Definition up : ordering := [(0, false)].
Definition up_calls : list call :=
  [CAddRoot (nd 5 50); CAddRoot (nd 1 10); CAddChild 1 (nd 4 40); CAddChild 1 (nd 2 20); CAddChild 1 (nd 3 30); CAddChild 5 (nd 6 35)].
Definition up_F : forest node :=
  Cons (nd 1 10) (Cons (nd 2 20) Nil (Cons (nd 3 30) Nil (Cons (nd 4 40) Nil Nil))) (Cons (nd 5 50) (Cons (nd 6 35) Nil Nil) Nil).

Lemma up_run : run (sp_exec up) Nil up_calls = (up_F, up_calls).
Proof. vm_compute. reflexivity. Qed.
Lemma up_new : NoDup (flat_map new_ids up_calls).
Proof. apply nodup_b. vm_compute. reflexivity. Qed.
Lemma up_values : Forall (call_values up) up_calls.
Proof. repeat constructor; cbn; auto; intros i d [E|[]]; injection E as <- <-; discriminate. Qed.
Lemma up_has z : has_values up (vl z).
Proof. intros i b [E|[]]. injection E as <- <-. discriminate. Qed.
Lemma so_has z : has_values so (vl z).
Proof. intros i b [E|[]]. injection E as <- <-. discriminate. Qed.

Definition u10 : MPModel.mp_cfg := MPModel.mkCfg 10 2 40 up.
Definition up_mp : MPModel.mp_db := Eval vm_compute in fst (run (MPHist.mp_exec u10) PropsMP.mp_empty up_calls).
Definition up_ns : NSModel.ns_db := Eval vm_compute in fst (run (NSHist.ns_exec up) PropsNS.ns_empty up_calls).
Definition up_al : ALModel.al_table := Eval vm_compute in fst (run (ALHist.al_exec up) [] up_calls).

Lemma up_mp_stores : MPInv.stores u10 (MPModel.db_rows up_mp) up_F /\ ordered up up_F.
Proof.
  assert (H := MPRoom.mp_history_room u10 (PropsMP.le_b 2 10 eq_refl) (PropsMP.le_b 1 2 eq_refl) up_calls
    (PropsMP.lt_b 7 100 eq_refl) (PropsMP.le_b 12 40 eq_refl) up_new (fun _ => up_values)).
  fold PropsMP.mp_empty in H.
  assert (E : fst (run (MPHist.mp_exec u10) PropsMP.mp_empty up_calls) = up_mp) by (vm_compute; reflexivity).
  destruct (run (MPHist.mp_exec u10) PropsMP.mp_empty up_calls) as [d c]. cbn in E. subst d.
  change (MPModel.order_by u10) with up in H. rewrite up_run in H. apply H.
Qed.
Lemma up_ns_stores : NSInv.stores (NSModel.ns_rows up_ns) up_F.
Proof.
  assert (H := NSHist.ns_history up up_calls up_new). fold PropsNS.ns_empty in H.
  assert (E : fst (run (NSHist.ns_exec up) PropsNS.ns_empty up_calls) = up_ns) by (vm_compute; reflexivity).
  destruct (run (NSHist.ns_exec up) PropsNS.ns_empty up_calls) as [d c]. cbn in E. subst d. rewrite up_run in H. apply H.
Qed.
Lemma up_al_stores : ALInv.stores up up_al up_F.
Proof.
  assert (H := ALHist.al_history up up_calls up_new (fun _ => up_values)).
  assert (E : fst (run (ALHist.al_exec up) [] up_calls) = up_al) by (vm_compute; reflexivity).
  destruct (run (ALHist.al_exec up) [] up_calls) as [d c]. cbn in E. subst d. rewrite up_run in H. apply H.
Qed.

(** The edits of the examples: another value with the place left as it is shown; below
    another parent; a root. *)
Example C42_calls_example : shown true 4 up_F = mkWhere (Some 1) "sorted-child" /\
  calls_move up 4 up_F (mkWhere (Some 1) "sorted-child") (vl 15) /\
  ~ calls_move up 4 up_F (mkWhere (Some 1) "sorted-child") (vl 40) /\
  calls_move up 2 up_F (mkWhere (Some 5) "sorted-child") (vl 20) /\
  ~ calls_move so 1 so_F (mkWhere (Some 6) "sorted-child") (vl 1) /\
  calls_move so 1 so_F (mkWhere None "sorted-sibling") (vl 1) /\ (forall c, In c up -> snd c = false).
Proof.
  split; [reflexivity|]. split; [right; exists 0; split; [left; auto|discriminate]|].
  split; [intros [H|(i & [E|[]] & H)]; [|injection E as <-]; apply H; reflexivity|].
  split; [left; discriminate|]. split; [intros [H|(i & [E|[]] & H)]; [|discriminate E]; apply H; reflexivity|].
  split; [left; discriminate|]. intros c [<-|[]]. reflexivity.
Qed.

Section MP.
Import MPModel MPInv PropsMP.
Example C42_mp_edit_sorted_example : MPMoveOk.py_agrees u10 /\ stores u10 (db_rows up_mp) up_F /\ ordered up up_F /\ roomy_by u10 2 (db_rows up_mp) /\
  In (row up_mp 4) (db_rows up_mp) /\ ~ descends up_F 2 5 /\ prepare_pos_move true (Some "sorted-child") = Ok SortedChild /\
  (exists db', mp_form_edit u10 up_mp (row up_mp 4) (vl 15) (Some (row up_mp 1)) "sorted-child" = Ok db' /\
     map m_pk (get_tree (db_rows db') None None) = [1; 4; 2; 3; 5; 6]) /\
  (exists db', mp_form_edit u10 up_mp (row up_mp 2) (vl 36) (Some (row up_mp 5)) "sorted-child" = Ok db' /\
     map m_pk (get_tree (db_rows db') None None) = [1; 3; 4; 5; 6; 2]) /\
  (exists db', mp_form_edit u10 up_mp (row up_mp 1) (vl 60) None "sorted-child" = Ok db' /\
     map m_pk (get_tree (db_rows db') None None) = [5; 6; 1; 2; 3; 4]) /\
  (exists db', mp_form_edit u10 up_mp (row up_mp 3) (vl 20) None "sorted-sibling" = Ok db' /\
     map m_pk (get_tree (db_rows db') None None) = [1; 2; 4; 3; 5; 6]).
Proof.
  split; [intros p p' H; exact H|]. split; [apply up_mp_stores|]. split; [apply up_mp_stores|].
  split; [intros r Hr; cbn in Hr; decompose [or] Hr; subst; try contradiction; apply Nat.ltb_lt; vm_compute; reflexivity|].
  split; [vm_compute; tauto|]. split; [intros (l & E & H); vm_compute in E; injection E as <-; destruct H|]. split; [reflexivity|].
  split; [|split; [|split]]; eexists; repeat split; vm_compute; reflexivity.
Qed.
End MP.

Section NS.
Import NSModel NSInv PropsNS.
Example C42_ns_edit_sorted_example : stores (ns_rows up_ns) up_F /\ In (row up_ns 4) (ns_rows up_ns) /\
  (exists db', ns_form_edit up up_ns (row up_ns 4) (vl 15) (Some (row up_ns 1)) "sorted-child" = Ok db' /\
     map n_pk (get_tree (ns_rows db') None None) = [1; 4; 2; 3; 5; 6]) /\
  (exists db', ns_form_edit up up_ns (row up_ns 2) (vl 36) (Some (row up_ns 5)) "sorted-child" = Ok db' /\
     map n_pk (get_tree (ns_rows db') None None) = [1; 3; 4; 5; 6; 2]) /\
  (exists db', ns_form_edit up up_ns (row up_ns 1) (vl 60) None "sorted-child" = Ok db' /\
     map n_pk (get_tree (ns_rows db') None None) = [5; 6; 1; 2; 3; 4]).
Proof.
  split; [apply up_ns_stores|]. split; [vm_compute; tauto|].
  split; [|split]; eexists; repeat split; vm_compute; reflexivity.
Qed.
End NS.

Section AL.
Import ALModel ALInv PropsAL.
(** The last edit changes the value of a column that descends: the form does not move the
    node and yet it is in its place. *)
Example C42_al_edit_sorted_example : stores up up_al up_F /\ In (row up_al 4) up_al /\ stores so so_t so_F /\ In (row so_t 1) so_t /\
  (exists t', al_form_edit up up_al (row up_al 4) (vl 15) (Some (row up_al 1)) "sorted-child" = Ok t' /\
     tree_pks up t' = Ok [1; 4; 2; 3; 5; 6]) /\
  (exists t', al_form_edit up up_al (row up_al 3) (vl 20) None "sorted-sibling" = Ok t' /\
     tree_pks up t' = Ok [1; 2; 4; 3; 5; 6]) /\
  (exists t', al_form_edit so so_t (row so_t 1) (vl 1) (Some (row so_t 6)) "sorted-child" = Ok t' /\
     tree_pks so t' = Ok [2; 6; 3; 1; 4; 5]).
Proof.
  split; [apply up_al_stores|]. split; [vm_compute; tauto|]. split; [apply so_stores|]. split; [vm_compute; tauto|].
  split; [|split]; eexists; repeat split; vm_compute; reflexivity.
Qed.
End AL.

Section LT.
Import LTModel LTInv PropsLT.
Example C42_lt_create_sorted_example : stores cs (lt_rows so_db) so_F /\ ~ In 11 (ids so_F) /\ In (row so_db 3) (lt_rows so_db) /\
  prepare_pos_move true (Some "sorted-sibling") = Ok SortedSibling /\
  (exists db', lt_form_create cs so_db (mkNew 11 (vl 8)) (Some (row so_db 3)) "sorted-sibling" = Ok db' /\ pks db' = [2; 6; 1; 4; 5; 11; 3]) /\
  (exists db', lt_form_create cs so_db (mkNew 11 (vl 6)) (Some (row so_db 1)) "sorted-child" = Ok db' /\ pks db' = [2; 6; 1; 4; 5; 11; 3]) /\
  (exists db', lt_form_create cs so_db (mkNew 11 (vl 18)) None "sorted-child" = Ok db' /\ pks db' = [2; 11; 6; 1; 4; 5; 3]).
Proof.
  split; [apply so_stores|]. split; [vm_compute; intuition congruence|]. split; [vm_compute; tauto|]. split; [reflexivity|].
  split; [|split]; eexists; repeat split; vm_compute; reflexivity.
Qed.

Example C42_lt_edit_sorted_example : stores cs (lt_rows so_db) so_F /\ ordered so so_F /\ In (row so_db 1) (lt_rows so_db) /\
  (exists db', lt_form_edit cs so_db (row so_db 1) (vl 17) None "sorted-child" = Ok db' /\ pks db' = [2; 1; 4; 5; 6; 3]) /\
  (exists db', lt_form_edit cs so_db (row so_db 5) (vl 12) (Some (row so_db 1)) "sorted-sibling" = Ok db' /\ pks db' = [2; 6; 5; 1; 4; 3]) /\
  (exists db', lt_form_edit cs so_db (row so_db 1) (vl 1) (Some (row so_db 6)) "sorted-child" = Ok db' /\ pks db' = [2; 6; 1; 4; 5; 3]).
Proof.
  split; [apply so_stores|]. split; [apply PropsMP.so_stores|]. split; [vm_compute; tauto|].
  split; [|split]; eexists; repeat split; vm_compute; reflexivity.
Qed.
End LT.
End Examples.

Print Assumptions C42_mp_edit_sorted.
Print Assumptions C42_mp_kept_sorted.
Print Assumptions C42_mp_ascending.
Print Assumptions C42_ns_edit_sorted.
Print Assumptions C42_ns_kept_sorted.
Print Assumptions C42_ns_ascending.
Print Assumptions C42_al_edit_sorted.
Print Assumptions C42_lt_edit_sorted_partial.
Print Assumptions C42_lt_kept_sorted.
Print Assumptions C42_lt_create_sorted_partial.
