(** Theorems about MoveNodeForm, forms.py (C42). *)
From Coq Require Import String List Arith Lia Bool ZArith Sorted Permutation.
From Verif Require Import Prelude Forest NumConv SpecFacts SpecSane SpecKids CommonModel Order History Fixture FormModel FormSpec FormFacts.
From Verif Require MPModel MPStep MPInv MPAdd MPMoveOk MPReads MPHist MPRoom PropsMP.
From Verif Require NSModel NSInv NSAdd NSMoveOk NSReads NSHist PropsNS FormNS.
From Verif Require ALModel ALInv ALReads ALAnswers ALOk ALHist PropsAL.
From Verif Require LTModel LTInv LTReads LTAdd LTMove PropsLT SpecPerm.
Import ListNotations.
Local Open Scope string_scope.
Local Open Scope list_scope.
Local Open Scope nat_scope.

(** ** The values that a form shows for a node *)

(** "Position" and "Relative to": after the sibling before the node, or first below its
    parent; in a sorted tree below its parent. *)
Definition shown (sorted : bool) (n : nat) (F : forest node) : where_to :=
  let up := match parent_of n F with Some q => q | None => None end in
  if sorted then mkWhere up "sorted-child"
  else match prev_of n (siblings_of n F) with
       | Some p => mkWhere (Some (nid p)) "right"
       | None => mkWhere up "first-child"
       end.

Lemma shown_initial F n sorted q b (root : bool) : parent_of n F = Some q ->
  (sorted = false -> b = option_map nid (prev_of n (siblings_of n F))) ->
  (root = true <-> q = None) -> initial_of sorted q b root = shown sorted n F.
Proof.
  intros Ep Eb Er. unfold initial_of, shown. rewrite Ep. destruct sorted; auto. rewrite Eb by auto.
  destruct (prev_of n (siblings_of n F)); cbn; auto. destruct root; auto. destruct q; auto. destruct Er as [Er _]. discriminate Er; auto.
Qed.

(** The place that is shown is the place where the node is: moving it there, which the form
    does not even do, would leave the forest as it is. *)
Theorem C42_shown n F gt : wf_ids F -> In n (ids F) ->
  match shown false n F with
  | mkWhere (Some t) p => exists P, prepare_pos_move false (Some p) = Ok P /\ In t (ids F) /\ ~ inside F n t P /\ sp_move n t P gt F = F
  | mkWhere None _ => exists a L, kid_list None F = Some (a :: L) /\ nid a = n
  end.
Proof.
  intros W Hn. assert (H := initial_place n F gt W Hn). unfold sp_initial, shown in *.
  destruct (prev_of n (siblings_of n F)) as [p|].
  - exists Right. split; [reflexivity|exact H].
  - destruct (parent_of n F) as [[t|]|]; auto. exists FirstChild. split; [reflexivity|exact H].
Qed.

(** The two added fields are read as a reference node and a position; a position that can
    be chosen is always valid. *)
Theorem C42_positions sorted p : In p (form_positions sorted) -> exists P, prepare_pos_move sorted (Some p) = Ok P.
Proof. destruct sorted; cbn; intros H; decompose [or] H; subst; try contradiction; eexists; reflexivity. Qed.

Lemma value_eqb_refl v : value_eqb v v = true.
Proof. destruct v; cbn; auto. apply Z.eqb_refl. Qed.
Lemma ref_eqb_iff a b : ref_eqb a b = true <-> a = b.
Proof. destruct a, b; cbn; rewrite ?Nat.eqb_eq; split; try congruence. Qed.

(** Without node_order_by the node moves if and only if one of the two values was changed. *)
Lemma changed_iff init sent d d' : tree_changed [] init sent d d' = false <-> sent = init.
Proof.
  unfold tree_changed. cbn [existsb]. rewrite orb_false_r, orb_false_iff, !negb_false_iff, ref_eqb_iff, String.eqb_eq.
  destruct init, sent; cbn. split; [intros [-> ->]; auto|intros E; injection E as -> ->; auto].
Qed.

Lemma root_parent F n q l : wf_ids F -> In n (ids F) -> ancestors_of n F = Some l -> parent_of n F = Some q ->
  (l = [] <-> q = None).
Proof.
  intros W Hn El Ep. destruct (anc_parent n F W Hn) as (A & Ea & [[E ->]|(b & B & E & _ & _ & ->)]);
    rewrite El in Ea; injection Ea as ->; rewrite Ep in E; injection E as ->; split; auto; try discriminate.
  intros H. destruct B; discriminate.
Qed.

(** The nodes offered as reference for a node of the tree: not the node and nothing below it. *)
Definition offered (n : nat) (F : forest node) : list node :=
  filter (fun a => negb (nid a =? n) && negb (existsb (fun i => nid a =? i) match children_of n F with Some k => ids k | None => [] end))
    (preorder F).

Lemma offered_iff n F a : In a (offered n F) <-> In a (preorder F) /\ nid a <> n /\ ~ descends F n (nid a).
Proof.
  unfold offered, descends. rewrite filter_In, andb_true_iff, !negb_true_iff, Nat.eqb_neq.
  assert (X : existsb (fun i => nid a =? i) match children_of n F with Some k => ids k | None => [] end = false <->
    ~ (exists l, children_of n F = Some l /\ In (nid a) (ids l))); [|tauto].
  rewrite <- not_true_iff_false, existsb_exists. destruct (children_of n F) as [k|]; split; intros H C; apply H.
  - destruct C as (l & E & Hl). injection E as <-. exists (nid a). rewrite Nat.eqb_refl. auto.
  - destruct C as (i & Hi & E). apply Nat.eqb_eq in E. subst i. eauto.
  - destruct C as (l & E & _). discriminate.
  - destruct C as (i & [] & _).
Qed.

Lemma offered_read {R} (pk : R -> nat) (nodes : R -> node) (all ds : list R) n F k a :
  (forall r, nid (nodes r) = pk r) -> map nodes all = preorder F -> map nodes ds = a :: preorder k -> nid a = n ->
  children_of n F = Some k ->
  map nodes (filter (fun r => negb (existsb (fun x => pk x =? pk r) ds)) all) = offered n F.
Proof.
  intros Hp Ea Ed En Ek. unfold offered. rewrite Ek, <- Ea. clear Ea. induction all as [|r all IH]; auto.
  cbn [filter map]. rewrite Hp.
  replace (negb (existsb (fun x => pk x =? pk r) ds)) with
    (negb (pk r =? n) && negb (existsb (fun i => pk r =? i) (ids k))).
  - destruct (_ && _); cbn [map]; congruence.
  - rewrite <- negb_orb. f_equal. unfold ids. rewrite <- En.
    transitivity (existsb (fun i => pk r =? i) (map nid (a :: preorder k))); [auto|].
    rewrite <- Ed, map_map. clear - Hp. induction ds as [|x ds IH']; auto. cbn. rewrite IH', Hp. f_equal. apply Nat.eqb_sym.
Qed.

(** ** Materialized paths *)
Section MP.
Import MPModel MPStep MPInv MPAdd MPMoveOk MPReads MPHist MPRoom PropsMP.
Variable cfg : mp_cfg.
Hypothesis radix2 : 2 <= radix cfg.
Hypothesis step1 : 1 <= steplen cfg.
Notation stores := (stores cfg).
Notation o := (order_by cfg).

Theorem C42_mp_initial t F n : stores t F -> In n t -> mp_initial cfg t n = Ok (shown (is_sorted cfg) (m_pk n) F).
Proof.
  intros S Hn. destruct (C07_parent cfg radix2 step1 t F n S Hn) as (q & E & Ep & _).
  destruct (C07_siblings cfg radix2 step1 t F n S Hn) as (_ & _ & _ & _ & Eb).
  destruct (C07_ancestors cfg radix2 step1 t F n S Hn) as (l & El & _ & _ & Er & _).
  unfold mp_initial. rewrite E. cbn [bind]. f_equal. apply shown_initial; auto.
  - intros _. rewrite <- Eb. destruct (get_prev_sibling cfg t n); auto.
  - rewrite Er. apply (root_parent F (m_pk n)); auto; [apply (stores_wf _ _ _ S)|apply (stores_ids _ _ _ _ S Hn)].
Qed.

Theorem C42_mp_choices t F : stores t F ->
  map node_of (mp_choices t None) = preorder F /\
  forall n, In n t -> map node_of (mp_choices t (Some n)) = offered (m_pk n) F.
Proof.
  intros S. assert (E := C07_tree cfg radix2 step1 t F None S). split; auto. intros n Hn.
  destruct (C07_descendants cfg radix2 step1 t F n None S Hn) as (k & Ek & _ & Ed & _).
  unfold mp_choices. apply (offered_read m_pk node_of _ _ (m_pk n) F k (node_of n)); auto.
Qed.

(** Leaving "Position" and "Relative to" as they are saves the other values and leaves the
    tree alone. *)
Theorem C42_mp_unchanged db F n d ref p : stores (db_rows db) F -> In n (db_rows db) -> o = [] ->
  mkWhere (option_map m_pk ref) p = shown false (m_pk n) F ->
  exists db', mp_form_edit cfg db n d ref p = Ok db' /\ stores (db_rows db') (set_data (m_pk n) d F) /\
    map m_path (db_rows db') = map m_path (db_rows db).
Proof.
  intros S Hn Eo Ew. unfold mp_form_edit. rewrite (C42_mp_initial _ F n S Hn). cbn [bind].
  rewrite Eo, Ew. assert (Es : is_sorted cfg = false) by (unfold is_sorted; rewrite Eo; auto). rewrite Es.
  rewrite (proj2 (changed_iff _ _ _ _) eq_refl).
  destruct (mp_save_ok cfg step1 db F n d S Hn) as (db1 & E & S1 & _ & _ & Ep & _). exists db1. auto.
Qed.

(** The last steps are small enough for a move inside one list of siblings. *)
Definition roomy_by (k : nat) (t : mp_table) : Prop :=
  forall r, In r t -> undigits (radix cfg) (last_step cfg (m_path r)) + k < radix cfg ^ steplen cfg.

Lemma first_root_in t r : get_first_root_node t = Some r -> In r t.
Proof.
  unfold get_first_root_node, get_root_nodes, order_path. intros H. apply hd_in in H. apply (Permutation_in _ (isort_perm _ _)) in H.
  apply filter_In in H. apply H.
Qed.

(** Other values: the node moves to the chosen place. *)
Theorem C42_mp_edit db F n d ref p P : stores (db_rows db) F -> In n (db_rows db) -> o = [] ->
  (forall t, ref = Some t -> In t (db_rows db) /\ m_pk t <> m_pk n /\ ~ descends F (m_pk n) (m_pk t)) ->
  prepare_pos_move false (Some p) = Ok P -> mkWhere (option_map m_pk ref) p <> shown false (m_pk n) F ->
  roomy_by 2 (db_rows db) ->
  (exists db' G, mp_form_edit cfg db n d ref p = Ok db' /\ stores (db_rows db') G /\
     relocated (set_data (m_pk n) d F) G (m_pk n) (option_map m_pk ref) P (gt_of o d)) \/
  (mp_form_edit cfg db n d ref p = Err PathOverflow /\ exists q, step_taken cfg (db_rows db) q).
Proof.
  intros S Hn Eo Href EP Ew Rm. unfold mp_form_edit. rewrite (C42_mp_initial _ F n S Hn). cbn [bind].
  rewrite Eo. assert (Es : is_sorted cfg = false) by (unfold is_sorted; rewrite Eo; auto). rewrite Es.
  destruct (tree_changed [] _ _ _ _) eqn:Ec; [|apply changed_iff in Ec; congruence]. clear Ec.
  destruct (mp_save_ok cfg step1 db F n d S Hn) as (db1 & E & S1 & Hn1 & Hr & Epa & _).
  assert (W1 := stores_wf _ _ _ S1). assert (Hi := stores_ids _ _ _ _ S1 Hn1). change (m_pk (mp_set_data n d)) with (m_pk n) in Hi.
  assert (Inp : forall r, In r (db_rows db1) -> exists r', In r' (db_rows db) /\ m_path r' = m_path r).
  { intros r Hr1. apply (in_map m_path) in Hr1. rewrite Epa in Hr1. apply in_map_iff in Hr1. destruct Hr1 as (r' & ? & ?). eauto. }
  assert (Tr : forall q, temp_room cfg (db_rows db1) q (m_path n)).
  { intros q _ r Hr1 _. destruct (Inp r Hr1) as (r' & H1 & <-). apply Rm. auto. }
  assert (Tk : forall q, step_taken cfg (db_rows db1) q -> step_taken cfg (db_rows db) q).
  { intros q (r & H1 & H2). destruct (Inp r H1) as (r' & H3 & E3). exists r'. rewrite E3. auto. }
  assert (Mv : forall t pp Q, In t (db_rows db1) -> prepare_pos_move false (Some pp) = Ok Q ->
    ~ inside (set_data (m_pk n) d F) (m_pk n) (m_pk t) Q ->
    (exists db' n' t', move cfg db1 (mp_set_data n d) t (Some pp) = Ok (db', n', t') /\
       stores (db_rows db') (sp_move (m_pk n) (m_pk t) Q (gt_of [] d) (set_data (m_pk n) d F))) \/
    (move cfg db1 (mp_set_data n d) t (Some pp) = Err PathOverflow /\ exists q, step_taken cfg (db_rows db) q)).
  { intros t pp Q Ht EQ NI.
    destruct (move_ok cfg radix2 step1 db1 _ (mp_set_data n d) t (Some pp) Q S1 Hn1 Ht) as [[H _]|[_ [(db' & n' & t' & E1 & S' & _)|[E1 T]]]].
    - rewrite Es. auto.
    - intros ->. destruct (prepare_move_unsorted _ _ EQ). congruence.
    - intros ->. destruct (prepare_move_unsorted _ _ EQ). congruence.
    - apply Tr.
    - contradiction.
    - left. exists db', n', t'. split; auto. cbn beta in S'. rewrite Eo in S'. exact S'.
    - right. split; auto. eauto. }
  unfold mp_form_move. rewrite E. cbn [bind]. destruct ref as [t|].
  - destruct (Href t eq_refl) as (Ht & Nt & Dt).
    assert (Ht1 : In t (db_rows db1)) by auto.
    destruct (relocated_at (set_data (m_pk n) d F) (m_pk n) (m_pk t) P (gt_of [] d) W1 Hi (stores_ids _ _ _ _ S1 Ht1)) as [NI Rl]; auto.
    { rewrite set_data_descends. auto. }
    destruct (Mv t p P Ht1 EP NI) as [(db' & n' & t' & E1 & S')|[E1 H]]; rewrite E1; cbn [bind].
    + left. eauto.
    + right. auto.
  - destruct (C07_roots cfg radix2 step1 _ _ S1) as (_ & E1 & _).
    destruct (get_first_root_node (db_rows db1)) as [r|] eqn:Er; cbn [MPModel.opt_res bind].
    2:{ exfalso. destruct (set_data (m_pk n) d F); [destruct Hi|discriminate]. }
    cbn in E1. assert (Hr1 : In r (db_rows db1)) by (apply first_root_in; auto).
    destruct (roots (set_data (m_pk n) d F)) as [|a L] eqn:Ea; [discriminate|]. injection E1 as E1.
    destruct (relocated_root (set_data (m_pk n) d F) (m_pk n) a L (gt_of [] d) P (gt_of [] d) W1 Hi) as (_ & NI & Rl).
    { unfold kid_list. cbn. congruence. }
    rewrite <- E1 in NI, Rl. change (nid (node_of r)) with (m_pk r) in *.
    unfold root_pos. rewrite Es.
    destruct (Mv r "first-sibling" FirstSibling Hr1 eq_refl NI) as [(db' & n' & t' & E2 & S')|[E2 H]]; rewrite E2; cbn [bind].
    + left. eauto.
    + right. auto.
Qed.

Lemma ordered_kids F i d : o <> [] -> ordered o F -> has_values o d -> splits (gt_of o d) (kl i F).
Proof.
  intros No O V. destruct (O No) as [S1 S2]. unfold kl, kid_list. destruct (kids_of i F) as [l|] eqn:El; cbn.
  - destruct (sorted_kids o _ F l S1 S2 El). apply sorted_splits; auto; [apply roots_values|apply roots_sorted]; auto.
  - apply sorted_splits; auto; constructor.
Qed.

Lemma sib_base t F r n : stores t F -> In r t -> In n t -> get_parent_path cfg (m_path r) = get_parent_path cfg (m_path n) ->
  parent_of (m_pk r) F = parent_of (m_pk n) F.
Proof.
  intros S Hr Hn E. apply (C07_predicates cfg radix2 step1 t F r n S Hr Hn). destruct S as (f & L & _ & _ & _).
  assert (D : forall x, In x t -> length (m_path x) = m_depth x * steplen cfg /\ 1 <= m_depth x).
  { intros x Hx. destruct (lay_in cfg _ _ _ L Hx) as ([y a] & Hy & ->).
    destruct (depth_spec cfg radix2 step1 f (y, a) (proj1 L) Hy). auto. }
  destruct (D r Hr) as [L1 D1], (D n Hn) as [L2 D2]. unfold get_parent_path in E.
  assert (El := f_equal (@List.length nat) E). rewrite !firstn_length in El.
  assert (Ed : m_depth r = m_depth n) by nia. unfold is_sibling_of. rewrite Ed, Nat.eqb_refl. cbn [negb].
  destruct (Nat.eqb_spec (m_depth n) 1); auto. apply ppre_iff. unfold get_basepath.
  exists (skipn (length (m_path n) - steplen cfg) (m_path n)).
  rewrite <- (firstn_skipn (length (m_path n) - steplen cfg) (m_path n)) at 1. f_equal. rewrite <- E. f_equal. nia.
Qed.

(** Creating: the new node is at the chosen place. *)
Theorem C42_mp_create db F x ref p P : stores (db_rows db) F -> ordered o F -> (o <> [] -> has_values o (new_data x)) ->
  ~ In (new_pk x) (ids F) -> new_nc x = 0 -> (forall t, ref = Some t -> In t (db_rows db)) ->
  prepare_pos_move (is_sorted cfg) (Some p) = Ok P -> (is_child_pos P = true -> roomy_by 3 (db_rows db)) ->
  (exists db' G, mp_form_create cfg db x ref p = Ok db' /\ stores (db_rows db') G /\
     created o F G (new_node x) (option_map m_pk ref) P) \/
  (mp_form_create cfg db x ref p = Err PathOverflow /\
     match ref with
     | None => step_taken cfg (db_rows db) []
     | Some t => step_taken cfg (db_rows db) (m_path t) \/ (m_nc t = 0 /\ maxlen cfg < length (m_path t) + steplen cfg) \/
         exists db1 r1 t1, add_child cfg db t x = Ok (db1, r1, t1) /\ step_taken cfg (db_rows db1) (new_base cfg P t)
     end).
Proof.
  intros S O V Hx Nc Href EP Rm. assert (W := stores_wf _ _ _ S).
  assert (Es : sorts o = is_sorted cfg) by reflexivity. unfold mp_form_create. destruct ref as [t|].
  - specialize (Href t eq_refl). assert (Hti := stores_ids _ _ _ _ S Href).
    destruct (add_child_full cfg radix2 step1 db F t x S Hti Hx Nc) as (here & Hh & Eh & H).
    { intros Hs. rewrite <- Es in Hs. apply sorts_true in Hs. assert (X := ordered_kids F (Some (m_pk t)) (new_data x) Hs O (V Hs)).
      unfold kl, kid_list in X. destruct (kids_of (Some (m_pk t)) F); auto. }
    assert (here = t) as ->.
    { destruct S as (f & L & _ & <- & W'). apply (pk_inj cfg _ _ _ _ L W' Hh Href Eh). }
    destruct H as [(db1 & r & t1 & E1 & Hr & Er & Ed & Ht1 & S1)|[E1 H]]; rewrite E1; cbn [bind].
    2:{ right. split; auto. tauto. }
    destruct (Ht1 Href) as [Et1 Hin1]. clear Ht1.
    assert (Hx' : ~ In (nid (new_node x)) (ids F)) by auto.
    destruct (add_child_sane (opt_gt cfg x) (m_pk t) (new_node x) F W Hti Hx') as (K1 & K2 & Ad & _).
    set (H := sp_add_child (opt_gt cfg x) (m_pk t) (new_node x) F) in *.
    change (stores (db_rows db1) H) in S1. assert (W1 := stores_wf _ _ _ S1).
    assert (O1 : ordered o H).
    { apply (sp_call_ordered o F (CAddChild (m_pk t) (new_node x)) W O). auto. }
    assert (Egt : forall n, (fun n => sorted_after o (m_data r) (ndata n)) n = gt_of o (ndata (new_node x)) n)
      by (intros n; unfold gt_of; cbn; rewrite Ed; auto).
    destruct (created_at o F H (new_node x) (m_pk t) P K1 K2 _ W W1 Hti Hx' Ad Egt) as [NI Cr].
    assert (Ept : m_pk t1 = m_pk t) by (rewrite Et1; auto). assert (Epa : m_path t1 = m_path t) by (rewrite Et1; auto).
    assert (Enb : new_base cfg P t1 = new_base cfg P t) by (unfold new_base; rewrite Epa; auto).
    rewrite <- Ept in NI, Cr. change (nid (new_node x)) with (new_pk x) in *. rewrite <- Er in NI, Cr.
    assert (Cho : o = [] \/ o <> []) by (destruct o; [auto|right; discriminate]).
    destruct (move_ok cfg radix2 step1 db1 H r t1 (Some p) P S1 Hr Hin1 EP) as [[C _]|[_ [(db2 & r2 & t2 & E2 & S2 & _)|[E2 T]]]].
    + intros ->. destruct Cho as [Eo|No].
      * exfalso. rewrite <- Es, Eo in EP. destruct (prepare_move_unsorted _ _ EP). congruence.
      * destruct (O1 No) as [Q1 Q2]. destruct (siblings_sorted o (m_pk t1) H Q1 Q2). apply sorted_splits; auto. rewrite Ed. auto.
    + intros ->. destruct Cho as [Eo|No].
      * exfalso. rewrite <- Es, Eo in EP. destruct (prepare_move_unsorted _ _ EP). congruence.
      * assert (X := ordered_kids H (Some (m_pk t1)) (m_data r) No O1). unfold kl, kid_list in X.
        destruct (kids_of (Some (m_pk t1)) H); apply X; rewrite Ed; auto.
    + rewrite Enb. intros Eb s Hs _. destruct (is_child_pos P) eqn:EC.
      * specialize (Rm eq_refl). assert (R3 := Rm t Href). unfold roomy_by in Rm.
        assert (T0 : tab cfg (radix cfg ^ steplen cfg - 4) (db_rows db)).
        { apply (stores_tab cfg radix2 step1 _ _ F S). intros y Hy. specialize (Rm y Hy).
          destruct S as (f & L & _ & _ & _). destruct (lay_in cfg _ _ _ L Hy) as ([yp a] & Hy' & ->).
          destruct (depth_spec cfg radix2 step1 f (yp, a) (proj1 L) Hy') as [Dl D1]. split.
          - exists (m_depth (mkrow cfg (yp, a)) - 1). revert Dl D1. generalize (m_depth (mkrow cfg (yp, a))). cbn [fst]. intros k Dl D1.
            change (length yp = (1 + (k - 1)) * steplen cfg). rewrite Dl. f_equal. lia.
          - unfold sv. lia. }
        assert (Lo := add_child_low cfg radix2 step1 _ _ _ _ _ _ _ T0 ltac:(unfold maxstep; lia) E1).
        destruct (Lo s Hs) as [_ Ls]. unfold sv in Ls. lia.
      * exfalso. unfold new_base in Eb. rewrite EC, <- Epa in Eb.
        assert (X := sib_base _ H r t1 S1 Hr Hin1 Eb). rewrite Er, Ept in X.
        assert (Pr : parent_of (new_pk x) H = Some (Some (m_pk t))).
        { apply (kl_parent (Some (m_pk t)) H (new_node x) W1). rewrite (kl_kid_list _ _ _ (ad_after _ _ _ _ _ _ Ad)). apply in_elt. }
        rewrite X in Pr. assert (Hth : In (m_pk t) (ids H)) by (rewrite <- Ept; apply (stores_ids _ _ _ _ S1 Hin1)).
        destruct (children_some (m_pk t) H Hth) as (c & Ec).
        destruct (parent_not_below H (m_pk t) (m_pk t) c W1 Pr Hth Ec). congruence.
    + contradiction.
    + rewrite E2. cbn [bind]. left. eexists _, _. split; [reflexivity|]. split; [exact S2|]. cbn [option_map]. rewrite <- Ept. exact Cr.
    + rewrite E2. cbn [bind]. right. split; auto. right. right. exists db1, r, t1. rewrite <- Enb. auto.
  - destruct (C04_add_root cfg radix2 step1 db F x S Hx Nc) as [(db' & r & G & L1 & L2 & E & _ & _ & S' & A & Sp)|[E T]].
    { intros No. apply (ordered_kids F None (new_data x) No O (V No)). }
    + left. exists db', G. rewrite E. cbn [bind]. split; auto. split; auto. exists None, L1, L2. split; auto. split; [reflexivity|].
      intros _. rewrite Es. exact Sp.
    + right. rewrite E. cbn [bind]. auto.
Qed.
End MP.

(** ** Nested sets *)
Section NS.
Import NSModel NSInv NSAdd NSMoveOk NSReads NSHist PropsNS FormNS.
Variable o : ordering.

Theorem C42_ns_initial t F n : stores t F -> In n t -> ns_initial o t n = Ok (shown (is_sorted o) (n_pk n) F).
Proof.
  intros S Hn. destruct (C20_parent t F n S Hn) as (q & E & Ep & _).
  destruct (C20_siblings t F n S Hn) as (_ & _ & _ & _ & b & _ & _ & _ & _ & _ & _ & _ & _ & Eb & Eb').
  destruct (C20_ancestors t F n S Hn) as (l & El & _ & _ & Er & _).
  unfold ns_initial. rewrite E, Eb. cbn [bind].
  assert (R : is_root n = true <-> option_map n_pk q = None).
  { rewrite Er. apply (root_parent F (n_pk n)); auto; [apply (stores_wf _ _ S)|apply (stores_ids _ _ _ S Hn)]. }
  destruct (is_sorted o) eqn:Es; cbn [bind]; f_equal; apply shown_initial; auto; try discriminate.
  intros _. rewrite <- Eb'. destruct b; auto.
Qed.

Theorem C42_ns_choices t F : stores t F ->
  map row_node (ns_choices t None) = preorder F /\
  forall n, In n t -> map row_node (ns_choices t (Some n)) = offered (n_pk n) F.
Proof.
  intros S. destruct (C20_tree t F None S) as [E _]. split; auto. intros n Hn.
  destruct (C20_descendants t F n None S Hn) as (k & Ek & H). cbv zeta in H. destruct H as (_ & Ed & _).
  unfold ns_choices. apply (offered_read n_pk row_node _ _ (n_pk n) F k (row_node n)); auto.
Qed.

Theorem C42_ns_unchanged db F n d ref p : stores (ns_rows db) F -> In n (ns_rows db) -> o = [] ->
  mkWhere (option_map n_pk ref) p = shown false (n_pk n) F ->
  exists db', ns_form_edit o db n d ref p = Ok db' /\ stores (ns_rows db') (set_data (n_pk n) d F).
Proof.
  intros S Hn Eo Ew. unfold ns_form_edit. rewrite (C42_ns_initial _ F n S Hn). cbn [bind].
  rewrite Ew, Eo, (proj2 (changed_iff _ _ _ _) eq_refl). eexists. split; [reflexivity|]. apply ns_save_ok; auto.
Qed.

Theorem C42_ns_edit db F n d ref p P : stores (ns_rows db) F -> In n (ns_rows db) -> o = [] ->
  (forall t, ref = Some t -> In t (ns_rows db) /\ n_pk t <> n_pk n /\ ~ descends F (n_pk n) (n_pk t)) ->
  prepare_pos_move false (Some p) = Ok P -> mkWhere (option_map n_pk ref) p <> shown false (n_pk n) F ->
  exists db' G, ns_form_edit o db n d ref p = Ok db' /\ stores (ns_rows db') G /\
    relocated (set_data (n_pk n) d F) G (n_pk n) (option_map n_pk ref) P (gt_of o d).
Proof.
  intros S Hn Eo Href EP Ew. unfold ns_form_edit. rewrite (C42_ns_initial _ F n S Hn). cbn [bind].
  assert (Es : is_sorted o = false) by (rewrite Eo; auto). rewrite Es.
  destruct (tree_changed o _ _ _ _) eqn:Ec; [|rewrite Eo in Ec; apply changed_iff in Ec; congruence]. clear Ec.
  destruct (ns_save_ok db F n d S Hn) as (S1 & Hn1 & Hr).
  assert (W1 := stores_wf _ _ S1). assert (Hi := stores_ids _ _ _ S1 Hn1). change (n_pk (ns_set_data n d)) with (n_pk n) in Hi.
  unfold ns_form_move. set (db1 := save_row db (ns_set_data n d)) in *.
  assert (Mv : forall t pp Q, In t (ns_rows db1) -> prepare_pos_move false (Some pp) = Ok Q ->
    ~ inside (set_data (n_pk n) d F) (n_pk n) (n_pk t) Q ->
    exists db' n' t', move o db1 (fresh (ns_set_data n d)) (fresh t) (Some pp) = Ok (db', n', t') /\
       stores (ns_rows db') (sp_move (n_pk n) (n_pk t) Q (gt_of o d) (set_data (n_pk n) d F))).
  { intros t pp Q Ht EQ NI. rewrite <- Es in EQ.
    destruct (move_ok o db1 _ (fresh (ns_set_data n d)) (fresh t) (Some pp) Q S1 (good_fresh _ _ Hn1) (good_fresh _ _ Ht) EQ)
      as [[H _]|[_ (db' & n' & t' & E1 & S' & _)]].
    - contradiction.
    - exists db', n', t'. auto. }
  destruct ref as [t|].
  - destruct (Href t eq_refl) as (Ht & Nt & Dt). assert (Ht1 : In t (ns_rows db1)) by auto.
    destruct (relocated_at (set_data (n_pk n) d F) (n_pk n) (n_pk t) P (gt_of o d) W1 Hi (stores_ids _ _ _ S1 Ht1)) as [NI Rl]; auto.
    { rewrite set_data_descends. auto. }
    destruct (Mv t p P Ht1 EP NI) as (db' & n' & t' & E1 & S'). rewrite E1. cbn [bind]. eauto.
  - destruct (C20_roots _ _ S1) as (_ & Hin & E1 & _).
    destruct (get_first_root_node (ns_rows db1)) as [r|] eqn:Er; cbn [MPModel.opt_res bind].
    2:{ exfalso. destruct (set_data (n_pk n) d F); [destruct Hi|discriminate]. }
    cbn in E1. assert (Hr1 : In r (ns_rows db1)) by (apply Hin; unfold get_first_root_node in Er; destruct (get_root_nodes (ns_rows db1)); [discriminate|injection Er as ->; left; auto]).
    destruct (roots (set_data (n_pk n) d F)) as [|a L] eqn:Ea; [discriminate|]. injection E1 as E1.
    destruct (relocated_root (set_data (n_pk n) d F) (n_pk n) a L (gt_of o d) P (gt_of o d) W1 Hi) as (_ & NI & Rl).
    { unfold kid_list. cbn. congruence. }
    rewrite <- E1 in NI, Rl. change (nid (row_node r)) with (n_pk r) in *.
    unfold root_pos. rewrite Es.
    destruct (Mv r "first-sibling" FirstSibling Hr1 eq_refl NI) as (db' & n' & t' & E2 & S'). rewrite E2. cbn [bind]. eauto.
Qed.

(** Reference nodes and positions for which the object that add_child leaves behind is good
    enough. *)
Definition usable (F : forest node) (t : nat) (P : pos) : Prop :=
  is_child_pos P = true \/ children_of t F = Some Nil \/ parent_of t F = Some None \/ next_of t (siblings_of t F) <> None.

Theorem C42_ns_create_partial db F x ref p P : stores (ns_rows db) F -> ~ In (nid x) (ids F) ->
  (forall t, ref = Some t -> In t (ns_rows db) /\ usable F (n_pk t) P) ->
  prepare_pos_move (is_sorted o) (Some p) = Ok P ->
  exists db' G, ns_form_create o db x ref p = Ok db' /\ stores (ns_rows db') G /\
    created o F G x (option_map n_pk ref) P.
Proof.
  intros S Hx Href EP. assert (W := stores_wf _ _ S). unfold ns_form_create. destruct ref as [t|].
  - destruct (Href t eq_refl) as [Ht Us]. assert (Hti := stores_ids _ _ _ S Ht).
    destruct (add_child_ok o db F t x S Hti Hx) as (db1 & r & t1 & E1 & Hr & Er & S1 & _).
    destruct (add_child_row o db F t x db1 r t1 S Ht Hx E1) as [Hy Et1]. rewrite E1. cbn [bind].
    set (y := set_rgt t (n_rgt t + 2)) in *.
    destruct (add_child_sane (gt_opt o (ndata x)) (n_pk t) x F W Hti Hx) as (K1 & K2 & Ad & _).
    set (H := sp_add_child (gt_opt o (ndata x)) (n_pk t) x F) in *. assert (W1 := stores_wf _ _ S1).
    assert (Epr : n_pk r = nid x) by (rewrite <- Er; auto).
    assert (Egt : forall n, (fun n => sorted_after o (n_data r) (ndata n)) n = gt_of o (ndata x) n) by (intros n; rewrite <- Er; auto).
    destruct (created_at o F H x (n_pk t) P K1 K2 _ W W1 Hti Hx Ad Egt) as [NI Cr].
    assert (Pr : parent_of (nid x) H = Some (Some (n_pk t))).
    { apply (kl_parent (Some (n_pk t)) H x W1). rewrite (kl_kid_list _ _ _ (ad_after _ _ _ _ _ _ Ad)). apply in_elt. }
    destruct (C20_parent _ H r S1 Hr) as (q & Eq & Eq' & Hq). rewrite Epr, Pr in Eq'. injection Eq' as Eq'.
    destruct q as [z|]; [|discriminate]. injection Eq' as Eq'.
    assert (z = y) as ->.
    { destruct S1 as (_ & ts & I & Pm). apply (row_eq (ns_rows db1) H ts W1 I Pm); auto. }
    unfold get_parent in Eq. cbn [o_row fresh o_up] in Eq. destruct (is_root r); [discriminate|].
    destruct (query_parent (ns_rows db1) r) as [z|e] eqn:Qp; [|discriminate]. cbn [bind] in Eq. injection Eq as ->.
    assert (Good : good_obj (ns_rows db1) (mkObj r (if is_leaf t then Some t1 else None))).
    { split; auto. cbn [o_row o_up]. rewrite Et1. destruct (is_leaf t); intros z Ez; [|discriminate]. injection Ez as <-. auto. }
    set (obj := mkObj r _) in *.
    assert (Mv : exists db2, table (move o db1 obj (fresh y) (Some p)) = Ok db2 /\
      stores (ns_rows db2) (sp_move (nid x) (n_pk t) P (fun n => sorted_after o (n_data r) (ndata n)) H)).
    { destruct (move_ok o db1 H obj (fresh y) (Some p) P S1 Good (good_fresh _ _ Hy) EP) as [[C _]|[_ (db2 & n' & t' & E2 & S2 & _)]].
      - exfalso. apply NI. cbn [o_row obj] in C. rewrite Epr in C. exact C.
      - exists db2. rewrite E2. split; auto. cbn [o_row obj] in S2. rewrite Epr in S2. exact S2. }
    destruct Mv as (db2 & E2 & S2). exists db2. eexists. split; [|split; [exact S2|exact Cr]].
    change (table (move o db1 obj (fresh t1) (Some p)) = Ok db2). rewrite <- E2.
    rewrite Et1. destruct (is_leaf t) eqn:Lf; [auto|].
    replace (set_rgt t (n_rgt t + 4)%Z) with (set_rgt y (n_rgt y + 2)%Z) by (unfold y, set_rgt; cbn; f_equal; lia).
    destruct (C20_children _ H y S1 Hy) as (ky & Eky & _ & _ & Lky & _).
    assert (Ly : is_leaf y = false).
    { apply not_true_iff_false. rewrite Lky. change (n_pk y) with (n_pk t) in Eky.
      rewrite (ad_after _ _ _ _ _ _ Ad) in Eky. injection Eky as <-. destruct K1; discriminate. }
    destruct (is_child_pos P) eqn:EC; [apply (stale_child_move o db1 H obj y (Some p) P); auto|].
    assert (Ntx : n_pk t <> nid x) by (intros C; apply Hx; rewrite <- C; auto).
    assert (D1 : is_descendant_of y r = false).
    { apply not_true_iff_false. intros C. destruct (C20_predicates _ H y r S1 Hy Hr) as (_ & _ & D).
      apply D in C. apply NI. left. rewrite Epr in C. exact C. }
    apply (stale_sibling_move o db1 obj y (Some p) P); auto.
    + destruct (is_root y) eqn:Ry; auto. right. apply (stale_parent (ns_rows db1) H y S1 Hy Ry). change (n_pk y) with (n_pk t).
      assert (Up : parent_of (n_pk t) H = parent_of (n_pk t) F) by (apply (added_parent F H (Some (n_pk t)) x K1 K2); auto).
      destruct Us as [C|[C|[C|C]]].
      * congruence.
      * exfalso. assert (X := ad_before _ _ _ _ _ _ Ad). unfold kid_list in X. cbn [kids_of] in X. rewrite C in X.
        destruct (C20_children _ F t S Ht) as (kt & Ekt & _ & _ & Lkt & _). unfold kid_list in Ekt. cbn [kids_of] in Ekt.
        rewrite C in Ekt. injection Ekt as <-. destruct Lkt as [_ Lkt]. rewrite Lkt in Lf; [discriminate|auto].
      * exfalso. destruct (C20_ancestors _ H y S1 Hy) as (l & El & _ & _ & R & _).
        change (n_pk y) with (n_pk t) in El. rewrite Ry in R.
        assert (l = []) by (apply (root_parent H (n_pk t) None l W1); auto; [apply (stores_ids _ _ _ S1 Hy)|congruence]).
        apply R in H0. discriminate.
      * destruct (kl_ex F (n_pk t) W Hti) as (q & a & Ha & Ea & Eq0).
        rewrite (siblings_kl _ H q) by congruence. rewrite (siblings_kl _ F q) in C by congruence.
        assert (q <> Some (n_pk t)).
        { intros ->. destruct (children_some (n_pk t) F Hti) as (c & Ec). destruct (parent_not_below F (n_pk t) (n_pk t) c W Eq0 Hti Ec). congruence. }
        unfold kl in *. rewrite (ad_rest _ _ _ _ _ _ Ad); auto. intros ->. apply Hx. apply (kl_up _ _ _ Ha).
    + cbn [o_row obj]. rewrite Epr. auto.
    + apply not_true_iff_false. intros C. cbn [o_row obj] in C. apply not_true_iff_false in D1. apply D1.
      unfold is_descendant_of in *. cbn [set_rgt n_tree n_lft n_rgt] in *. rewrite !andb_true_iff, ?Z.ltb_lt in *.
      unfold y in *. cbn [set_rgt n_tree n_lft n_rgt] in *. intuition lia.
  - destruct (C17_add_root o db F x S Hx) as (db' & r & G & L1 & L2 & E & _ & _ & S' & A & Sp).
    exists db', G. rewrite E. cbn [bind]. split; auto. split; auto. exists None, L1, L2. split; auto. split; [reflexivity|].
    intros _. exact Sp.
Qed.
End NS.

(** ** Adjacency lists *)
Section AL.
Import ALModel ALInv ALReads ALAnswers ALOk ALHist PropsAL.
Variable o : ordering.

(** In a sorted tree the previous sibling is not asked for. *)
Theorem C42_al_initial t F n : stores o t F -> In n t -> al_initial o t n = Ok (shown (is_sorted o) (a_pk n) F).
Proof.
  intros S Hn. destruct (C27_parent o t F n S Hn) as (q & E & Ep & _).
  destruct (C27_ancestors o t F n S Hn) as (_ & l & _ & El & _ & _ & _ & Er & _).
  assert (R : is_root n = true <-> option_map a_pk q = None).
  { rewrite Er. apply (root_parent F (a_pk n)); auto; [apply (stores_wf _ _ _ S)|apply (stores_ids _ _ _ _ S Hn)]. }
  unfold al_initial. rewrite E. cbn [bind]. destruct (is_sorted o) eqn:Es; cbn [bind].
  - f_equal. apply shown_initial; auto. discriminate.
  - assert (Eo : o = []) by (destruct o; [auto|discriminate]). rewrite Eo in *.
    destruct (C27_neighbours_partial t F n S Hn) as (_ & b & _ & _ & Eb & Eb'). rewrite Eb. cbn [bind]. f_equal. apply shown_initial; auto.
    intros _. rewrite <- Eb'. destruct b; auto.
Qed.

Lemma level_nodes L d G : map with_level L = map at_level (preorder_d d G) -> map obj_node L = preorder G.
Proof.
  intros E. assert (X : map snd (map with_level L) = map snd (map at_level (preorder_d d G))) by congruence.
  rewrite !map_map in X. cbn [with_level at_level snd] in X. change (map (fun x => obj_node x) L) with (map obj_node L) in X.
  rewrite X. clear. revert d. induction G as [|a c IHc r IHr]; intros d; auto. cbn. rewrite map_app, IHc, IHr. auto.
Qed.

Theorem C42_al_choices t F : stores o t F -> o = [] \/ strict o F ->
  (exists L, al_choices o t None = Ok L /\ map obj_node L = preorder F) /\
  forall n, In n t -> exists L, al_choices o t (Some n) = Ok L /\ map obj_node L = offered (a_pk n) F.
Proof.
  intros S H. assert (A := C27_reads o t F S H). destruct (an_tree _ _ _ A None) as (L & E & EL & _).
  apply level_nodes in EL. cbn [option_map levels prune_opt] in *. unfold al_choices. rewrite E. cbn [bind]. split; [eauto|].
  intros n Hn. destruct (an_descendants _ _ _ A (fresh n) None Hn) as (k & B & D & Ek & _ & _ & ED & _ & (c & _ & Ed) & _); [intros ? ? C; discriminate C|].
  apply level_nodes in ED. cbn [option_map levels prune_opt] in *. rewrite Ed. cbn [bind]. eexists. split; [reflexivity|].
  apply (offered_read (fun x => a_pk (o_row x)) obj_node _ _ (a_pk n) F k (obj_node (fresh n))); auto.
  cbn [map]. rewrite ED. auto.
Qed.

Theorem C42_al_unchanged t F n d ref p : stores o t F -> In n t -> o = [] ->
  mkWhere (option_map a_pk ref) p = shown false (a_pk n) F ->
  exists t', al_form_edit o t n d ref p = Ok t' /\ stores o t' (set_data (a_pk n) d F).
Proof.
  intros S Hn Eo Ew. unfold al_form_edit. rewrite (C42_al_initial _ F n S Hn). cbn [bind].
  rewrite Eo in *. rewrite Ew, (proj2 (changed_iff _ _ _ _) eq_refl). eexists. split; [reflexivity|]. apply al_save_ok; auto.
Qed.

Theorem C42_al_edit t F n d ref p P : stores o t F -> In n t -> o = [] ->
  (forall r, ref = Some r -> In r t /\ a_pk r <> a_pk n /\ ~ descends F (a_pk n) (a_pk r)) ->
  prepare_pos_move false (Some p) = Ok P -> mkWhere (option_map a_pk ref) p <> shown false (a_pk n) F ->
  exists t' G, al_form_edit o t n d ref p = Ok t' /\ stores o t' G /\
    relocated (set_data (a_pk n) d F) G (a_pk n) (option_map a_pk ref) P (gt_of o d).
Proof.
  intros S Hn Eo Href EP Ew. unfold al_form_edit. rewrite (C42_al_initial _ F n S Hn). cbn [bind].
  assert (Es : is_sorted o = false) by (rewrite Eo; auto). rewrite Es.
  destruct (tree_changed o _ _ _ _) eqn:Ec; [|rewrite Eo in Ec; apply changed_iff in Ec; congruence]. clear Ec.
  assert (Sv : stores o (save_row t (al_set_data n d)) (set_data (a_pk n) d F) /\
    In (al_set_data n d) (save_row t (al_set_data n d)) /\
    (forall r, In r t -> a_pk r <> a_pk n -> In r (save_row t (al_set_data n d)))) by (rewrite Eo in *; apply al_save_ok; auto).
  destruct Sv as (S1 & Hn1 & Hr).
  assert (W1 := stores_wf _ _ _ S1). assert (Hi := stores_ids _ _ _ _ S1 Hn1). change (a_pk (al_set_data n d)) with (a_pk n) in Hi.
  unfold al_form_move. set (t1 := save_row t (al_set_data n d)) in *.
  assert (Mv : forall r pp Q, In r t1 -> prepare_pos_move false (Some pp) = Ok Q ->
    ~ inside (set_data (a_pk n) d F) (a_pk n) (a_pk r) Q ->
    exists t' n', move o t1 (fresh (al_set_data n d)) r (Some pp) = Ok (t', n') /\
       stores o t' (sp_move (a_pk n) (a_pk r) Q (gt_of o d) (set_data (a_pk n) d F))).
  { intros r pp Q Ht EQ NI. rewrite <- Es in EQ.
    destruct (move_ok o t1 _ (fresh (al_set_data n d)) r (Some pp) Q S1 Hn1 Logic.I Ht EQ) as [[H _]|[_ (t' & n' & E1 & S' & _)]].
    - contradiction.
    - exists t', n'. auto. }
  destruct ref as [r|].
  - destruct (Href r eq_refl) as (Ht & Nt & Dt). assert (Ht1 : In r t1) by auto.
    destruct (relocated_at (set_data (a_pk n) d F) (a_pk n) (a_pk r) P (gt_of o d) W1 Hi (stores_ids _ _ _ _ S1 Ht1)) as [NI Rl]; auto.
    { rewrite set_data_descends. auto. }
    destruct (Mv r p P Ht1 EP NI) as (t' & n' & E1 & S'). rewrite E1. cbn [bind]. eauto.
  - destruct (an_roots _ _ _ (C27_reads o t1 _ S1 (or_introl Eo))) as (Ero & E1 & _).
    destruct (get_first_root_node o t1) as [r|] eqn:Er; cbn [MPModel.opt_res bind].
    2:{ exfalso. destruct (set_data (a_pk n) d F); [destruct Hi|discriminate]. }
    cbn in E1. assert (Hr1 : In r t1).
    { unfold get_first_root_node in Er. destruct (get_root_nodes o t1) as [|r0 L0] eqn:E0; [discriminate|]. injection Er as ->.
      assert (X : In r (get_root_nodes o t1)) by (rewrite E0; left; auto). unfold get_root_nodes, kids in X.
      apply (Permutation_in _ (isort_perm _ _)) in X. apply filter_In in X. apply X. }
    destruct (roots (set_data (a_pk n) d F)) as [|a L] eqn:Ea; [discriminate|]. injection E1 as E1.
    destruct (relocated_root (set_data (a_pk n) d F) (a_pk n) a L (gt_of o d) P (gt_of o d) W1 Hi) as (_ & NI & Rl).
    { unfold kid_list. cbn. congruence. }
    rewrite <- E1 in NI, Rl. change (nid (row_node r)) with (a_pk r) in *.
    unfold root_pos. rewrite Es.
    destruct (Mv r "first-sibling" FirstSibling Hr1 eq_refl NI) as (t' & n' & E2 & S'). rewrite E2. cbn [bind]. eauto.
Qed.

Theorem C42_al_create t F x ref p P : stores o t F -> ~ In (nid x) (ids F) -> (o <> [] -> has_values o (ndata x)) ->
  (forall r, ref = Some r -> In r t) -> prepare_pos_move (is_sorted o) (Some p) = Ok P ->
  exists t' G, al_form_create o t x ref p = Ok t' /\ stores o t' G /\ created o F G x (option_map a_pk ref) P.
Proof.
  intros S Hx V Href EP. assert (W := stores_wf _ _ _ S). unfold al_form_create. destruct ref as [r|].
  - assert (Hr := Href r eq_refl). assert (Hri := stores_ids _ _ _ _ S Hr).
    destruct (add_child_ok o t F (fresh r) x S Hri Hx V) as (t1 & obj & E1 & S1 & Hob & Eob & Edp).
    destruct (C24_al_add_child o t F (fresh r) x t1 obj S Hr Hx E1) as [Hr1 _]. cbn [o_row fresh] in *. rewrite E1. cbn [bind].
    destruct (add_child_sane (gt_opt o (ndata x)) (a_pk r) x F W Hri Hx) as (K1 & K2 & Ad & _).
    set (H := sp_add_child (gt_opt o (ndata x)) (a_pk r) x F) in *. assert (W1 := stores_wf _ _ _ S1).
    assert (Epr : a_pk (o_row obj) = nid x) by (rewrite <- Eob; auto).
    assert (Egt : forall n, gt_of o (a_data (o_row obj)) n = gt_of o (ndata x) n) by (intros n; rewrite <- Eob; auto).
    destruct (created_at o F H x (a_pk r) P K1 K2 _ W W1 Hri Hx Ad Egt) as [NI Cr].
    destruct (move_ok o t1 H obj r (Some p) P S1 Hob) as [[C _]|[_ (t2 & n' & E2 & S2 & _)]]; auto.
    + unfold cache_pos. rewrite Edp. cbn. auto.
    + rewrite Epr in C. contradiction.
    + rewrite E2. cbn [bind]. rewrite Epr in S2. eauto.
  - destruct (C25_add_root o t F x S Hx V) as (t' & r & G & L1 & L2 & E & _ & _ & S' & A & Sp).
    exists t', G. rewrite E. cbn [bind]. split; auto. split; auto. exists None, L1, L2. split; auto. split; [reflexivity|].
    intros _. exact Sp.
Qed.
End AL.

(** ** Ltree *)
Section LT.
Import LTModel LTInv LTReads LTAdd LTMove PropsLT SpecPerm.
Variable cfg : lt_cfg.
Hypothesis max2 : 2 <= label_max cfg.
Notation stores := (stores cfg).
Notation o := (lt_order cfg).

Theorem C42_lt_initial t F n : stores t F -> In n t -> lt_initial cfg t n = Ok (shown (is_sorted cfg) (l_pk n) F).
Proof.
  intros S Hn. destruct (C32_parent cfg t F n S Hn) as (q & E & Ep & _).
  destruct (C32_siblings cfg t F n S Hn) as (_ & _ & Eb & _).
  destruct (C32_ancestors cfg t F n S Hn) as (l & El & _ & _ & Er & _).
  unfold lt_initial. rewrite E. cbn [bind]. f_equal. apply shown_initial; auto.
  - intros _. rewrite <- Eb. destruct (get_prev_sibling t n); auto.
  - rewrite Er. apply (root_parent F (l_pk n)); auto; [apply (stores_wf _ _ _ S)|apply (stores_ids _ _ _ _ S Hn)].
Qed.

Theorem C42_lt_choices t F : stores t F ->
  map node_of (lt_choices t None) = preorder F /\
  forall n, In n t -> map node_of (lt_choices t (Some n)) = offered (l_pk n) F.
Proof.
  intros S. assert (E := C32_tree cfg t F None S). split; auto. intros n Hn.
  destruct (C32_descendants cfg t F n None S Hn) as (k & Ek & _ & Ed & _); [discriminate|].
  unfold lt_choices. apply (offered_read l_pk node_of _ _ (l_pk n) F k (node_of n)); auto.
Qed.

Theorem C42_lt_unchanged db F n d ref p : stores (lt_rows db) F -> In n (lt_rows db) -> o = [] ->
  mkWhere (option_map l_pk ref) p = shown false (l_pk n) F ->
  exists db', lt_form_edit cfg db n d ref p = Ok db' /\ stores (lt_rows db') (set_data (l_pk n) d F).
Proof.
  intros S Hn Eo Ew. unfold lt_form_edit. rewrite (C42_lt_initial _ F n S Hn). cbn [bind].
  rewrite Eo, Ew. assert (Es : is_sorted cfg = false) by (unfold is_sorted; rewrite Eo; auto). rewrite Es.
  rewrite (proj2 (changed_iff _ _ _ _) eq_refl).
  destruct (lt_save_ok cfg db F n d S Hn) as (db1 & E & S1 & _). exists db1. auto.
Qed.

(** Up to the order among the new siblings the node is at the chosen place; with enough
    room between the labels (the condition [calm_pos] of C31), exactly. *)
Theorem C42_lt_edit_partial db F n d ref p P : stores (lt_rows db) F -> In n (lt_rows db) -> o = [] ->
  (forall t, ref = Some t -> In t (lt_rows db) /\ l_pk t <> l_pk n /\ ~ descends F (l_pk n) (l_pk t)) ->
  prepare_pos_move false (Some p) = Ok P -> mkWhere (option_map l_pk ref) p <> shown false (l_pk n) F ->
  exists db1 t Q, lt_save cfg db (lt_set_data n d) = Ok db1 /\ In t (lt_rows db1) /\
    (ref = Some t /\ Q = P \/ ref = None /\ get_first_root_node (lt_rows db1) = Some t /\ Q = FirstSibling) /\
  ((exists db' G S, lt_form_edit cfg db n d ref p = Ok db' /\ stores (lt_rows db') G /\
     relocated (set_data (l_pk n) d F) S (l_pk n) (option_map l_pk ref) P (gt_of o d) /\ same_kids S G /\
     (calm_pos cfg (lt_rows db1) t Q d -> G = S)) \/
   no_label cfg (lt_rows db1) (if is_child_pos Q then l_path t else parent_path (l_path t)) (lt_form_edit cfg db n d ref p)).
Proof.
  intros S Hn Eo Href EP Ew. unfold lt_form_edit. rewrite (C42_lt_initial _ F n S Hn). cbn [bind].
  rewrite Eo. assert (Es : is_sorted cfg = false) by (unfold is_sorted; rewrite Eo; auto). rewrite Es.
  destruct (tree_changed [] _ _ _ _) eqn:Ec; [|apply changed_iff in Ec; congruence]. clear Ec.
  destruct (lt_save_ok cfg db F n d S Hn) as (db1 & E & S1 & Hn1 & Hr).
  assert (W1 := stores_wf _ _ _ S1). assert (Hi := stores_ids _ _ _ _ S1 Hn1). change (l_pk (lt_set_data n d)) with (l_pk n) in Hi.
  assert (Mv : forall t pp Q, In t (lt_rows db1) -> prepare_pos_move false (Some pp) = Ok Q ->
    ~ inside (set_data (l_pk n) d F) (l_pk n) (l_pk t) Q ->
    (exists db' n' G, move cfg db1 (lt_set_data n d) t (Some pp) = Ok (db', n') /\ stores (lt_rows db') G /\
       same_kids (sp_move (l_pk n) (l_pk t) Q (gt_of [] d) (set_data (l_pk n) d F)) G /\
       (calm_pos cfg (lt_rows db1) t Q d -> G = sp_move (l_pk n) (l_pk t) Q (gt_of [] d) (set_data (l_pk n) d F))) \/
    no_label cfg (lt_rows db1) (if is_child_pos Q then l_path t else parent_path (l_path t)) (move cfg db1 (lt_set_data n d) t (Some pp))).
  { intros t pp Q Ht EQ NI. rewrite <- Es in EQ.
    destruct (move_ok cfg max2 db1 _ (lt_set_data n d) t (Some pp) Q S1 Hn1 Ht EQ) as [[H _]|[_ Mo]]; [contradiction|].
    destruct Mo as [(db' & r & G & E1 & H1 & H2 & H3 & H4 & H5)|[H|H]]; [left|right; left; auto|right; right; auto].
    exists db', r, G. cbn [l_data lt_set_data] in *. rewrite Eo in H4, H5. auto. }
  exists db1. unfold lt_form_move. rewrite E. cbn [bind]. destruct ref as [t|].
  - destruct (Href t eq_refl) as (Ht & Nt & Dt). assert (Ht1 : In t (lt_rows db1)) by auto.
    destruct (relocated_at (set_data (l_pk n) d F) (l_pk n) (l_pk t) P (gt_of [] d) W1 Hi (stores_ids _ _ _ _ S1 Ht1)) as [NI Rl]; auto.
    { rewrite set_data_descends. auto. }
    exists t, P. split; auto. split; auto. split; auto.
    destruct (Mv t p P Ht1 EP NI) as [(db' & n' & G & E1 & S' & Sk & Hc)|[[E1 H]|[E1 H]]]; rewrite E1; cbn [bind].
    + left. exists db', G. eexists. eauto 10.
    + right. left. auto.
    + right. right. auto.
  - assert (E0 := C32_roots cfg _ _ S1). assert (E1 : option_map node_of (get_first_root_node (lt_rows db1)) = hd_error (roots (set_data (l_pk n) d F))).
    { rewrite <- E0. unfold get_first_root_node. destruct (get_root_nodes (lt_rows db1)); auto. }
    destruct (get_first_root_node (lt_rows db1)) as [r|] eqn:Er; cbn [MPModel.opt_res bind].
    2:{ exfalso. destruct (set_data (l_pk n) d F); [destruct Hi|discriminate]. }
    cbn in E1. assert (Hr1 : In r (lt_rows db1)).
    { unfold get_first_root_node in Er. destruct (get_root_nodes (lt_rows db1)) as [|r0 L0] eqn:E2; [discriminate|]. injection Er as ->.
      assert (X : In r (get_root_nodes (lt_rows db1))) by (rewrite E2; left; auto). unfold get_root_nodes, order_path in X.
      apply (Permutation_in _ (isort_perm _ _)) in X. apply filter_In in X. apply X. }
    destruct (roots (set_data (l_pk n) d F)) as [|a L] eqn:Ea; [discriminate|]. injection E1 as E1.
    destruct (relocated_root (set_data (l_pk n) d F) (l_pk n) a L (gt_of [] d) P (gt_of [] d) W1 Hi) as (_ & NI & Rl).
    { unfold kid_list. cbn. congruence. }
    rewrite <- E1 in NI, Rl. change (nid (node_of r)) with (l_pk r) in *.
    exists r, FirstSibling. split; auto. split; auto. split; auto.
    unfold root_pos. rewrite Es.
    destruct (Mv r "first-sibling" FirstSibling Hr1 eq_refl NI) as [(db' & n' & G & E2 & S' & Sk & Hc)|[[E2 H]|[E2 H]]]; rewrite E2; cbn [bind].
    + left. exists db', G. eexists. eauto 10.
    + right. left. auto.
    + right. right. auto.
Qed.

(** In an unsorted tree add_child only inserts a row. *)
Lemma add_child_keeps db t x db1 r : is_sorted cfg = false -> add_child cfg db t (new_of x) = Ok (db1, r) ->
  forall y, In y (lt_rows db) -> l_pk y <> nid x -> In y (lt_rows db1).
Proof.
  intros Es E y Hy Ny. unfold add_child in E. destruct (get_by_pk _ _); [|discriminate]. cbn [bind] in E. rewrite Es in E. cbn [andb] in E.
  match type of E with context [@bind _ _ (@bind _ _ ?g _) _] => destruct g as [np|]; [|discriminate] end. cbn [bind] in E.
  destruct (save_row cfg (lt_rows db) _) as [t1|] eqn:Sv; [|discriminate]. cbn [bind] in E.
  unfold commit in E. destruct (unique_paths _); [|discriminate]. cbn [bind] in E. injection E as <- <-. cbn [lt_rows].
  unfold save_row in Sv. destruct (negb _); [discriminate|]. destruct (existsb _ _); injection Sv as <-; [|right; auto].
  apply in_map_iff. exists y. split; auto. cbn [l_pk new_of new_pk]. destruct (Nat.eqb_spec (l_pk y) (nid x)); [contradiction|auto].
Qed.

Theorem C42_lt_create_partial db F x ref p P : stores (lt_rows db) F -> o = [] -> ~ In (nid x) (ids F) ->
  (forall t, ref = Some t -> In t (lt_rows db)) -> prepare_pos_move false (Some p) = Ok P ->
  (exists db' G S, lt_form_create cfg db (new_of x) ref p = Ok db' /\ stores (lt_rows db') G /\
     created o F S x (option_map l_pk ref) P /\ same_kids S G /\
     (match ref with
      | None => calm_root cfg (lt_rows db) (ndata x)
      | Some t => forall db1 r, add_child cfg db t (new_of x) = Ok (db1, r) -> calm_pos cfg (lt_rows db1) t P (ndata x)
      end -> G = S)) \/
  match ref with
  | None => no_label cfg (lt_rows db) [] (lt_form_create cfg db (new_of x) ref p)
  | Some t => no_label cfg (lt_rows db) (l_path t) (lt_form_create cfg db (new_of x) ref p) \/
      exists db1 r, add_child cfg db t (new_of x) = Ok (db1, r) /\
        no_label cfg (lt_rows db1) (if is_child_pos P then l_path t else parent_path (l_path t)) (lt_form_create cfg db (new_of x) ref p)
  end.
Proof.
  intros S Eo Hx Href EP. assert (W := stores_wf _ _ _ S).
  assert (Es : is_sorted cfg = false) by (unfold is_sorted; rewrite Eo; auto). unfold lt_form_create. destruct ref as [t|].
  - assert (Ht := Href t eq_refl). assert (Hti := stores_ids _ _ _ _ S Ht).
    destruct (C30_add_child cfg max2 db F t x S Ht Hx Es) as [(db1 & r & H & L & E1 & Hr & Er & Ad & S1)|[[E1 C]|[E1 C]]]; rewrite E1; cbn [bind].
    2:{ right. left. left. auto. }
    2:{ right. left. right. auto. }
    assert (Ht1 : In t (lt_rows db1)) by (apply (add_child_keeps db t x db1 r Es E1); auto; intros C; apply Hx; rewrite <- C; auto).
    assert (W1 := stores_wf _ _ _ S1). assert (Epr : l_pk r = nid x) by (rewrite <- Er; auto).
    assert (Egt : forall n, (fun y => sorted_after o (l_data r) (ndata y)) n = gt_of o (ndata x) n) by (intros n; rewrite <- Er; auto).
    destruct (created_at o F H x (l_pk t) P L [] _ W W1 Hti Hx Ad Egt) as [NI Cr].
    assert (EP' := EP). rewrite <- Es in EP'.
    destruct (move_ok cfg max2 db1 H r t (Some p) P S1 Hr Ht1 EP') as [[C _]|[_ Mo]]; [rewrite Epr in C; contradiction|].
    rewrite Epr in Mo. destruct Mo as [(db2 & r2 & G & E2 & _ & _ & S2 & Sk & Hc)|[[E2 C]|[E2 C]]]; rewrite E2; cbn [bind].
    + left. exists db2, G. eexists. split; [reflexivity|]. split; [exact S2|]. split; [exact Cr|]. split; [exact Sk|].
      intros Ca. apply Hc. rewrite <- Er in Ca. exact (Ca db1 r eq_refl).
    + right. right. exists db1, r. split; auto. left. auto.
    + right. right. exists db1, r. split; auto. right. auto.
  - destruct (C30_add_root_partial cfg max2 db F x S Hx) as [(db' & r & G & S' & L1 & L2 & E & _ & _ & A & Sp & SG & Sk & Hc)|[[E C]|[E C]]]; rewrite E; cbn [bind].
    + left. exists db', G, S'. split; auto. split; auto. split; [|split; auto]. exists None, L1, L2. split; auto. split; [reflexivity|].
      intros _. exact Sp.
    + right. left. auto.
    + right. right. auto.
Qed.
End LT.

(** ** Examples *)
Section Examples.
Local Open Scope Z_scope.
Definition d1 : fields := [Some 1].

Section MP.
Import MPModel MPInv PropsMP.

(** The form of node 9 shows "right of 4", that of node 4 "first child of 2", that of node 7
    "first child" of no node. *)
Example C42_mp_edit_example : stores c10 (db_rows ex_db) ex_F /\ In (row ex_db 9) (db_rows ex_db) /\ In (row ex_db 4) (db_rows ex_db) /\
  mp_initial c10 (db_rows ex_db) (row ex_db 9) = Ok (mkWhere (Some 4%nat) "right") /\
  mp_initial c10 (db_rows ex_db) (row ex_db 4) = Ok (mkWhere (Some 2%nat) "first-child") /\
  mp_initial c10 (db_rows ex_db) (row ex_db 7) = Ok (mkWhere None "first-child") /\
  map m_pk (mp_choices (db_rows ex_db) (Some (row ex_db 4))) = [7; 1; 3; 5; 2; 9; 10]%nat /\
  roomy_by c10 2 (db_rows ex_db) /\
  (exists db', mp_form_edit c10 ex_db (row ex_db 9) d1 (Some (row ex_db 4)) "right" = Ok db' /\
     map m_pk (get_tree (db_rows db') None None) = [7; 1; 3; 5; 2; 4; 6; 9; 10]%nat /\ m_data (row db' 9) = d1) /\
  (exists db', mp_form_edit c10 ex_db (row ex_db 9) d1 (Some (row ex_db 5)) "left" = Ok db' /\
     map m_pk (get_tree (db_rows db') None None) = [7; 1; 3; 9; 10; 5; 2; 4; 6]%nat) /\
  (exists db', mp_form_edit c10 ex_db (row ex_db 9) d1 None "right" = Ok db' /\
     map m_pk (get_tree (db_rows db') None None) = [9; 10; 7; 1; 3; 5; 2; 4; 6]%nat).
Proof.
  split; [apply ex_stores|]. do 2 (split; [vm_compute; tauto|]). do 4 (split; [vm_compute; reflexivity|]).
  split; [intros r Hr; cbn in Hr; decompose [or] Hr; subst; try contradiction; apply Nat.ltb_lt; vm_compute; reflexivity|].
  split; [|split]; eexists; repeat split; vm_compute; reflexivity.
Qed.

Example C42_mp_create_example : ~ In 11%nat (ids ex_F) /\ In (row ex_db 9) (db_rows ex_db) /\ roomy_by c10 3 (db_rows ex_db) /\
  (exists db', mp_form_create c10 ex_db (mkNew 11 0 d1) (Some (row ex_db 9)) "left" = Ok db' /\
     map m_pk (get_tree (db_rows db') None None) = [7; 1; 3; 5; 2; 4; 6; 11; 9; 10]%nat) /\
  (exists db', mp_form_create c10 ex_db (mkNew 11 0 d1) (Some (row ex_db 9)) "first-child" = Ok db' /\
     map m_pk (get_tree (db_rows db') None None) = [7; 1; 3; 5; 2; 4; 6; 9; 11; 10]%nat) /\
  (exists db', mp_form_create s10 so_db (mkNew 11 0 [Some 8]) (Some (row so_db 3)) "sorted-sibling" = Ok db' /\
     map m_pk (get_tree (db_rows db') None None) = [2; 6; 1; 4; 5; 11; 3]%nat).
Proof.
  split; [vm_compute; intuition congruence|]. split; [vm_compute; tauto|].
  split; [intros r Hr; cbn in Hr; decompose [or] Hr; subst; try contradiction; apply Nat.ltb_lt; vm_compute; reflexivity|].
  split; [|split]; eexists; repeat split; vm_compute; reflexivity.
Qed.

(** A node that is edited in a tree with a descending order column stays where it was. *)
Theorem C42_sorted_edit_refuted : exists db n d, stores s10 (db_rows db) so_F /\ ordered so so_F /\ In n (db_rows db) /\ has_values so d /\
  exists db', mp_form_edit s10 db n d (Some (row db 6)) "sorted-child" = Ok db' /\
    mp_initial s10 (db_rows db) n = Ok (mkWhere (Some 6%nat) "sorted-child") /\
    map (fun r => (m_pk r, m_data r)) (get_children s10 (db_rows db') (row db' 6)) = [(1%nat, [Some 1]); (3%nat, [Some 5])].
Proof.
  exists so_db, (row so_db 1), d1. split; [apply so_stores|]. split; [apply so_stores|]. split; [vm_compute; tauto|].
  split; [intros i b [E|[]]; injection E as <- <-; discriminate|].
  eexists. repeat split; vm_compute; reflexivity.
Qed.
End MP.

Section NS.
Import NSModel NSInv PropsNS.

Example C42_ns_edit_example : stores (ns_rows ex_db) ex_F /\ In (row ex_db 9) (ns_rows ex_db) /\
  ns_initial [] (ns_rows ex_db) (row ex_db 9) = Ok (mkWhere (Some 4%nat) "right") /\
  ns_initial [] (ns_rows ex_db) (row ex_db 4) = Ok (mkWhere (Some 2%nat) "first-child") /\
  map n_pk (ns_choices (ns_rows ex_db) (Some (row ex_db 4))) = [7; 1; 3; 5; 2; 9; 10]%nat /\
  (exists db', ns_form_edit [] ex_db (row ex_db 9) d1 (Some (row ex_db 4)) "right" = Ok db' /\
     map n_pk (get_tree (ns_rows db') None None) = [7; 1; 3; 5; 2; 4; 6; 9; 10]%nat /\ n_data (row db' 9) = d1) /\
  (exists db', ns_form_edit [] ex_db (row ex_db 9) d1 (Some (row ex_db 5)) "left" = Ok db' /\
     map n_pk (get_tree (ns_rows db') None None) = [7; 1; 3; 9; 10; 5; 2; 4; 6]%nat) /\
  (exists db', ns_form_edit [] ex_db (row ex_db 9) d1 None "right" = Ok db' /\
     map n_pk (get_tree (ns_rows db') None None) = [9; 10; 7; 1; 3; 5; 2; 4; 6]%nat).
Proof.
  split; [apply ex_stores|]. split; [vm_compute; tauto|]. do 3 (split; [vm_compute; reflexivity|]).
  split; [|split]; eexists; repeat split; vm_compute; reflexivity.
Qed.

Example C42_ns_create_example : ~ In 11%nat (ids ex_F) /\ In (row ex_db 9) (ns_rows ex_db) /\ In (row ex_db 4) (ns_rows ex_db) /\
  usable ex_F 9 FirstChild /\ usable ex_F 4 Left /\ usable ex_F 2 Right /\ usable ex_F 6 Left /\ ~ usable ex_F 9 Left /\
  (exists db', ns_form_create [] ex_db (mkNode 11 d1) (Some (row ex_db 9)) "first-child" = Ok db' /\
     map n_pk (get_tree (ns_rows db') None None) = [7; 1; 3; 5; 2; 4; 6; 9; 11; 10]%nat) /\
  (exists db', ns_form_create [] ex_db (mkNode 11 d1) (Some (row ex_db 4)) "left" = Ok db' /\
     map n_pk (get_tree (ns_rows db') None None) = [7; 1; 3; 5; 2; 11; 4; 6; 9; 10]%nat) /\
  (exists db', ns_form_create [] ex_db (mkNode 11 d1) (Some (row ex_db 2)) "right" = Ok db' /\
     map n_pk (get_tree (ns_rows db') None None) = [7; 1; 3; 5; 2; 4; 6; 9; 10; 11]%nat).
Proof.
  split; [vm_compute; intuition congruence|]. do 2 (split; [vm_compute; tauto|]).
  split; [left; auto|]. split; [right; right; right; vm_compute; discriminate|]. split; [right; right; left; vm_compute; reflexivity|].
  split; [right; left; vm_compute; reflexivity|].
  split; [vm_compute; intuition congruence|].
  split; [|split]; eexists; repeat split; vm_compute; reflexivity.
Qed.

(** Creating a node left of a node with children that is the last child of a root fails,
    although node and position are among the choices; one level deeper the new node is put
    at a wrong place. *)
Theorem C42_ns_create_refuted : exists db F x t, stores (ns_rows db) F /\ ~ In (nid x) (ids F) /\ In t (ns_rows db) /\
  In t (ns_choices (ns_rows db) None) /\ In "left" (form_positions false) /\
  prepare_pos_move false (Some "left") = Ok Left /\ ns_form_create [] db x (Some t) "left" = Err IndexError.
Proof.
  exists ex_db, ex_F, (mkNode 11 d1), (row ex_db 9). split; [apply ex_stores|].
  split; [vm_compute; intuition congruence|]. split; [vm_compute; tauto|]. split; [vm_compute; tauto|]. split; [cbn; auto|].
  split; vm_compute; reflexivity.
Qed.
End NS.

Section AL.
Import ALModel ALInv PropsAL.

Example C42_al_edit_example : stores [] ex_t ex_F /\ In (row ex_t 9) ex_t /\
  al_initial [] ex_t (row ex_t 9) = Ok (mkWhere (Some 4%nat) "right") /\
  al_initial [] ex_t (row ex_t 4) = Ok (mkWhere (Some 2%nat) "first-child") /\
  (exists L, al_choices [] ex_t (Some (row ex_t 4)) = Ok L /\ map (fun x => a_pk (o_row x)) L = [7; 1; 3; 5; 2; 9; 10]%nat) /\
  (exists t', al_form_edit [] ex_t (row ex_t 9) d1 (Some (row ex_t 4)) "right" = Ok t' /\
     tree_pks [] t' = Ok [7; 1; 3; 5; 2; 4; 6; 9; 10]%nat /\ a_data (row t' 9) = d1) /\
  (exists t', al_form_edit [] ex_t (row ex_t 9) d1 (Some (row ex_t 5)) "left" = Ok t' /\
     tree_pks [] t' = Ok [7; 1; 3; 9; 10; 5; 2; 4; 6]%nat) /\
  (exists t', al_form_edit [] ex_t (row ex_t 9) d1 None "right" = Ok t' /\
     tree_pks [] t' = Ok [9; 10; 7; 1; 3; 5; 2; 4; 6]%nat).
Proof.
  split; [apply ex_stores|]. split; [vm_compute; tauto|]. do 2 (split; [vm_compute; reflexivity|]).
  split; [|split; [|split]]; eexists; repeat split; vm_compute; reflexivity.
Qed.

Example C42_al_create_example : ~ In 11%nat (ids ex_F) /\ In (row ex_t 9) ex_t /\
  (exists t', al_form_create [] ex_t (mkNode 11 d1) (Some (row ex_t 9)) "left" = Ok t' /\
     tree_pks [] t' = Ok [7; 1; 3; 5; 2; 4; 6; 11; 9; 10]%nat) /\
  (exists t', al_form_create [] ex_t (mkNode 11 d1) (Some (row ex_t 9)) "first-child" = Ok t' /\
     tree_pks [] t' = Ok [7; 1; 3; 5; 2; 4; 6; 9; 11; 10]%nat) /\
  (exists t', al_form_create so so_t (nd 11%nat 8) (Some (row so_t 3)) "sorted-sibling" = Ok t' /\
     tree_pks so t' = Ok [2; 6; 1; 4; 5; 11; 3]%nat).
Proof.
  split; [vm_compute; intuition congruence|]. split; [vm_compute; tauto|].
  split; [|split]; eexists; repeat split; vm_compute; reflexivity.
Qed.
End AL.

Section LT.
Import LTModel LTInv PropsLT.

Example C42_lt_example : stores c0 (lt_rows ex_db) ex_F /\ ~ In 11%nat (ids ex_F) /\ In (row ex_db 9) (lt_rows ex_db) /\
  lt_initial c0 (lt_rows ex_db) (row ex_db 9) = Ok (mkWhere (Some 4%nat) "right") /\
  lt_initial c0 (lt_rows ex_db) (row ex_db 4) = Ok (mkWhere (Some 2%nat) "first-child") /\
  map l_pk (lt_choices (lt_rows ex_db) (Some (row ex_db 4))) = [7; 1; 3; 5; 2; 9; 10]%nat /\
  (exists db', lt_form_edit c0 ex_db (row ex_db 9) d1 (Some (row ex_db 4)) "right" = Ok db' /\
     pks db' = [7; 1; 3; 5; 2; 4; 6; 9; 10]%nat /\ l_data (row db' 9) = d1) /\
  (exists db', lt_form_edit c0 ex_db (row ex_db 9) d1 (Some (row ex_db 5)) "left" = Ok db' /\
     pks db' = [7; 1; 3; 9; 10; 5; 2; 4; 6]%nat) /\
  (exists db', lt_form_create c0 ex_db (mkNew 11 d1) (Some (row ex_db 9)) "left" = Ok db' /\
     pks db' = [7; 1; 3; 5; 2; 4; 6; 11; 9; 10]%nat).
Proof.
  split; [apply ex_stores|]. split; [vm_compute; intuition congruence|].
  split; [vm_compute; tauto|]. do 3 (split; [vm_compute; reflexivity|]).
  split; [|split]; eexists; repeat split; vm_compute; reflexivity.
Qed.
End LT.
End Examples.

Print Assumptions C42_positions.
Print Assumptions C42_shown.
Print Assumptions C42_mp_initial.
Print Assumptions C42_mp_choices.
Print Assumptions C42_mp_unchanged.
Print Assumptions C42_mp_edit.
Print Assumptions C42_mp_create.
Print Assumptions C42_ns_initial.
Print Assumptions C42_ns_choices.
Print Assumptions C42_ns_unchanged.
Print Assumptions C42_ns_edit.
Print Assumptions C42_ns_create_partial.
Print Assumptions C42_al_initial.
Print Assumptions C42_al_choices.
Print Assumptions C42_al_unchanged.
Print Assumptions C42_al_edit.
Print Assumptions C42_al_create.
Print Assumptions C42_lt_initial.
Print Assumptions C42_lt_choices.
Print Assumptions C42_lt_unchanged.
Print Assumptions C42_lt_edit_partial.
Print Assumptions C42_lt_create_partial.
Print Assumptions C42_sorted_edit_refuted.
Print Assumptions C42_ns_create_refuted.
