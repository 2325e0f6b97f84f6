(** Theorems about the tree views of the admin (C45). *)
From Coq Require Import String List Arith Lia Bool ZArith Sorted Permutation.
From Verif Require Import Prelude Forest NumConv SpecFacts SpecSane SpecKids CommonModel Order History SpecRun Fixture AdminModel.
From Verif Require MPModel MPStep MPInv MPAdd MPMoveOk MPReads MPHist MPRoom PropsMP.
From Verif Require NSModel NSInv NSAdd NSMoveOk NSReads NSHist PropsNS.
From Verif Require ALModel ALInv ALReads ALAnswers ALOk ALHist PropsAL.
From Verif Require LTModel LTInv LTReads LTAdd LTMove LTHist PropsLT LTRefuted SpecPerm.
Import ListNotations.
Local Open Scope string_scope.
Local Open Scope list_scope.
Local Open Scope nat_scope.

(** ** What the list should show *)
Definition level_of (n : nat) (F : forest node) : nat := match ancestors_of n F with Some A => S (length A) | None => 0 end.
Definition has_kids (n : nat) (F : forest node) : bool := match kid_list (Some n) F with Some (_ :: _) => true | _ => false end.

Definition listed (F : forest node) (parent : option nat) (L : list node) : list entry :=
  map (fun a => mkEntry (nid a) match parent with Some q => q | None => 0 end
         match parent with Some q => Z.of_nat (level_of q F) + 1 | None => 1 end%Z (has_kids (nid a) F)) L.

(** The entries are exactly the children of the parent (the roots without one), each once;
    the level is the number of ancestors plus one, and "has-children" tells whether some
    node has this node as its parent. *)
Theorem C45_listed F parent L : wf_ids F -> kid_list parent F = Some L ->
  NoDup (map e_node (listed F parent L)) /\
  (forall n, In n (map e_node (listed F parent L)) <-> In n (ids F) /\ parent_of n F = Some parent) /\
  forall e, In e (listed F parent L) ->
    (exists A, ancestors_of (e_node e) F = Some A /\ e_level e = Z.of_nat (S (length A))) /\
    (e_kids e = true <-> exists c, In c (ids F) /\ parent_of c F = Some (Some (e_node e))) /\
    e_parent e = match parent with Some q => q | None => 0 end.
Proof.
  intros W E. assert (En : map e_node (listed F parent L) = map nid L) by (unfold listed; rewrite map_map; auto).
  rewrite En. assert (K := kl_kid_list _ _ _ E). split; [rewrite <- K; apply kl_nodup; auto|]. split.
  - intros n. rewrite in_map_iff. split.
    + intros (a & <- & Ha). rewrite <- K in Ha. split; [apply (kl_in parent)|apply kl_parent]; auto.
    + intros (Hn & Hp). destruct (kl_ex F n W Hn) as (q & a & Ha & Ea & Eq). rewrite Hp in Eq. injection Eq as <-.
      rewrite K in Ha. eauto.
  - intros e He. apply in_map_iff in He. destruct He as (a & <- & Ha). cbn [e_node e_level e_kids e_parent].
    assert (Ha' := Ha). rewrite <- K in Ha'. assert (Hi := kl_in _ _ _ Ha'). assert (Hp := kl_parent _ _ _ W Ha').
    split; [|split]; auto.
    + destruct (anc_parent (nid a) F W Hi) as (A & EA & [[Q ->]|(b & B & Q & Hb & EB & ->)]); rewrite Hp in Q; injection Q as ->.
      * exists []. auto.
      * exists (B ++ [b]). split; auto. unfold level_of. rewrite EB, app_length. cbn [length]. lia.
    + unfold has_kids. split.
      * destruct (kid_list (Some (nid a)) F) as [[|c l]|] eqn:Ek; try discriminate. intros _.
        exists (nid c). assert (Hc : In c (kl (Some (nid a)) F)) by (rewrite (kl_kid_list _ _ _ Ek); cbn; auto).
        split; [apply (kl_in _ _ _ Hc)|apply kl_parent; auto].
      * intros (c & Hc & Ec). destruct (kl_ex F c W Hc) as (q & x & Hx & <- & Eq). rewrite Ec in Eq. injection Eq as <-.
        unfold kl in Hx. destruct (kid_list (Some (nid a)) F) as [[|y l]|]; auto; destruct Hx.
Qed.

Lemma kid_none k F : ~ In k (ids F) -> kid_list (Some k) F = None.
Proof. intros H. unfold kid_list. cbn [kids_of]. rewrite children_of_notin; auto. Qed.

Lemma has_kids_spec n F k : kid_list (Some n) F = Some k -> has_kids n F = match k with [] => false | _ => true end.
Proof. intros E. unfold has_kids. rewrite E. destruct k; auto. Qed.

Lemma listed_read {R} (pk : R -> nat) (nodes : R -> node) (kids : R -> bool) (t rows : list R) F L parent q lv :
  (forall r, nid (nodes r) = pk r) -> map nodes rows = L -> (forall r, In r rows -> In r t) ->
  (forall r, In r t -> kids r = has_kids (pk r) F) ->
  q = match parent with Some q => q | None => 0 end ->
  lv = match parent with Some q => Z.of_nat (level_of q F) + 1 | None => 1 end%Z ->
  map (fun r => mkEntry (pk r) q lv (kids r)) rows = listed F parent L.
Proof.
  intros Hn <- Hin Hk -> ->. unfold listed. rewrite map_map. apply map_ext_in. intros r Hr. rewrite Hn, Hk; auto.
Qed.

Lemma sort_in {A} (le : A -> A -> bool) (g : A -> bool) l x : In x (isort le (filter g l)) -> In x l /\ g x = true.
Proof. intros H. apply (Permutation_in _ (isort_perm le _)) in H. apply filter_In in H. auto. Qed.

(** ** What dragging should do *)

(** Node [n] is dropped on [t] ("child") or beside it ("sibling"). *)
Definition dragged (sorted : bool) (F G : forest node) (n t : nat) (below : bool) (gt : node -> bool) : Prop :=
  n = t /\ below = false /\ sorted = false /\ G = F \/
  exists up a L1 L2, nid a = n /\ moved F G up a L1 L2 /\
    (if below then up = Some t else parent_of t F = Some up) /\
    (if sorted then (forall x, In x L1 -> gt x = false) /\ (forall b L, L2 = b :: L -> gt b = true)
     else if below then L2 = [] else exists b L, L2 = b :: L /\ nid b = t).

(** A node cannot be dropped on itself or anywhere around its own descendants. *)
Definition own_branch (F : forest node) (n t : nat) (below : bool) : Prop := descends F n t \/ (n = t /\ below = true).

Definition drag_place (below sorted : bool) : pos :=
  if below then if sorted then SortedChild else LastChild else if sorted then SortedSibling else Left.

Lemma drag_prepare below sorted : prepare_pos_move sorted (Some (drag_pos below sorted)) = Ok (drag_place below sorted).
Proof. destruct below, sorted; reflexivity. Qed.

Lemma drag_child below sorted : is_child_pos (drag_place below sorted) = below.
Proof. destruct below, sorted; reflexivity. Qed.

Lemma drag_inside F n t below sorted : inside F n t (drag_place below sorted) <-> own_branch F n t below.
Proof. unfold inside, own_branch. rewrite drag_child. tauto. Qed.

Lemma drag_sane sorted below F n t gt : wf_ids F -> In n (ids F) -> In t (ids F) -> ~ own_branch F n t below ->
  dragged sorted F (sp_move n t (drag_place below sorted) gt F) n t below gt.
Proof.
  intros W Hn Ht NI. rewrite <- (drag_inside F n t below sorted) in NI.
  destruct (move_sane n t _ gt F W Hn Ht NI) as [(E & EP & EF)|(up & a & L1 & L2 & Eu & Ea & M & Sp)].
  - left. split; auto. destruct below, sorted; destruct EP; try discriminate; auto.
  - right. rewrite drag_child in Eu. exists up, a, L1, L2. split; auto. split; auto. split; auto.
    destruct below, sorted; cbn [drag_place sib_place ins_split] in Sp; auto. apply Sp.
Qed.

Lemma map_same {R} (pk : R -> nat) (t : list R) r : (forall x, In x t -> pk x = pk r -> x = r) ->
  map (fun x => if pk x =? pk r then r else x) t = t.
Proof.
  intros H. rewrite <- (map_id t) at 2. apply map_ext_in. intros x Hx. destruct (Nat.eqb_spec (pk x) (pk r)); auto.
  symmetry. auto.
Qed.

(** ** Materialized paths *)
Section MP.
Import MPModel MPStep MPInv MPAdd MPMoveOk MPReads MPHist MPRoom PropsMP.
Variable cfg : mp_cfg.
Hypothesis radix2 : 2 <= radix cfg.
Hypothesis step1 : 1 <= steplen cfg.
Notation stores := (stores cfg).
Notation o := (order_by cfg).

Theorem C45_mp_list t F parent : stores t F ->
  mp_context cfg t parent = match kid_list parent F with Some L => Ok (listed F parent L) | None => Err DoesNotExist end.
Proof.
  intros S. unfold mp_context, mp_list.
  assert (HK : forall r, In r t -> mp_has_children r = has_kids (m_pk r) F).
  { intros r Hr. destruct (C07_children cfg radix2 step1 t F r S Hr) as (k & Ek & _ & _ & Lf & _).
    rewrite (has_kids_spec _ _ _ Ek). unfold mp_has_children. unfold is_leaf in Lf. rewrite Nat.eqb_eq in Lf.
    destruct k; destruct (Nat.ltb_spec 0 (m_nc r)); auto.
    - assert (m_nc r = 0) by (apply Lf; auto). lia.
    - assert (E : m_nc r = 0) by lia. apply Lf in E. discriminate. }
  destruct parent as [k|].
  - destruct (get_pk_cases cfg t F k S) as [[E H]|(p & E & Hp & Ep & _)]; rewrite E; cbn [bind].
    { rewrite kid_none; auto. }
    destruct (C07_children cfg radix2 step1 t F p S Hp) as (L & El & Ec & _).
    destruct (C07_ancestors cfg radix2 step1 t F p S Hp) as (A & EA & _ & Ed & _). rewrite Ep in *. rewrite El. f_equal.
    apply (listed_read m_pk node_of mp_has_children t); auto.
    + intros r Hr. unfold get_children in Hr. destruct (is_leaf p); [destruct Hr|]. apply sort_in in Hr. tauto.
    + unfold level_of. rewrite EA, Ed. lia.
  - destruct (C07_roots cfg radix2 step1 t F S) as (Er & _). cbn [bind]. change (kid_list None F) with (Some (roots F)). cbv iota. f_equal.
    apply (listed_read m_pk node_of mp_has_children t); auto.
    intros r Hr. apply sort_in in Hr. tauto.
Qed.

Lemma mp_resave db F r : stores (db_rows db) F -> In r (db_rows db) ->
  get_by_pk (db_rows db) (m_pk r) = Ok r /\ exists db', save_row db r = Ok db' /\ db_rows db' = db_rows db.
Proof.
  intros S Hr. assert (S' := S). destruct S' as (f & L & N & EF & W). rewrite <- EF in W. split; [apply (get_by_pk_lay cfg _ f); auto|].
  assert (Sm : map (fun x => if m_pk x =? m_pk r then r else x) (db_rows db) = db_rows db).
  { apply map_same. intros x Hx E. eapply pk_inj; eauto. }
  unfold save_row. replace (existsb (fun x => peq (m_path x) (m_path r) && negb (m_pk x =? m_pk r)) (db_rows db)) with false.
  - replace (existsb (fun x => m_pk x =? m_pk r) (db_rows db)) with true.
    + eexists. split; [reflexivity|]. cbn [db_rows]. auto.
    + symmetry. apply existsb_exists. exists r. rewrite Nat.eqb_refl. auto.
  - symmetry. apply not_true_iff_false. intros H. apply existsb_exists in H. destruct H as (x & Hx & H).
    apply andb_true_iff in H. destruct H as (H1 & H2). apply negb_true_iff, Nat.eqb_neq in H2. apply H2. f_equal.
    destruct (proj1 (C03_invariant cfg radix2 step1 (db_rows db)) (ex_intro _ F S)) as (_ & U & _).
    eapply NoDup_map_inj; [exact U| | |]; auto. apply peq_iff. auto.
Qed.

Theorem C45_mp_drag db F n t (below : bool) : stores (db_rows db) F -> ordered o F -> In n (db_rows db) -> In t (db_rows db) ->
  temp_room cfg (db_rows db) (if below then m_path t else get_parent_path cfg (m_path t)) (m_path n) ->
  (own_branch F (m_pk n) (m_pk t) below /\ mp_drag cfg db n t below = Refused) \/
  (~ own_branch F (m_pk n) (m_pk t) below /\
   ((exists db' G, mp_drag cfg db n t below = Done db' /\ stores (db_rows db') G /\
       dragged (is_sorted cfg) F G (m_pk n) (m_pk t) below (gt_of o (m_data n))) \/
    (mp_drag cfg db n t below = Refused /\
     step_taken cfg (db_rows db) (if below then m_path t else get_parent_path cfg (m_path t))))).
Proof.
  intros S O Hn Ht Rm. unfold mp_drag. assert (EP := drag_prepare below (is_sorted cfg)).
  set (P := drag_place below (is_sorted cfg)) in *.
  assert (Eb : new_base cfg P t = if below then m_path t else get_parent_path cfg (m_path t)).
  { unfold new_base, P. rewrite drag_child. auto. }
  destruct (stored_data cfg _ _ _ S Hn) as [_ Vd].
  assert (Dec : o = [] \/ o <> []) by (destruct o; [auto|right; discriminate]).
  destruct (move_ok cfg radix2 step1 db F n t _ P S Hn Ht EP) as [[D E]|[D [(db' & n' & t' & E & S' & Hn' & En' & _)|[E T]]]].
  - intros E. destruct Dec as [Eo|No].
    + exfalso. rewrite E, is_sorted_sorts, Eo in EP. destruct (prepare_move_unsorted _ _ EP). congruence.
    + destruct (O No) as [S1 S2]. destruct (siblings_sorted o (m_pk t) F S1 S2). apply ordered_splits; auto.
  - intros E. destruct Dec as [Eo|No].
    + exfalso. rewrite E, is_sorted_sorts, Eo in EP. destruct (prepare_move_unsorted _ _ EP). congruence.
    + destruct (O No) as [S1 S2]. apply ordered_splits; auto;
        destruct (kids_of (Some (m_pk t)) F) as [l|] eqn:El; try constructor;
        destruct (sorted_kids o _ F l S1 S2 El); [apply roots_sorted|apply roots_values]; auto.
  - rewrite Eb. auto.
  - left. unfold P in D. rewrite drag_inside in D. split; auto. rewrite E. reflexivity.
  - right. unfold P in D. rewrite drag_inside in D. split; auto. left.
    destruct (mp_resave db' _ n' S' Hn') as (E1 & db2 & E2 & E3). rewrite E. cbn [bind]. rewrite <- En', E1. cbn [bind]. rewrite E2.
    exists db2, (sp_move (m_pk n) (m_pk t) P (gt_of o (m_data n)) F). rewrite En'. split; [reflexivity|].
    rewrite E3. split; [exact S'|]. apply drag_sane; auto; [apply (stores_wf _ _ _ S)| |]; eapply stores_ids; eauto.
  - right. unfold P in D. rewrite drag_inside in D. split; auto. right. rewrite E. split; [reflexivity|]. rewrite <- Eb. auto.
Qed.
End MP.

(** ** Nested sets *)
Section NS.
Import NSModel NSInv NSAdd NSMoveOk NSReads NSHist PropsNS.
Variable o : ordering.

Theorem C45_ns_list t F parent : stores t F ->
  ns_context t parent = match kid_list parent F with Some L => Ok (listed F parent L) | None => Err DoesNotExist end.
Proof.
  intros S. unfold ns_context, ns_list.
  assert (HK : forall r, In r t -> ns_has_children r = has_kids (n_pk r) F).
  { intros r Hr. destruct (C20_children t F r S Hr) as (k & Ek & _ & _ & Lf & _).
    rewrite (has_kids_spec _ _ _ Ek). unfold ns_has_children. unfold is_leaf in Lf. rewrite Z.eqb_eq in Lf.
    destruct S as (W & ts & I & P). apply (in_t _ F ts P) in Hr. apply layout_bounds in Hr.
    destruct k; destruct (Z.ltb_spec 1 (n_rgt r - n_lft r)); auto.
    - assert (n_rgt r - n_lft r = 1)%Z by (apply Lf; auto). lia.
    - assert (E : (n_rgt r - n_lft r = 1)%Z) by lia. apply Lf in E. discriminate. }
  destruct parent as [k|].
  - destruct (get_pk_cases t F k S) as [[E H]|(p & E & Hp & Ep & _)]; rewrite E; cbn [bind].
    { rewrite kid_none; auto. intros C. apply has_spec in C. congruence. }
    destruct (C20_children t F p S Hp) as (L & El & Ec & _ & _ & _ & _ & Hin).
    destruct (C20_ancestors t F p S Hp) as (A & EA & _ & Ed & _). rewrite Ep in *. rewrite El. f_equal.
    apply (listed_read n_pk row_node ns_has_children t); auto.
    unfold level_of. rewrite EA, Ed. lia.
  - destruct (C20_roots t F S) as (Er & Hin & _). cbn [bind]. change (kid_list None F) with (Some (roots F)). cbv iota. f_equal.
    apply (listed_read n_pk row_node ns_has_children t); auto.
Qed.

Theorem C45_ns_drag db F n t (below : bool) : stores (ns_rows db) F -> In n (ns_rows db) -> In t (ns_rows db) ->
  (own_branch F (n_pk n) (n_pk t) below /\ ns_drag o db n t below = Refused) \/
  (~ own_branch F (n_pk n) (n_pk t) below /\
   exists db' G, ns_drag o db n t below = Done db' /\ stores (ns_rows db') G /\
     dragged (is_sorted o) F G (n_pk n) (n_pk t) below (gt_of o (n_data n))).
Proof.
  intros S Hn Ht. unfold ns_drag. assert (EP := drag_prepare below (is_sorted o)).
  set (P := drag_place below (is_sorted o)) in *.
  destruct (move_ok o db F (fresh n) (fresh t) _ P S (good_fresh _ _ Hn) (good_fresh _ _ Ht) EP) as
    [[D E]|[D (db' & n' & t' & E & S' & Gn & En & _)]]; cbn [fresh o_row] in *; unfold P in D; rewrite drag_inside in D.
  - left. split; auto. rewrite E. reflexivity.
  - right. split; auto. rewrite E. cbn [bind]. assert (Hn' := proj1 Gn). assert (S2 := S').
    destruct S2 as (W & ts & I & Pm). rewrite <- En, (get_by_pk_in _ _ _ W I Pm _ Hn'). cbn [bind].
    eexists. exists (sp_move (n_pk n) (n_pk t) P (gt_of o (n_data n)) F). rewrite En. split; [reflexivity|]. split.
    + unfold save_row. replace (existsb (fun x => n_pk x =? n_pk (o_row n')) (ns_rows db')) with true.
      * cbn [ns_rows]. rewrite map_same; [exact S'|]. intros x Hx Ex. eapply row_eq; eauto.
      * symmetry. apply existsb_exists. exists (o_row n'). rewrite Nat.eqb_refl. auto.
    + apply drag_sane; auto; [apply (stores_wf _ _ S)| |]; eapply stores_ids; eauto.
Qed.
End NS.

(** ** Adjacency lists *)
Section AL.
Import ALModel ALInv ALReads ALAnswers ALOk ALHist PropsAL.
Variable o : ordering.

Lemma al_list_answers t F parent : stores o t F -> answers o t F ->
  al_context o t parent = match kid_list parent F with Some L => Ok (listed F parent L) | None => Err DoesNotExist end.
Proof.
  intros S An. unfold al_context, al_list.
  assert (HK : forall r, In r t -> al_has_children t r = has_kids (a_pk r) F).
  { intros r Hr. destruct (an_children _ _ _ An r Hr) as (k & Ek & Er & _).
    rewrite (has_kids_spec _ _ _ Ek). unfold al_has_children. apply eq_true_iff_eq. rewrite existsb_exists. split.
    - intros (x & Hx & Ex). assert (Hc : In x (get_children o t r)).
      { unfold get_children, kids, order_rows. apply (Permutation_in _ (Permutation_sym (isort_perm _ _))). apply filter_In. auto. }
      apply (in_map row_node) in Hc. unfold row_nodes in Er. rewrite Er in Hc. destruct k; auto.
    - destruct k as [|a k]; [discriminate|]. intros _. unfold row_nodes in Er.
      destruct (get_children o t r) as [|x l] eqn:Ec; [discriminate|]. exists x.
      apply (sort_in (fun a b => negb (row_before o b a)) (fun x => par_eqb (a_parent x) (Some (a_pk r))) t x).
      change (In x (get_children o t r)). rewrite Ec. cbn; auto. }
  destruct parent as [k|].
  - assert (S' := S). destruct S' as (W & _ & so & Fit & _).
    destruct (in_dec Nat.eq_dec k (ids F)) as [Hk|Hk].
    2:{ rewrite (get_none so t F W Fit k Hk). cbn [bind]. rewrite kid_none; auto. }
    destruct (fits_ex so t F W Fit k Hk) as (p & Hp & Ep). subst k. rewrite (get_in so t F W Fit p Hp). cbn [bind].
    destruct (an_children _ _ _ An p Hp) as (L & El & Ec & _).
    destruct (C27_ancestors o t F p S Hp) as (_ & A & _ & EA & _ & _ & _ & _ & (c & Ed)). rewrite Ed. cbn [bind]. rewrite El. f_equal.
    apply (listed_read a_pk row_node (al_has_children t) t); auto.
    + intros r Hr. apply sort_in in Hr. tauto.
    + unfold level_of. rewrite EA. lia.
  - destruct (an_roots _ _ _ An) as (Er & _). cbn [bind]. change (kid_list None F) with (Some (roots F)). cbv iota. f_equal.
    apply (listed_read a_pk row_node (al_has_children t) t); auto.
    intros r Hr. apply sort_in in Hr. tauto.
Qed.

Theorem C45_al_list t F parent : stores o t F -> o = [] \/ strict o F ->
  al_context o t parent = match kid_list parent F with Some L => Ok (listed F parent L) | None => Err DoesNotExist end.
Proof. intros S H. apply al_list_answers; auto. apply C27_reads; auto. Qed.

(** Siblings with equal values may be listed in another order, the same in all lists. *)
Theorem C45_al_list_ties t F : stores o t F -> exists F', stores o t F' /\ SpecPerm.same_kids F F' /\
  forall parent, al_context o t parent =
    match kid_list parent F' with Some L => Ok (listed F' parent L) | None => Err DoesNotExist end.
Proof.
  intros S. destruct (C27_ties o t F S) as (F' & S' & An & P). exists F'. split; auto. split; [exact P|].
  intros parent. apply al_list_answers; auto.
Qed.

Theorem C45_al_drag t F n target (below : bool) : stores o t F -> In n t -> In target t ->
  (own_branch F (a_pk n) (a_pk target) below /\ al_drag o t n target below = Refused) \/
  (~ own_branch F (a_pk n) (a_pk target) below /\
   exists t' G, al_drag o t n target below = Done t' /\ stores o t' G /\
     dragged (is_sorted o) F G (a_pk n) (a_pk target) below (gt_of o (a_data n))).
Proof.
  intros S Hn Ht. unfold al_drag. assert (EP := drag_prepare below (is_sorted o)).
  set (P := drag_place below (is_sorted o)) in *.
  destruct (move_ok o t F (fresh n) target _ P S Hn Logic.I Ht EP) as
    [[D E]|[D (t' & n' & E & S' & Hn' & Mo)]]; cbn [fresh o_row] in *; unfold P in D; rewrite drag_inside in D.
  - left. split; auto. rewrite E. reflexivity.
  - right. split; auto. rewrite E. cbn [bind]. assert (S2 := S').
    destruct S2 as (W & _ & so & Fit & _). assert (En : a_pk (o_row n') = a_pk n) by apply Mo.
    rewrite <- En, (get_in _ _ _ W Fit _ Hn'). cbn [bind].
    eexists. exists (sp_move (a_pk n) (a_pk target) P (gt_of o (a_data n)) F). rewrite En. split; [reflexivity|]. split.
    + unfold save_row. replace (existsb (fun x => a_pk x =? a_pk (o_row n')) t') with true.
      * rewrite map_same; [exact S'|]. intros x Hx Ex. eapply pk_same; eauto.
      * symmetry. apply existsb_exists. exists (o_row n'). rewrite Nat.eqb_refl. auto.
    + apply drag_sane; auto; [apply (stores_wf _ _ _ S)| |]; eapply stores_ids; eauto.
Qed.
End AL.

(** ** Ltree *)
Section LT.
Import LTModel LTInv LTReads LTAdd LTMove LTHist PropsLT.
Variable cfg : lt_cfg.
Hypothesis max2 : 2 <= label_max cfg.
Notation o := (lt_order cfg).
Notation stores := (stores cfg).

Lemma lt_pk_cases t F k : stores t F ->
  (get_by_pk t k = Err DoesNotExist /\ ~ In k (ids F)) \/ (exists r, get_by_pk t k = Ok r /\ In r t /\ l_pk r = k).
Proof.
  intros (f & L & <- & I). destruct (in_dec Nat.eq_dec k (map l_pk t)) as [H|H].
  - right. apply in_map_iff in H. destruct H as (r & <- & Hr). exists r. rewrite (get_by_pk_lay cfg t f r L I Hr). auto.
  - left. split.
    + unfold get_by_pk. replace (filter (fun r => l_pk r =? k) t) with (@nil ltrow); auto.
      symmetry. apply filter_none. intros r Hr. apply Nat.eqb_neq. intros <-. apply H. apply in_map. auto.
    + intros C. apply H. apply (Permutation_in _ (Permutation_sym (lay_pks cfg _ _ L)) C).
Qed.

Theorem C45_lt_list t F parent : stores t F ->
  lt_context t parent = match kid_list parent F with Some L => Ok (listed F parent L) | None => Err DoesNotExist end.
Proof.
  intros S. unfold lt_context, lt_list.
  assert (HK : forall r, In r t -> lt_has_children t r = has_kids (l_pk r) F).
  { intros r Hr. destruct (C32_descendants cfg t F r None S Hr) as (k & Ek & _ & _ & Ed & _); [discriminate|].
    cbn [levels prune_opt] in Ed. unfold has_kids, kid_list. cbn [kids_of]. rewrite Ek. cbn [option_map].
    unfold lt_has_children. apply eq_true_iff_eq. rewrite existsb_exists.
    assert (In_d : forall x, In x (get_descendants t r false None) <-> In x t /\ ppre (l_path r) (l_path x) && negb (l_pk x =? l_pk r) = true).
    { intros x. unfold get_descendants, get_tree, order_path. rewrite filter_In, andb_true_iff. split.
      - intros (H1 & H2). apply sort_in in H1. rewrite andb_true_r in H1. tauto.
      - intros (H1 & H2 & H3). split; auto. apply (Permutation_in _ (Permutation_sym (isort_perm _ _))), filter_In.
        rewrite H2. auto. }
    split.
    - intros (x & Hx). apply In_d in Hx. apply (in_map node_of) in Hx. rewrite Ed in Hx. destruct k; [destruct Hx|auto].
    - destruct k as [|a k1 k2]; [discriminate|]. intros _. cbn [preorder] in Ed.
      destruct (get_descendants t r false None) as [|x l]; [discriminate|]. exists x. apply In_d. cbn; auto. }
  destruct parent as [k|].
  - destruct (lt_pk_cases t F k S) as [[E H]|(p & E & Hp & Ep)]; rewrite E; cbn [bind].
    { rewrite kid_none; auto. }
    destruct (C32_children cfg t F p S Hp) as (L & El & Ec & _).
    destruct (C32_ancestors cfg t F p S Hp) as (A & EA & _ & Ed & _). rewrite Ep in *. rewrite El. f_equal.
    apply (listed_read l_pk node_of (lt_has_children t) t); auto.
    + intros r Hr. apply sort_in in Hr. tauto.
    + unfold level_of. rewrite EA, Ed. lia.
  - assert (Er := C32_roots cfg t F S). cbn [bind]. change (kid_list None F) with (Some (roots F)). cbv iota. f_equal.
    apply (listed_read l_pk node_of (lt_has_children t) t); auto.
    intros r Hr. apply sort_in in Hr. tauto.
Qed.

(** The siblings may have to be relabelled, which can change their order (see C31), and a
    drag can fail for want of a label, with an exception that the admin does not catch. *)
Theorem C45_lt_drag_partial db F n t (below : bool) : stores (lt_rows db) F -> In n (lt_rows db) -> In t (lt_rows db) ->
  (own_branch F (l_pk n) (l_pk t) below /\ lt_drag cfg db n t below = Refused) \/
  (~ own_branch F (l_pk n) (l_pk t) below /\
   ((exists db' G S, lt_drag cfg db n t below = Done db' /\ stores (lt_rows db') G /\ SpecPerm.same_kids S G /\
       (below = true /\ is_sorted cfg = false \/ calm_pos cfg (lt_rows db) t (drag_place below (is_sorted cfg)) (l_data n) -> G = S) /\
       dragged (is_sorted cfg) F S (l_pk n) (l_pk t) below (gt_of o (l_data n))) \/
    (exists e, lt_drag cfg db n t below = Failed e /\
       no_label cfg (lt_rows db) (if below then l_path t else parent_path (l_path t)) (@Err unit e)))).
Proof.
  intros St Hn Ht. unfold lt_drag. assert (EP := drag_prepare below (is_sorted cfg)).
  set (P := drag_place below (is_sorted cfg)) in *.
  destruct (move_ok cfg max2 db F n t _ P St Hn Ht EP) as [[D E]|[D Mv]]; unfold P in D; rewrite drag_inside in D.
  - left. split; auto. rewrite E. reflexivity.
  - right. split; auto. destruct Mv as [(db' & r & G & E & Hr & Er & SG & SK & Cm)|[[E H]|[E H]]].
    + left. rewrite E. cbn [bind]. assert (SG' := SG). destruct SG' as (f & L & EF & W). rewrite <- EF in W.
      rewrite <- Er, (get_by_pk_lay cfg _ f r L W Hr). cbn [bind].
      assert (Es : save_row cfg (lt_rows db') r = Ok (lt_rows db')).
      { assert (Sm : map (fun x => if l_pk x =? l_pk r then r else x) (lt_rows db') = lt_rows db').
        { apply map_same. intros x Hx Ex. eapply pk_inj; eauto. }
        unfold save_row.
        replace (fits_ltree cfg (l_path r)) with true by (symmetry; apply LTAdd.valid_fits; destruct (lay_in cfg _ _ _ L Hr) as (x & Hx & ->); apply (kvalid_path cfg f x); auto; apply L). cbn [negb].
        replace (existsb (fun x => l_pk x =? l_pk r) (lt_rows db')) with true.
        - rewrite Sm. auto.
        - symmetry. apply existsb_exists. exists r. rewrite Nat.eqb_refl. auto. }
      rewrite Es. cbn [bind]. eexists. exists G, (sp_move (l_pk n) (l_pk t) P (gt_of o (l_data n)) F). rewrite Er.
      split; [reflexivity|]. split; [exact SG|]. split; [exact SK|]. split.
      * intros [[-> Eo]|H]; apply Cm; [|exact H]. unfold P. rewrite Eo. cbn [drag_place].
        destruct St as (f0 & L0 & _). eapply calm_last_child; eauto.
      * apply drag_sane; auto; [apply (stores_wf _ _ _ St)| |]; eapply stores_ids; eauto.
    + right. exists DataError. rewrite E. split; [reflexivity|]. left. split; auto.
    + right. exists ValueError. rewrite E. split; [reflexivity|]. right. split; auto. unfold P in H. rewrite drag_child in H. exact H.
Qed.
End LT.

(** A drag to the left of the first root in a tree whose labels have grown to the limit is
    not refused but fails with an exception that is not caught. *)
Definition long_db : LTModel.lt_db := Eval vm_compute in fst (run (LTHist.lt_exec (LTModel.mkLTCfg [] 6)) LTHist.lt_empty (LTRefuted.first_calls 6)).
Theorem C45_lt_drag_refuted : exists cfg db F n t, LTInv.stores cfg (LTModel.lt_rows db) F /\
  In n (LTModel.lt_rows db) /\ In t (LTModel.lt_rows db) /\ ~ own_branch F (LTModel.l_pk n) (LTModel.l_pk t) false /\
  lt_drag cfg db n t false = Failed DataError.
Proof.
  assert (E : run (LTHist.lt_exec (LTModel.mkLTCfg [] 6)) LTHist.lt_empty (LTRefuted.first_calls 6) = (long_db, LTRefuted.first_calls 6))
    by (vm_compute; reflexivity).
  destruct (LTRefuted.run_stores (LTModel.mkLTCfg [] 6) (LTRefuted.first_calls 6) _ _ (proj1 (Nat.leb_le 2 6) eq_refl : 2 <= LTModel.label_max (LTModel.mkLTCfg [] 6)) ltac:(apply nodup_b; vm_compute; reflexivity) E) as (F & S).
  assert (H1 : In (PropsLT.row long_db 1) (LTModel.lt_rows long_db)) by (vm_compute; tauto).
  assert (H2 : In (PropsLT.row long_db 7) (LTModel.lt_rows long_db)) by (vm_compute; tauto).
  exists (LTModel.mkLTCfg [] 6), long_db, F, (PropsLT.row long_db 1), (PropsLT.row long_db 7). split; auto. split; auto. split; auto.
  split; [|vm_compute; reflexivity].
  intros [H|[_ H]]; [|discriminate]. apply (PropsLT.C32_predicates _ _ _ _ _ S H2 H1) in H. vm_compute in H. discriminate.
Qed.

(** ** Examples: the lists of the roots and of the children of 2, and some drags *)
Definition roots_shown : list entry := [mkEntry 7 0 1 false; mkEntry 1 0 1 true; mkEntry 2 0 1 true].
Definition kids_shown : list entry := [mkEntry 4 2 2 true; mkEntry 9 2 2 true].

Example C45_listed_example : wf_ids ex_F /\ kid_list (Some 2) ex_F <> None /\
  option_map (listed ex_F None) (kid_list None ex_F) = Some roots_shown /\
  option_map (listed ex_F (Some 2)) (kid_list (Some 2) ex_F) = Some kids_shown /\ kid_list (Some 11) ex_F = None.
Proof. split; [apply nodup_b; vm_compute; reflexivity|]. split; [vm_compute; discriminate|]. repeat split; vm_compute; reflexivity. Qed.

Lemma own_b F n t below sorted : insideb F n t (drag_place below sorted) = true -> own_branch F n t below.
Proof. rewrite insideb_spec. apply drag_inside. Qed.
Lemma not_own_b F n t below sorted : insideb F n t (drag_place below sorted) = false -> ~ own_branch F n t below.
Proof. rewrite insideb_false, drag_inside. auto. Qed.

Section ExMP.
Import MPModel PropsMP.
Example C45_mp_example : MPInv.stores c10 (db_rows ex_db) ex_F /\ ordered [] ex_F /\ ordered so so_F /\
  (forall q np, MPMoveOk.temp_room c10 (db_rows ex_db) q np) /\
  In (row ex_db 9) (db_rows ex_db) /\ In (row ex_db 5) (db_rows ex_db) /\ In (row ex_db 10) (db_rows ex_db) /\
  ~ own_branch ex_F 9 5 true /\ own_branch ex_F 9 10 false /\
  mp_context c10 (db_rows ex_db) None = Ok roots_shown /\ mp_context c10 (db_rows ex_db) (Some 2) = Ok kids_shown /\
  mp_context c10 (db_rows ex_db) (Some 11) = Err DoesNotExist /\
  (exists db', mp_drag c10 ex_db (row ex_db 9) (row ex_db 1) true = Done db' /\
     map m_pk (get_tree (db_rows db') None None) = [7; 1; 3; 5; 9; 10; 2; 4; 6]) /\
  (exists db', mp_drag c10 ex_db (row ex_db 9) (row ex_db 5) false = Done db' /\
     map m_pk (get_tree (db_rows db') None None) = [7; 1; 3; 9; 10; 5; 2; 4; 6]) /\
  mp_drag c10 ex_db (row ex_db 9) (row ex_db 10) false = Refused /\ mp_drag c10 ex_db (row ex_db 9) (row ex_db 9) true = Refused /\
  (exists db', mp_drag s10 so_db (row so_db 5) (row so_db 2) false = Done db' /\
     map m_pk (get_tree (db_rows db') None None) = [2; 6; 1; 4; 3; 5]).
Proof.
  split; [apply ex_stores|]. split; [congruence|]. split; [apply so_stores|]. split; [apply ex_temp_room|].
  do 3 (split; [vm_compute; tauto|]). split; [apply (not_own_b _ _ _ _ false); vm_compute; reflexivity|].
  split; [apply (own_b _ _ _ _ false); vm_compute; reflexivity|]. do 3 (split; [vm_compute; reflexivity|]).
  do 2 (split; [eexists; split; vm_compute; reflexivity|]). do 2 (split; [vm_compute; reflexivity|]).
  eexists; split; vm_compute; reflexivity.
Qed.
End ExMP.

Section ExNS.
Import NSModel PropsNS.
Example C45_ns_example : NSInv.stores (ns_rows ex_db) ex_F /\ NSInv.stores (ns_rows so_db) so_F /\
  In (row ex_db 9) (ns_rows ex_db) /\ In (row ex_db 5) (ns_rows ex_db) /\ In (row ex_db 10) (ns_rows ex_db) /\
  ns_context (ns_rows ex_db) None = Ok roots_shown /\ ns_context (ns_rows ex_db) (Some 2%nat) = Ok kids_shown /\
  ns_context (ns_rows ex_db) (Some 11%nat) = Err DoesNotExist /\
  (exists db', ns_drag [] ex_db (row ex_db 9) (row ex_db 1) true = Done db' /\
     map n_pk (get_tree (ns_rows db') None None) = [7; 1; 3; 5; 9; 10; 2; 4; 6]%nat) /\
  (exists db', ns_drag [] ex_db (row ex_db 9) (row ex_db 5) false = Done db' /\
     map n_pk (get_tree (ns_rows db') None None) = [7; 1; 3; 9; 10; 5; 2; 4; 6]%nat) /\
  ns_drag [] ex_db (row ex_db 9) (row ex_db 10) false = Refused /\ ns_drag [] ex_db (row ex_db 9) (row ex_db 9) true = Refused /\
  (exists db', ns_drag so so_db (row so_db 5) (row so_db 2) false = Done db' /\
     map n_pk (get_tree (ns_rows db') None None) = [2; 6; 1; 4; 3; 5]%nat).
Proof.
  split; [apply ex_stores|]. split; [apply so_stores|].
  do 3 (split; [vm_compute; tauto|]). do 3 (split; [vm_compute; reflexivity|]).
  do 2 (split; [eexists; split; vm_compute; reflexivity|]). do 2 (split; [vm_compute; reflexivity|]).
  eexists; split; vm_compute; reflexivity.
Qed.
End ExNS.

Section ExAL.
Import ALModel PropsAL.
Example C45_al_example : ALInv.stores [] ex_t ex_F /\ ALInv.stores so so_t so_F /\
  In (row ex_t 9) ex_t /\ In (row ex_t 5) ex_t /\ In (row ex_t 10) ex_t /\
  al_context [] ex_t None = Ok roots_shown /\ al_context [] ex_t (Some 2%nat) = Ok kids_shown /\
  al_context [] ex_t (Some 11%nat) = Err DoesNotExist /\
  al_context so so_t None = Ok [mkEntry 2 0 1 false; mkEntry 6 0 1 true] /\
  (exists t', al_drag [] ex_t (row ex_t 9) (row ex_t 1) true = Done t' /\ tree_pks [] t' = Ok [7; 1; 3; 5; 9; 10; 2; 4; 6]%nat) /\
  (exists t', al_drag [] ex_t (row ex_t 9) (row ex_t 5) false = Done t' /\ tree_pks [] t' = Ok [7; 1; 3; 9; 10; 5; 2; 4; 6]%nat) /\
  al_drag [] ex_t (row ex_t 9) (row ex_t 10) false = Refused /\ al_drag [] ex_t (row ex_t 9) (row ex_t 9) true = Refused /\
  (exists t', al_drag so so_t (row so_t 5) (row so_t 2) false = Done t' /\ tree_pks so t' = Ok [2; 6; 1; 4; 3; 5]%nat).
Proof.
  split; [apply ex_stores|]. split; [apply so_stores|].
  do 3 (split; [vm_compute; tauto|]). do 4 (split; [vm_compute; reflexivity|]).
  do 2 (split; [eexists; split; vm_compute; reflexivity|]). do 2 (split; [vm_compute; reflexivity|]).
  eexists; split; vm_compute; reflexivity.
Qed.
End ExAL.

Section ExLT.
Import LTModel PropsLT.
Example C45_lt_example : LTInv.stores c0 (lt_rows ex_db) ex_F /\ LTInv.stores cs (lt_rows so_db) so_F /\
  In (row ex_db 9) (lt_rows ex_db) /\ In (row ex_db 5) (lt_rows ex_db) /\ In (row ex_db 10) (lt_rows ex_db) /\
  lt_context (lt_rows ex_db) None = Ok roots_shown /\ lt_context (lt_rows ex_db) (Some 2) = Ok kids_shown /\
  lt_context (lt_rows ex_db) (Some 11) = Err DoesNotExist /\
  (exists db', lt_drag c0 ex_db (row ex_db 9) (row ex_db 1) true = Done db' /\ pks db' = [7; 1; 3; 5; 9; 10; 2; 4; 6]) /\
  (exists db', lt_drag c0 ex_db (row ex_db 9) (row ex_db 5) false = Done db' /\ pks db' = [7; 1; 3; 9; 10; 5; 2; 4; 6]) /\
  lt_drag c0 ex_db (row ex_db 9) (row ex_db 10) false = Refused /\ lt_drag c0 ex_db (row ex_db 9) (row ex_db 9) true = Refused /\
  (exists db', lt_drag cs so_db (row so_db 5) (row so_db 2) false = Done db' /\ pks db' = [2; 6; 1; 4; 3; 5]).
Proof.
  split; [apply ex_stores|]. split; [apply so_stores|].
  do 3 (split; [vm_compute; tauto|]). do 3 (split; [vm_compute; reflexivity|]).
  do 2 (split; [eexists; split; vm_compute; reflexivity|]). do 2 (split; [vm_compute; reflexivity|]).
  eexists; split; vm_compute; reflexivity.
Qed.
End ExLT.

Print Assumptions C45_listed.
Print Assumptions C45_mp_list.
Print Assumptions C45_mp_drag.
Print Assumptions C45_ns_list.
Print Assumptions C45_ns_drag.
Print Assumptions C45_al_list.
Print Assumptions C45_al_list_ties.
Print Assumptions C45_al_drag.
Print Assumptions C45_lt_list.
Print Assumptions C45_lt_drag_partial.
Print Assumptions C45_lt_drag_refuted.
