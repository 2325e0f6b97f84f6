(** Deleting nodes of a materialized path tree removes exactly their subtrees. *)
From Coq Require Import List Arith Lia Bool Permutation Sorted.
From Verif Require Import Prelude Forest NumConv SpecFacts PathTab PathMove PathDel CommonModel MPModel MPStep MPInv.
Import ListNotations.

Lemma isort_ssorted {A} (le : A -> A -> bool) (Rl : A -> A -> Prop) l :
  (forall x y, le x y = true -> Rl x y) -> (forall x y, le x y = false -> Rl y x) ->
  (forall x y z, Rl x y -> Rl y z -> Rl x z) -> StronglySorted Rl (isort le l).
Proof.
  intros H1 H2 H3. induction l as [|x l IH]; simpl; [constructor|].
  revert IH. generalize (isort le l) as s. clear l. induction s as [|y s IHs]; simpl; intros S.
  - repeat constructor.
  - apply StronglySorted_inv in S. destruct S as [S F].
    destruct (le x y) eqn:E.
    + constructor; [constructor; auto|]. constructor; auto.
      apply Forall_forall. intros z Hz. rewrite Forall_forall in F. eauto.
    + constructor; auto. apply Forall_forall. intros z Hz.
      apply (Permutation_in _ (insert_perm le x s)) in Hz. destruct Hz as [<-|Hz]; auto.
      rewrite Forall_forall in F. auto.
Qed.

(** Proper ancestor by path. *)
Definition above (p r : path) : Prop := exists z, z <> [] /\ r = p ++ z.

Lemma above_trans p q r : above p q -> above q r -> above p r.
Proof.
  intros (z & Hz & ->) (y & Hy & ->). exists (z ++ y). rewrite app_assoc. split; auto.
  destruct z; [congruence|discriminate].
Qed.

Lemma above_ppre p r : above p r -> ppre p r = true.
Proof. intros (z & _ & ->). apply ppre_app. Qed.

Lemma ppre_above p r : ppre p r = true -> p = r \/ above p r.
Proof.
  intros H. apply ppre_iff in H. destruct H as [[|c z] ->].
  - left. rewrite app_nil_r. auto.
  - right. exists (c :: z). split; auto. discriminate.
Qed.

Lemma above_len p r : above p r -> length p < length r.
Proof. intros (z & Hz & ->). rewrite app_length. destruct z; [congruence|simpl; lia]. Qed.

(** A topmost element above any element of a list. *)
Lemma topmost (L : list mprow) y : In y L -> exists y', In y' L /\
  ppre (m_path y') (m_path y) = true /\ (forall z, In z L -> ~ above (m_path z) (m_path y')).
Proof.
  remember (length (m_path y)) as n eqn:En. revert y En.
  induction n as [n IH] using lt_wf_ind. intros y En Hy.
  destruct (existsb (fun z => ppre (m_path z) (m_path y) && negb (peq (m_path z) (m_path y))) L) eqn:E.
  - apply existsb_exists in E. destruct E as (z & Hz & E). apply andb_true_iff in E.
    destruct E as [E1 E2]. apply negb_true_iff, peq_false in E2.
    destruct (ppre_above _ _ E1) as [E3|E3]; [congruence|].
    assert (Hl := above_len _ _ E3).
    destruct (IH (length (m_path z)) ltac:(lia) z eq_refl Hz) as (y' & H1 & H2 & H3).
    exists y'. split; auto. split; auto.
    apply ppre_iff in H2. apply ppre_iff in E1. destruct H2 as [u Hu]. destruct E1 as [v Hv].
    rewrite Hv, Hu, <- app_assoc. apply ppre_app.
  - exists y. split; auto. split; [apply ppre_iff; exists []; rewrite app_nil_r; auto|].
    intros z Hz Hab. rewrite existsb_false in E. specialize (E z Hz).
    rewrite (above_ppre _ _ Hab) in E. simpl in E. apply negb_false_iff, peq_iff in E.
    apply above_len in Hab. rewrite E in Hab. lia.
Qed.

Section Del.
Variable cfg : mp_cfg.
Hypothesis radix2 : 2 <= radix cfg.
Hypothesis step1 : 1 <= steplen cfg.
Notation w := (steplen cfg).
Notation mkrow := (mkrow cfg).
Notation kpwf := (kpwf cfg).
Notation kvalid := (kvalid cfg).
Notation lay := (lay cfg).
Notation stores := (stores cfg).

(** The path of a row is a whole number of steps and its depth that number. *)
Definition aligned (r : mprow) : Prop := length (m_path r) = m_depth r * w /\ 1 <= m_depth r.

Lemma has_removed_ancestor_spec acc r : aligned r -> (forall x, In x acc -> aligned x) ->
  has_removed_ancestor cfg acc r = true <-> exists x, In x acc /\ above (m_path x) (m_path r).
Proof.
  intros [Lr Dr] Ha. unfold has_removed_ancestor. rewrite existsb_exists.
  rewrite Lr, Nat.div_mul by lia. split.
  - intros (d & Hd & E). apply existsb_exists in E. destruct E as (x & Hx & E).
    apply peq_iff in E. apply in_seq in Hd. exists x. split; auto.
    exists (skipn (d * w) (m_path r)). split.
    + intros E0. apply (f_equal (@length _)) in E0. rewrite skipn_length, Lr in E0. simpl in E0.
      assert (d * w < m_depth r * w) by (apply Nat.mul_lt_mono_pos_r; lia). lia.
    + rewrite E. unfold get_basepath. rewrite firstn_skipn. auto.
  - intros (x & Hx & Hab). destruct (Ha x Hx) as [Lx Dx].
    exists (m_depth x). split.
    + apply in_seq. apply above_len in Hab. rewrite Lx, Lr in Hab.
      apply Nat.mul_lt_mono_pos_r in Hab; lia.
    + apply existsb_exists. exists x. split; auto. apply peq_iff.
      destruct Hab as (z & _ & Ez). rewrite Ez. symmetry. apply get_basepath_app; auto.
Qed.

(** The loop computes the topmost selected rows. *)
Lemma minimal_removed_spec L2 : forall P acc,
  NoDup (P ++ L2) -> (forall x, In x (P ++ L2) -> aligned x) ->
  (forall x y, In x P -> In y L2 -> m_depth x <= m_depth y) ->
  StronglySorted (fun a b => m_depth a <= m_depth b) L2 ->
  NoDup acc -> (forall r, In r acc <-> In r P /\ forall y, In y P -> ~ above (m_path y) (m_path r)) ->
  NoDup (minimal_removed cfg acc L2) /\
  (forall r, In r (minimal_removed cfg acc L2) <->
    In r (P ++ L2) /\ forall y, In y (P ++ L2) -> ~ above (m_path y) (m_path r)).
Proof.
  induction L2 as [|r L2 IH]; intros P acc ND Al Le So NDa Inv.
  - rewrite app_nil_r. simpl. auto.
  - assert (Epp : P ++ r :: L2 = (P ++ [r]) ++ L2) by (rewrite <- app_assoc; auto).
    apply StronglySorted_inv in So. destruct So as [So Fr]. rewrite Forall_forall in Fr.
    assert (Hdep : forall x y, In x (P ++ [r]) -> In y L2 -> m_depth x <= m_depth y).
    { intros x y Hx Hy. apply in_app_iff in Hx. destruct Hx as [Hx|[<-|[]]]; auto.
      apply Le; simpl; auto. }
    assert (Ar : aligned r) by (apply Al; apply in_app_iff; simpl; auto).
    assert (Aacc : forall x, In x acc -> aligned x).
    { intros x Hx. apply Inv in Hx. apply Al. apply in_app_iff. tauto. }
    assert (Hself : forall p, ~ above p p) by (intros p Hp; apply above_len in Hp; lia).
    assert (Hback : forall x, In x P -> ~ above (m_path r) (m_path x)).
    { intros x Hx Hab. assert (m_depth x <= m_depth r) by (apply Le; simpl; auto).
      apply above_len in Hab. destruct (Al x) as [Lx _]; [apply in_app_iff; auto|].
      destruct Ar as [Lr _]. rewrite Lx, Lr in Hab. apply Nat.mul_lt_mono_pos_r in Hab; lia. }
    assert (Hex : (exists x, In x acc /\ above (m_path x) (m_path r))
                  <-> exists x, In x P /\ above (m_path x) (m_path r)).
    { split; intros (x & Hx & Hab).
      - exists x. apply Inv in Hx. tauto.
      - destruct (topmost P x Hx) as (x' & Hx' & Hp & Hm). exists x'. split; [apply Inv; auto|].
        destruct (ppre_above _ _ Hp) as [E|E]; [congruence|eapply above_trans; eauto]. }
    cbn [minimal_removed]. rewrite Epp.
    destruct (has_removed_ancestor cfg acc r) eqn:Hr.
    + apply has_removed_ancestor_spec in Hr; auto. apply Hex in Hr. destruct Hr as (x0 & Hx0 & Hab0).
      apply IH; auto; try (rewrite <- Epp; auto).
      intros z. rewrite Inv. split.
      * intros [Hz Hm]. split; [apply in_app_iff; auto|]. intros y Hy.
        apply in_app_iff in Hy. destruct Hy as [Hy|[<-|[]]]; auto.
      * intros [Hz Hm]. apply in_app_iff in Hz. destruct Hz as [Hz|[<-|[]]].
        -- split; auto. intros y Hy. apply Hm. apply in_app_iff. auto.
        -- exfalso. apply (Hm x0); auto. apply in_app_iff. auto.
    + assert (Hno : ~ exists x, In x P /\ above (m_path x) (m_path r)).
      { rewrite <- Hex. rewrite <- has_removed_ancestor_spec by auto. congruence. }
      apply IH; auto; try (rewrite <- Epp; auto).
      * apply NoDup_app_iff. split; auto. split; [repeat constructor; simpl; tauto|].
        intros x Hx [<-|[]]. apply Inv in Hx. apply NoDup_remove_2 in ND. apply ND.
        apply in_app_iff. tauto.
      * intros z. rewrite !in_app_iff, Inv. simpl. split.
        -- intros [[Hz Hm]|[<-|[]]].
           ++ split; auto. intros y Hy. apply in_app_iff in Hy.
              destruct Hy as [Hy|[<-|[]]]; auto.
           ++ split; auto. intros y Hy. apply in_app_iff in Hy.
              destruct Hy as [Hy|[<-|[]]]; auto. intros Hab. apply Hno. eauto.
        -- intros [[Hz|[<-|[]]] Hm]; auto. left. split; auto. intros y Hy. apply Hm.
           apply in_app_iff. auto.
Qed.

(** *** The UPDATE statements *)
Definition lower (lost : path -> nat) (r : mprow) : mprow := set_nc r (m_nc r - lost (m_path r)).

Lemma dedup_spec l : NoDup (dedup_paths l) /\ forall p, In p (dedup_paths l) <-> In p l.
Proof.
  induction l as [|p l [IH1 IH2]]; simpl; [split; [constructor|tauto]|].
  destruct (existsb (peq p) (dedup_paths l)) eqn:E.
  - split; auto. intros q. rewrite IH2. split; auto. intros [<-|H]; auto.
    apply existsb_exists in E. destruct E as (x & Hx & E). apply peq_iff in E. subst. apply IH2; auto.
  - split.
    + constructor; auto. intros H. rewrite existsb_false in E. specialize (E p H).
      rewrite peq_refl in E. discriminate.
    + intros q. simpl. rewrite IH2. tauto.
Qed.

Lemma run_updates ps : NoDup ps -> forall lost t,
  run_statements t (map (fun p => map (upd_nc p (fun n => n - lost p))) ps)
  = map (fun r => if existsb (peq (m_path r)) ps then lower lost r else r) t.
Proof.
  induction 1 as [|p ps Hp ND IH]; intros lost t.
  - unfold run_statements. simpl. rewrite map_id. auto.
  - unfold run_statements in *. simpl. rewrite IH, map_map. apply map_ext. intros r.
    unfold upd_nc. destruct (peq (m_path r) p) eqn:E; simpl; rewrite ?E; simpl; auto.
    apply peq_iff in E. replace (existsb (peq (m_path r)) ps) with false.
    + unfold lower, set_nc. rewrite <- E. auto.
    + symmetry. apply existsb_false. intros q Hq. apply peq_false. intros E2. congruence.
Qed.

Lemma lost_none removed p : p <> [] -> existsb (peq p) (parents_of_removed cfg removed) = false ->
  lost_children cfg removed p = 0.
Proof.
  intros Hp H. unfold lost_children. rewrite filter_none; auto.
  intros r Hr. apply peq_false. intros E. rewrite existsb_false in H.
  specialize (H p). rewrite peq_refl in H. discriminate H.
  unfold parents_of_removed. apply dedup_spec. apply filter_In. split.
  - rewrite <- E. apply in_map; auto.
  - destruct p; auto.
Qed.

Lemma run_all removed t : (forall r, In r t -> m_path r <> []) ->
  run_statements t
    (map (fun p => map (upd_nc p (fun n => n - lost_children cfg removed p))) (parents_of_removed cfg removed)
     ++ [filter (fun r => negb (deleted_row removed r))])
  = map (lower (lost_children cfg removed)) (filter (fun r => negb (deleted_row removed r)) t).
Proof.
  intros H. unfold run_statements. rewrite fold_left_app. cbn [fold_left].
  change (fold_left (fun t s => s t) ?l t) with (run_statements t l).
  rewrite (run_updates (parents_of_removed cfg removed) (proj1 (dedup_spec _)) (lost_children cfg removed)).
  assert (E : map (fun r => if existsb (peq (m_path r)) (parents_of_removed cfg removed)
                            then lower (lost_children cfg removed) r else r) t
              = map (lower (lost_children cfg removed)) t).
  { apply map_ext_in. intros r Hr.
    destruct (existsb (peq (m_path r)) (parents_of_removed cfg removed)) eqn:Ex; auto.
    apply lost_none in Ex; auto. unfold lower. rewrite Ex. destruct r. unfold set_nc. simpl.
    rewrite Nat.sub_0_r. auto. }
  rewrite E. rewrite filter_map. f_equal.
Qed.

(** *** The table after the delete *)
Section Main.
Variable t : mp_table.
Variable f : kf.
Variable sel : mprow -> bool.
Hypothesis L : lay t f.
Hypothesis N : nc_ok f.
Hypothesis I : wf_ids (kerase f).

Let St (i : nat) : bool := existsb (fun r => (m_pk r =? i) && sel r) t.
Let Sp (a : payload) : bool := St (nid (fst a)).
Let removed := minimal_removed cfg [] (isort depth_path_le (filter sel t)).
Let lost := lost_children cfg removed.
Let g (p : path) (a : payload) : payload := (fst a, snd a - lost p).

Lemma St_sel r : In r t -> St (m_pk r) = sel r.
Proof.
  intros H. unfold St. destruct (sel r) eqn:E.
  - apply existsb_exists. exists r. rewrite Nat.eqb_refl. auto.
  - apply existsb_false. intros r' H'. destruct (Nat.eqb_spec (m_pk r') (m_pk r)) as [Ek|]; auto.
    rewrite (pk_inj cfg t f r' r) by auto. rewrite E. auto.
Qed.

Lemma Sp_sel x : In x (rows f) -> Sp (snd x) = sel (mkrow x).
Proof. intros H. unfold Sp. apply (St_sel (mkrow x)). eapply lay_in_rev; eauto. Qed.

Lemma row_aligned r : In r t -> aligned r.
Proof.
  intros H. destruct (lay_in cfg _ _ _ L H) as (x & Hx & ->). destruct L as (W & _).
  apply (depth_spec cfg radix2 step1 f x W Hx).
Qed.

Lemma removed_spec :
  NoDup removed /\
  (forall r, In r removed <-> In r t /\ sel r = true /\
     forall y, In y t -> sel y = true -> ~ above (m_path y) (m_path r)).
Proof.
  assert (Pm : Permutation (isort depth_path_le (filter sel t)) (filter sel t)) by apply isort_perm.
  assert (ND : NoDup (isort depth_path_le (filter sel t))).
  { rewrite Pm. apply NoDup_filter. apply NoDup_map_inv with (f := m_pk).
    rewrite (lay_pks cfg _ _ L). auto. }
  assert (Hin : forall r, In r (isort depth_path_le (filter sel t)) <-> In r t /\ sel r = true).
  { intros r. rewrite <- filter_In. split; apply Permutation_in; auto. symmetry; auto. }
  destruct (minimal_removed_spec (isort depth_path_le (filter sel t)) [] []) as [H1 H2]; auto.
  - simpl. intros x Hx. apply row_aligned. apply Hin in Hx. tauto.
  - simpl; tauto.
  - apply isort_ssorted.
    + intros x y H. unfold depth_path_le in H. apply orb_true_iff in H. destruct H as [H|H].
      * apply Nat.ltb_lt in H. lia.
      * apply andb_true_iff in H. destruct H as [H _]. apply Nat.eqb_eq in H. lia.
    + intros x y H. unfold depth_path_le in H. apply orb_false_iff in H. destruct H as [H _].
      apply Nat.ltb_ge in H. lia.
    + intros. lia.
  - constructor.
  - simpl. tauto.
  - split; [exact H1|]. intros r. unfold removed. rewrite H2. simpl. rewrite Hin. split.
    + intros [[Ht Hs] Hm]. repeat split; auto. intros y Hy Hsy. apply Hm. apply Hin. auto.
    + intros (Ht & Hs & Hm). split; auto. intros y Hy. apply Hin in Hy. apply Hm; tauto.
Qed.

Lemma leaf_alone x y : In x (rows f) -> is_leaf (mkrow x) = true -> In y (rows f) ->
  ppre (fst x) (fst y) = true -> y = x.
Proof.
  intros Hx Hl Hy Hp. destruct L as (W & _). destruct x as [p a].
  destruct (row_kids f p a Hx) as [l HA]. destruct (HA a l) as [f' HA'].
  assert (Nl := nc_At_par _ _ _ _ _ _ _ HA' N).
  unfold is_leaf in Hl. simpl in Hl. apply Nat.eqb_eq in Hl.
  assert (El : l = Nil).
  { destruct l; auto. simpl in Nl. lia. }
  assert (F := k_prefix cfg step1 _ _ _ _ _ _ HA' W). rewrite El in F. simpl in F.
  assert (Hin : In y [(p, a)]) by (rewrite <- F; apply filter_In; auto).
  destruct Hin as [<-|[]]. auto.
Qed.

Lemma deleted_spec x : In x (rows f) -> deleted_row removed (mkrow x) = hit Nat.ltb Sp (rows f) x.
Proof.
  intros Hx. destruct removed_spec as [_ Hrem]. apply eq_true_iff_eq.
  unfold deleted_row, hit. rewrite !existsb_exists. split.
  - intros (r & Hr & E). apply Hrem in Hr. destruct Hr as (Ht & Hs & _).
    destruct (lay_in cfg _ _ _ L Ht) as (y & Hy & ->). exists y. split; auto.
    rewrite (Sp_sel y Hy), Hs. cbn [andb].
    destruct (is_leaf (mkrow y)).
    + apply Nat.eqb_eq in E.
      assert (Exy : mkrow x = mkrow y).
      { eapply pk_inj; eauto. eapply lay_in_rev; eauto. }
      assert (fst x = fst y) as -> by (apply (f_equal m_path) in Exy; auto).
      apply (ppre_iff (fst y) (fst y)). exists []. rewrite app_nil_r. auto.
    + exact E.
  - intros (y & Hy & E). apply andb_true_iff in E. destruct E as [E1 E2].
    rewrite (Sp_sel y Hy) in E1.
    destruct (topmost (filter sel t) (mkrow y)) as (r & Hr & Hp & Hm).
    { apply filter_In. split; auto. eapply lay_in_rev; eauto. }
    apply filter_In in Hr. exists r. split.
    { apply Hrem. split; [tauto|]. split; [tauto|]. intros z Hz Hsz. apply Hm. apply filter_In. auto. }
    destruct (lay_in cfg _ _ _ L (proj1 Hr)) as (u & Hu & ->).
    assert (Hux : ppre (fst u) (fst x) = true).
    { apply ppre_iff in Hp. destruct Hp as [a Ea]. apply (ppre_iff (fst y) (fst x)) in E2.
      destruct E2 as [b Eb]. rewrite Eb. change (fst y) with (m_path (mkrow y)). rewrite Ea.
      rewrite <- app_assoc. apply ppre_app. }
    destruct (is_leaf (mkrow u)) eqn:El; auto.
    rewrite (leaf_alone u x Hu El Hx Hux). apply Nat.eqb_refl.
Qed.

(** A surviving node loses exactly its selected children. *)
Lemma lost_spec q a l : At q (Some (a, a)) l l f f -> hit Nat.ltb Sp (rows f) (q, a) = false ->
  lost q = length (filter (fun x => Sp (snd x)) (roots l)).
Proof.
  intros HA Hh. assert (W := L). destruct W as (W & _).
  destruct removed_spec as [ND Hrem].
  unfold lost, lost_children.
  replace (length (filter (fun x => Sp (snd x)) (roots l)))
    with (length (map mkrow (map (pre q) (filter (fun x => Sp (snd x)) (roots l)))))
    by (rewrite !map_length; auto).
  assert (K := k_children cfg step1 _ _ _ _ _ _ HA W).
  destruct (k_At_len cfg step1 _ _ _ _ _ _ HA W) as [n Ln].
  assert (Wl := k_At_pwf_l cfg _ _ _ _ _ _ HA W).
  apply Permutation_length. apply NoDup_Permutation.
  - apply NoDup_filter. auto.
  - apply NoDup_map_inv with (f := m_path). rewrite !map_map. simpl.
    assert (NDr : NoDup (map (fun x : path * payload => q ++ fst x) (roots l))).
    { assert (NDf := k_NoDup cfg step1 f W).
      assert (NDc : NoDup (map fst (map (pre q) (roots l)))).
      { rewrite <- K. clear - NDf. induction (rows f) as [|y ys IH]; simpl; [constructor|].
        simpl in NDf. apply NoDup_cons_iff in NDf. destruct NDf as [N1 N2].
        destruct (ppre q (fst y) && (length (fst y) =? length q + w)); simpl; auto.
        constructor; auto. intros H. apply N1. apply in_map_iff in H. destruct H as [z [<- Hz]].
        apply filter_In in Hz. apply in_map. tauto. }
      rewrite map_map in NDc. exact NDc. }
    clear - NDr. induction (roots l) as [|y ys IH]; simpl; [constructor|].
    simpl in NDr. apply NoDup_cons_iff in NDr. destruct NDr as [N1 N2].
    destruct (Sp (snd y)); simpl; auto. constructor; auto.
    intros H. apply N1. apply in_map_iff in H. destruct H as [z [<- Hz]].
    apply filter_In in Hz. apply in_map_iff. exists z. tauto.
  - intros r. rewrite filter_In, Hrem. split.
    + intros [(Ht & Hs & Hm) E]. apply peq_iff in E.
      destruct (lay_in cfg _ _ _ L Ht) as (x & Hx & ->).
      destruct (depth_spec cfg radix2 step1 f x W Hx) as [Lx Dx].
      assert (Hk : In x (map (pre q) (roots l))).
      { rewrite <- K. apply filter_In. split; auto.
        unfold parent_path_of, get_basepath in E. simpl m_path in E.
        rewrite <- (firstn_skipn ((m_depth (mkrow x) - 1) * w) (fst x)).
        rewrite E, ppre_app. cbn [andb]. apply Nat.eqb_eq. rewrite app_length, skipn_length, Lx.
        revert Dx. generalize (m_depth (mkrow x)) as d. intros [|d] Dx; [lia|].
        rewrite Nat.sub_succ, Nat.sub_0_r. simpl. lia. }
      apply in_map_iff in Hk. destruct Hk as (z & <- & Hz).
      apply in_map. apply in_map. apply filter_In. split; auto.
      rewrite <- Hs. rewrite <- (Sp_sel (pre q z)) by auto. reflexivity.
    + intros H. apply in_map_iff in H. destruct H as (x & <- & Hx).
      apply in_map_iff in Hx. destruct Hx as (z & <- & Hz). apply filter_In in Hz.
      destruct Hz as [Hz Sz].
      assert (Hx : In (pre q z) (rows f)).
      { destruct z as [s b]. eapply k_root_in; eauto. }
      assert (Lz : length (fst z) = w) by (eapply roots_len; eauto).
      split; [split; [eapply lay_in_rev; eauto|split]|].
      * rewrite <- (Sp_sel (pre q z)) by auto. exact Sz.
      * intros y Hy Hsy Hab. destruct (lay_in cfg _ _ _ L Hy) as (y0 & Hy0 & ->).
        destruct (depth_spec cfg radix2 step1 f y0 W Hy0) as [Ly Dy].
        simpl in Hab. assert (Hl := above_len _ _ Hab). rewrite app_length, Ln, Lz, Ly in Hl.
        assert (Hd : m_depth (mkrow y0) <= n) by nia.
        unfold hit in Hh. rewrite existsb_false in Hh. specialize (Hh y0 Hy0).
        rewrite (Sp_sel y0 Hy0), Hsy in Hh. simpl in Hh.
        assert (Hpq : ppre (fst y0) q = true); [|unfold ppre in Hpq; congruence].
        destruct Hab as (v & _ & Ev).
        apply ppre_iff. exists (skipn (length (fst y0)) q).
        rewrite <- (firstn_skipn (length (fst y0)) q) at 1. f_equal.
        assert (Ef := f_equal (firstn (length (fst y0))) Ev). simpl m_path in Ef.
        rewrite !firstn_app in Ef. replace (length (fst y0) - length q) with 0 in Ef
          by (assert (H0 := Nat.mul_le_mono_r _ _ w Hd); rewrite <- Ln, <- Ly in H0; lia).
        rewrite Nat.sub_diag, firstn_all in Ef. simpl in Ef. rewrite !app_nil_r in Ef. auto.
      * apply peq_iff. unfold parent_path_of.
        destruct (depth_spec cfg radix2 step1 f _ W Hx) as [Lx Dx].
        change (m_path (mkrow (pre q z))) with (q ++ fst z).
        simpl fst in Lx. rewrite app_length, Ln, Lz in Lx.
        apply get_basepath_app. nia.
Qed.

Lemma kdel_nc p (h : kf) : nc_ok h ->
  everywhere Sp (fun q l => lost q = length (filter (fun x => Sp (snd x)) (roots l))) p h ->
  nc_ok (kdel Sp g p h).
Proof.
  revert p. induction h as [|x k IHk r IHr]; simpl; intros p Nh E; auto.
  destruct Nh as (N1 & N2 & N3). destruct E as [E1 E2].
  destruct (Sp (snd x)) eqn:S0; auto. destruct (E1 eq_refl) as [E3 E4].
  simpl. repeat split; auto. rewrite N1, E3, kdel_roots_len.
  symmetry. apply (filter_negb_length (fun x : path * payload => Sp (snd x))).
Qed.

Lemma kdel_erase p (h : kf) : kerase (kdel Sp g p h) = remove_all St (kerase h).
Proof.
  revert p. induction h as [|x k IHk r IHr]; simpl; intros p; auto.
  unfold kerase, erase in *. simpl. unfold Sp. destruct (St (nid (fst (snd x)))); auto.
  simpl. rewrite IHk, IHr. auto.
Qed.

Lemma kdel_valid p (h : kf) : kvalid h -> kvalid (kdel Sp g p h).
Proof.
  revert p. induction h as [|x k IHk r IHr]; simpl; intros p V; auto.
  apply kvalid_cons in V. destruct V as (V1 & V2 & V3).
  destruct (Sp (snd x)); auto. apply kvalid_cons. auto.
Qed.

Lemma delete_rows : lay (delete_queryset cfg t sel) (kdel Sp g [] f) /\ nc_ok (kdel Sp g [] f).
Proof.
  assert (L' := L). destruct L' as (W & V & P). split.
  - split; [apply kdel_pwf; auto|]. split; [apply kdel_valid; auto|].
    unfold delete_queryset, delete_statements. fold removed.
    rewrite run_all.
    + rewrite (@kdel_rows _ Nat.ltb w payload irr ltb_tot' step1) by auto.
      rewrite (Permutation_filter _ P), filter_map, !map_map.
      match goal with |- Permutation (map ?a ?b) (map ?c ?d) =>
        assert (Ef : b = d); [|rewrite Ef] end.
      { apply filter_ext_In. intros x Hx. rewrite deleted_spec by auto. auto. }
      erewrite map_ext; [reflexivity|]. intros x. reflexivity.
    + intros r Hr E. destruct (row_aligned r Hr) as [Hl Hd]. rewrite E in Hl. simpl in Hl. nia.
  - apply kdel_nc; auto.
    apply (@everywhere_At _ Nat.ltb w payload irr ltb_tot' step1); auto. apply lost_spec.
Qed.

End Main.

(** Deleting a queryset removes exactly the subtrees of the selected nodes; every
    path, depth and child count left is right. *)
Theorem delete_queryset_ok t F sel : stores t F ->
  stores (delete_queryset cfg t sel)
         (remove_all (fun i => existsb (fun r => (m_pk r =? i) && sel r) t) F).
Proof.
  intros (f & L & N & <- & I).
  destruct (delete_rows t f sel L N I) as [H1 H2].
  eexists. split; [exact H1|]. split; [exact H2|]. split; [apply kdel_erase|].
  apply remove_all_wf; auto.
Qed.

Theorem delete_node_ok t F n : stores t F -> In n t ->
  stores (delete_node cfg t n) (remove (m_pk n) F).
Proof.
  intros H Hn. unfold delete_node.
  replace (remove (m_pk n) F)
    with (remove_all (fun i => existsb (fun r => (m_pk r =? i) && (m_pk r =? m_pk n)) t) F).
  - apply delete_queryset_ok. auto.
  - rewrite <- remove_all_one by (destruct H as (f & _ & _ & <- & I); auto). apply remove_all_ext. intros i _.
    apply eq_true_iff_eq. rewrite existsb_exists. split.
    + intros (r & _ & E). apply andb_true_iff in E. destruct E as [E1 E2].
      apply Nat.eqb_eq in E1. apply Nat.eqb_eq in E2. apply Nat.eqb_eq. congruence.
    + intros E. apply Nat.eqb_eq in E. subst. exists n. rewrite Nat.eqb_refl. auto.
Qed.

End Del.
