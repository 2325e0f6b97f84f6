(** dump_bulk of the four implementations. *)
From Coq Require Import String List Arith Lia Bool ZArith Permutation Sorted.
From Verif Require Import Prelude Forest SpecFacts SpecSane CommonModel Order History SpecKids PathTab AnnModel AnnFacts
  BulkModel BulkFacts BulkDump.
From Verif Require MPModel MPStep MPInv MPReorder MPReads MPCheck PropsMP NSModel NSInv NSReads PropsNS
  ALModel ALInv ALReads ALAnswers PropsAL LTModel LTInv LTReads LTCheck PropsLT PropsAnn.
Import ListNotations.
Local Open Scope nat_scope.

(** The dump of a forest: its nodes with their data and, if wanted, their primary keys. *)
Definition dumped (keep_ids : bool) (B : forest node) : forest item :=
  fmap (fun x => new_item keep_ids (nid x) (ndata x)) B.

(** A column of the row with a given primary key. *)
Definition col {A K} (pk : A -> nat) (k : A -> K) (d : K) (t : list A) (i : nat) : K :=
  match find (fun r => pk r =? i) t with Some r => k r | None => d end.

Lemma col_at {A K} (pk : A -> nat) (k : A -> K) d t r : NoDup (map pk t) -> In r t -> col pk k d t (pk r) = k r.
Proof.
  unfold col. induction t as [|x t IH]; cbn [map find]; intros U Hr; [destruct Hr|].
  apply NoDup_cons_iff in U. destruct U as (Ux & U). destruct (Nat.eqb_spec (pk x) (pk r)) as [E|N].
  - destruct Hr as [->|Hr]; auto. exfalso. apply Ux. rewrite E. apply in_map. auto.
  - destruct Hr as [->|Hr]; [congruence|]. auto.
Qed.

Lemma nodup_map_inj {A B} (f : A -> B) l : NoDup l -> (forall a b, In a l -> In b l -> f a = f b -> a = b) -> NoDup (map f l).
Proof.
  induction l as [|a l IH]; cbn [map]; intros N H; constructor; apply NoDup_cons_iff in N.
  - intros X. apply in_map_iff in X. destruct X as (b & E & Hb). assert (b = a) by (apply H; cbn; auto). subst. tauto.
  - apply IH; [tauto|]. intros. apply H; cbn; auto.
Qed.

Lemma nodup_inj {A B} (f : A -> B) l a b : NoDup (map f l) -> In a l -> In b l -> f a = f b -> a = b.
Proof.
  induction l as [|x l IH]; cbn [map]; intros N Ha Hb E; [destruct Ha|].
  apply NoDup_cons_iff in N. destruct N as (Nx & N). destruct Ha as [->|Ha], Hb as [->|Hb]; auto.
  - exfalso. apply Nx. rewrite E. apply in_map. auto.
  - exfalso. apply Nx. rewrite <- E. apply in_map. auto.
Qed.

Lemma branch_pre_in F p y : In y (preorder (branch p F)) -> In y (preorder F).
Proof.
  destruct p as [p|]; auto. cbn [branch]. intros H. assert (X := subtree_children p F).
  destruct (children_of p F) as [c|] eqn:E; [|rewrite X in H; destruct H].
  destruct X as (a & <- & Ha & Es). rewrite Es in H. cbn [preorder In] in H. rewrite app_nil_r in H.
  destruct H as [<-|H]; auto.
  clear - E H. revert c E H. induction F as [|b k IHk r IHr]; [discriminate|]. intros c. cbn [children_of preorder In].
  rewrite in_app_iff. destruct (nid b =? nid a); [intros [= ->]; auto|].
  destruct (children_of (nid a) k) as [c'|]; [intros [= ->]; eauto|]. eauto.
Qed.

(** ** Materialized paths *)
Section MP.
Import MPModel MPStep MPInv MPReorder MPReads MPCheck.
Variable cfg : mp_cfg.
Hypothesis radix2 : 2 <= radix cfg.
Hypothesis step1 : 1 <= steplen cfg.
Notation w := (steplen cfg).

Lemma plt_trans a b c : plt a b = true -> plt b c = true -> plt a c = true.
Proof. eapply llt_trans; eauto using irr, ltb_tr', ltb_tot'. Qed.
Lemma plt_total a b : plt a b = false -> plt b a = false -> a = b.
Proof. eapply llt_total; eauto using irr, ltb_tr', ltb_tot'. Qed.
Lemma plt_le_trans a b c : plt b a = false -> plt c b = false -> plt c a = false.
Proof.
  intros H1 H2. destruct (plt c a) eqn:E; auto. destruct (plt a b) eqn:E1.
  - rewrite (plt_trans _ _ _ E E1) in H2. discriminate.
  - rewrite (plt_total a b E1 H1) in E. congruence.
Qed.

Lemma mp_all t F r : stores cfg t F -> In r t -> In (node_of r) (preorder F).
Proof.
  intros St Hr. assert (E0 := PropsMP.C07_tree cfg radix2 step1 t F None St). cbn [prune_opt] in E0.
  rewrite <- E0. apply in_map. apply (Permutation_in _ (Permutation_sym (isort_perm _ _))). apply filter_In. auto.
Qed.

(** The rows below a path. *)
Lemma mp_below t F p r : stores cfg t F -> In p t -> In r t ->
  (ppre (m_path p) (m_path r) = true <-> In (node_of r) (preorder (branch (Some (m_pk p)) F))).
Proof.
  intros St Hp Hr. assert (W := PropsMP.stores_wf _ _ _ St).
  destruct (PropsMP.C07_descendants cfg radix2 step1 t F p None St Hp) as (k & Ek & _).
  assert (B : preorder (branch (Some (m_pk p)) F) = node_of p :: preorder k)
    by (apply (branch_preorder F (node_of p) k); auto; apply (mp_all t); auto).
  rewrite B. destruct (proj1 (stores_iff cfg radix2 step1 t) (ex_intro _ F St)) as (P & D & C & U).
  destruct (PropsMP.C07_predicates cfg radix2 step1 t F r p St Hr Hp) as (_ & _ & Hd).
  unfold is_descendant_of in Hd.
  assert (Dr := D r Hr). assert (Dp := D p Hp).
  destruct (po_len _ _ P r Hr) as (nr & Lr). destruct (po_len _ _ P p Hp) as (np & Lp).
  rewrite Lr, Nat.div_mul in Dr by lia. rewrite Lp, Nat.div_mul in Dp by lia.
  split.
  - intros H. destruct (Nat.ltb_spec (m_depth p) (m_depth r)) as [Lt|Ge].
    + right. assert (X : descends F (m_pk p) (m_pk r)) by (apply Hd; rewrite H; auto).
      unfold descends in X. destruct X as (k' & Ek' & X). rewrite Ek in Ek'. injection Ek' as <-.
      unfold ids in X. apply in_map_iff in X. destruct X as (y & Ey & Hy).
      replace (node_of r) with y; auto. apply (node_eq F); auto.
      * apply (branch_pre_in F (Some (m_pk p))). rewrite B. right. auto.
      * apply (mp_all t); auto.
    + left. f_equal. apply ppre_iff in H. destruct H as (x & Ex).
      assert (x = []).
      { destruct x; auto. apply (f_equal (@length _)) in Ex. rewrite app_length, Lr, Lp in Ex. cbn in Ex. nia. }
      subst x. rewrite app_nil_r in Ex. apply (nodup_inj m_path t); auto. apply P.
  - intros [H|H].
    + assert (E : m_pk p = m_pk r) by (apply (f_equal nid) in H; exact H).
      assert (p = r) as ->; [|apply ppre_iff; exists []; rewrite app_nil_r; auto].
      apply (nodup_inj m_pk t); auto.
    + assert (X : descends F (m_pk p) (m_pk r)) by (exists k; split; auto; apply (in_map nid _ _ H)).
      apply Hd in X. apply andb_prop in X. tauto.
Qed.

Lemma depth_path_total a b : depth_path_le a b = false -> depth_path_le b a = true.
Proof.
  unfold depth_path_le. destruct (Nat.ltb_spec (m_depth a) (m_depth b)); cbn [orb]; [discriminate|].
  destruct (Nat.eqb_spec (m_depth a) (m_depth b)) as [E|N]; cbn [andb].
  - intros H1. apply negb_false_iff in H1. rewrite E, Nat.ltb_irrefl, Nat.eqb_refl. cbn.
    rewrite (plt_asym _ _ H1). auto.
  - intros _. destruct (Nat.ltb_spec (m_depth b) (m_depth a)); auto. lia.
Qed.

Lemma depth_path_trans a b c : depth_path_le a b = true -> depth_path_le b c = true -> depth_path_le a c = true.
Proof.
  unfold depth_path_le. rewrite !orb_true_iff, !andb_true_iff, !Nat.ltb_lt, !Nat.eqb_eq, !negb_true_iff.
  intros [H|(E & H)] [H'|(E' & H')]; try (left; lia). right. split; [lia|]. eapply plt_le_trans; eauto.
Qed.

Theorem mp_dump_ok t F parent keep_ids : stores cfg t F -> (forall p, parent = Some p -> In p t) ->
  mp_dump_bulk cfg t parent keep_ids = Ok (dumped keep_ids (branch (option_map m_pk parent) F)).
Proof.
  intros St Hp. assert (W := PropsMP.stores_wf _ _ _ St).
  destruct (proj1 (stores_iff cfg radix2 step1 t) (ex_intro _ F St)) as (P & D & C & U).
  unfold mp_dump_bulk, dumped. set (p := option_map m_pk parent).
  set (sel := match parent with Some q => filter (fun r => ppre (m_path q) (m_path r)) t | None => t end).
  set (rows := isort depth_path_le sel).
  assert (Hsel : forall r, In r rows <-> In r sel).
  { intros r. split; apply Permutation_in; [|apply Permutation_sym]; apply isort_perm. }
  assert (Hin : forall r, In r rows <-> In r t /\ In (node_of r) (preorder (branch p F))).
  { intros r. rewrite Hsel. unfold sel, p. destruct parent as [q|]; cbn [option_map branch].
    - rewrite filter_In. split; intros (H1 & H2); split; auto; apply (mp_below t F q r St); auto.
    - split; [|tauto]. intros H. split; auto. apply (mp_all t); auto. }
  assert (NDs : NoDup sel).
  { assert (X : NoDup t) by (eapply NoDup_map_inv; eauto). unfold sel. destruct parent; auto. apply NoDup_filter. auto. }
  assert (Inj : forall a b, In a t -> In b t -> m_pk a = m_pk b -> a = b) by (intros a b; apply (nodup_inj m_pk); auto).
  assert (Inp : forall a b, In a t -> In b t -> m_path a = m_path b -> a = b) by (intros a b; apply (nodup_inj m_path); apply P).
  (* every node has a row *)
  assert (All : forall y, In y (preorder F) -> exists r, In r t /\ node_of r = y).
  { intros y Hy. assert (E0 := PropsMP.C07_tree cfg radix2 step1 t F None St). cbn [prune_opt] in E0. rewrite <- E0 in Hy.
    apply in_map_iff in Hy. destruct Hy as (r & <- & Hr). exists r. split; auto.
    apply (Permutation_in _ (isort_perm _ _)) in Hr. apply filter_In in Hr. tauto. }
  assert (Len : forall r, In r t -> length (m_path r) / w = m_depth r /\ length (m_path r) = m_depth r * w).
  { intros r Hr. assert (Dr := D r Hr). destruct (po_len _ _ P r Hr) as (n & L). rewrite L, Nat.div_mul in Dr by lia.
    rewrite L, Nat.div_mul, <- Dr by lia. auto. }
  apply (dump_branch peq (col m_pk m_path [] t) (fun x => new_item keep_ids (nid x) (ndata x)) node_of rows
     m_path (fun r => Ok (if match parent with Some q => length (m_path r) =? length (m_path q) | None => length (m_path r) / w =? 1 end
                         then None else Some (get_basepath cfg (m_path r) (length (m_path r) / w - 1)))) F p W).
  - apply (sorted_unfolds node_of (fun a b => depth_path_le a b = true) rows F p W).
    + apply NoDup_Permutation.
      * apply (NoDup_map_inv nid). rewrite map_map. cbn [node_of nid].
        assert (NR : NoDup rows) by (eapply Permutation_NoDup; [apply Permutation_sym, isort_perm|auto]).
        apply nodup_map_inj; auto. intros a b Ha Hb. apply Inj; apply Hin; auto.
      * apply (NoDup_map_inv nid). apply (branch_wf p F W).
      * intros y. rewrite in_map_iff. split.
        -- intros (r & <- & Hr). apply Hin. auto.
        -- intros Hy. destruct (All y (branch_pre_in F p y Hy)) as (r & Hr & <-). exists r. split; auto. apply Hin. auto.
    + apply ALReads.isort_sorted.
      * intros a b _ _. apply depth_path_total.
      * intros a b c _ _ _. apply depth_path_trans.
    + intros r s Hr Hs Ep Hle. apply Hin in Hr, Hs.
      destruct (PropsMP.C07_predicates cfg radix2 step1 t F s r St) as (Hc & _); try tauto. apply Hc in Ep.
      unfold is_child_of in Ep. apply andb_prop in Ep. destruct Ep as (_ & Ed). apply Nat.eqb_eq in Ed.
      unfold depth_path_le in Hle. rewrite orb_true_iff, andb_true_iff, Nat.ltb_lt, Nat.eqb_eq in Hle. lia.
    + intros q A s C0 r Ek Hr Hs Ha Hle. apply Hin in Hr, Hs. destruct Hr as (Hr & _), Hs as (Hs & _).
      assert (Es : siblings_of (m_pk s) F = kl q F).
      { assert (Hi : In (node_of s) (kl q F)) by (rewrite Ek; apply in_app_iff; cbn; auto).
        destruct (kl_inv _ _ _ Hi) as (l & El & _ & E2). unfold siblings_of.
        assert (X := kl_parent q F (node_of s) W Hi). cbn [node_of nid] in X. rewrite X, El. auto. }
      assert (E1 := proj1 (PropsMP.C07_siblings cfg radix2 step1 t F s St Hs)). rewrite Es, Ek in E1.
      apply map_app_split in E1. destruct E1 as (R1 & R2 & E1 & M1 & M2).
      destruct R2 as [|s' R2]; [discriminate|]. cbn [map] in M2. injection M2 as M2 _.
      assert (SS : StronglySorted (fun a b => le_key m_path plt a b = true) (get_siblings cfg t s)).
      { unfold get_siblings, order_path. apply ALReads.isort_sorted; unfold le_key.
        - intros a b _ _ H0. apply negb_false_iff in H0. rewrite (plt_asym _ _ H0). auto.
        - intros a b c I1 I2 I3 H1 H2. apply negb_true_iff in H1, H2. apply negb_true_iff. eapply plt_le_trans; eauto. }
      assert (Sub : forall x, In x (get_siblings cfg t s) -> In x t /\ m_depth x = m_depth s).
      { intros x Hx. unfold get_siblings in Hx. apply (Permutation_in _ (isort_perm _ _)) in Hx. apply filter_In in Hx.
        destruct Hx as (Hx & H2). apply andb_prop in H2. destruct H2 as (H2 & _). apply Nat.eqb_eq in H2. auto. }
      rewrite E1 in SS, Sub.
      assert (s' = s).
      { apply Inj; [apply Sub, in_app_iff; cbn; auto|auto|exact M2]. }
      subst s'. rewrite <- M1 in Ha. apply in_map_iff in Ha. destruct Ha as (r' & M & Hr').
      assert (r' = r).
      { apply Inj; [apply Sub, in_app_iff; cbn; auto|auto|]. apply (f_equal nid) in M. exact M. }
      subst r'. destruct (Sub r) as (_ & Ed); [apply in_app_iff; auto|].
      assert (L1 : plt (m_path s) (m_path r) = false).
      { clear - SS Hr'. induction R1 as [|x R1 IH]; [destruct Hr'|]. cbn [app] in SS. apply StronglySorted_inv in SS.
        destruct SS as (SS & Hf). destruct Hr' as [->|Hr']; auto. rewrite Forall_forall in Hf.
        specialize (Hf s). unfold le_key in Hf. apply negb_true_iff. apply Hf. apply in_app_iff. cbn. auto. }
      unfold depth_path_le in Hle. rewrite Ed, Nat.ltb_irrefl, Nat.eqb_refl in Hle. cbn in Hle. apply negb_true_iff in Hle.
      assert (r = s) by (apply Inp; auto; apply plt_total; auto). subst r.
      assert (NK := kl_nodup q F W). rewrite Ek, map_app in NK. cbn [map] in NK. apply NoDup_remove_2 in NK. apply NK.
      apply in_app_iff. left. apply in_map. rewrite <- M1. apply in_map. auto.
  - intros i j Hi Hj. unfold ids in Hi, Hj. apply in_map_iff in Hi, Hj.
    destruct Hi as (x & <- & Hx), Hj as (y & <- & Hy).
    destruct (All x Hx) as (r & Hr & <-), (All y Hy) as (s & Hs & <-). cbn [node_of nid].
    rewrite !(col_at m_pk) by auto. destruct (Nat.eqb_spec (m_pk r) (m_pk s)) as [E|N].
    + apply peq_iff. f_equal. auto.
    + apply peq_false. intros E. apply N. f_equal. auto.
  - intros r Hr. apply Hin in Hr. destruct Hr as (Hr & Hb). cbn [node_of nid]. rewrite (col_at m_pk) by auto. split; auto.
    intros up Eu. destruct (Len r Hr) as (L1 & L2). rewrite L1. f_equal.
    destruct (PropsMP.C07_ancestors cfg radix2 step1 t F r St Hr) as (A & EA & _ & Ed & _).
    assert (T : is_top p (m_pk r) up = match parent with Some q => length (m_path r) =? length (m_path q) | None => m_depth r =? 1 end).
    { rewrite (top_by_level p F (m_pk r) up A W (in_map nid _ _ Hb) Eu EA), <- Ed. unfold p. destruct parent as [q|]; auto.
      cbn [option_map top_level]. assert (Hq := Hp q eq_refl).
      destruct (PropsMP.C07_ancestors cfg radix2 step1 t F q St Hq) as (Aq & EAq & _ & Edq & _). rewrite EAq.
      destruct (Len q Hq) as (_ & Lq). rewrite L2, Lq, Edq.
      destruct (Nat.eqb_spec (m_depth r) (S (length Aq))) as [->|N]; [rewrite Nat.eqb_refl; auto|].
      symmetry. apply Nat.eqb_neq. intros E. apply N. apply (Nat.mul_cancel_r _ _ w); lia. }
    rewrite <- T. destruct (is_top p (m_pk r) up) eqn:Et; auto. symmetry in T.
    destruct (PropsMP.C07_parent cfg radix2 step1 t F r St Hr) as (x & Ex & Ep & Hx).
    rewrite Eu in Ep. injection Ep as ->. unfold get_parent in Ex. rewrite L1 in Ex.
    destruct (Nat.leb_spec (m_depth r) 1) as [Le|Gt].
    + exfalso. injection Ex as <-.
      assert (D1 : m_depth r = 1) by lia. destruct parent as [q|]; [|apply Nat.eqb_neq in T; congruence].
      (* a root in the branch of q is q *)
      assert (Pq := proj2 (mp_below t F q r St (Hp q eq_refl) Hr) Hb). apply ppre_iff in Pq. destruct Pq as (y & Ey).
      destruct (Len q (Hp q eq_refl)) as (_ & Lq). apply Nat.eqb_neq in T.
      destruct (po_len _ _ P q (Hp q eq_refl)) as (nq & Lq').
      apply (f_equal (@length _)) in Ey. rewrite app_length, L2, D1, Lq' in Ey. rewrite L2, D1, Lq' in T. nia.
    + destruct (get_by_path t (get_basepath cfg (m_path r) (m_depth r - 1))) as [y|] eqn:Eg; [|discriminate].
      cbn [bind] in Ex. injection Ex as <-. apply get_by_path_ok in Eg. destruct Eg as (Hy & <-). cbn [option_map].
      rewrite (col_at m_pk); auto.
Qed.
End MP.

Lemma root_is_top p F i : wf_ids F -> In i (ids (branch p F)) -> parent_of i F = Some None -> is_top p i None = true.
Proof.
  intros W Hi Ep. destruct p as [p|]; auto. cbn [is_top branch] in *. assert (Y := subtree_children p F).
  destruct (children_of p F) as [c|] eqn:Ec; [|rewrite Y in Hi; destruct Hi].
  destruct Y as (a & Ea & _ & Es). rewrite Es, ids_cons, app_nil_r, Ea in Hi. destruct Hi as [->|Hi]; [apply Nat.eqb_refl|].
  exfalso. assert (Z := parent_below p c i F None W Ec Hi). unfold parent_of in Ep. rewrite Ep in Z.
  destruct (anc_from i c (wf_kids (Some p) F c W Ec) Hi (Some p)) as (_ & _ & [(E & _)|(q & A' & E & _)]); congruence.
Qed.

(** ** Nested sets *)
Theorem ns_dump_ok t F parent keep_ids : NSInv.stores t F -> (forall p, parent = Some p -> In p t) ->
  ns_dump_bulk t parent keep_ids = Ok (dumped keep_ids (branch (option_map NSModel.n_pk parent) F)).
Proof.
  intros St Hp. set (p := option_map NSModel.n_pk parent). assert (W := PropsNS.stores_wf _ _ St).
  assert (Sub : forall r, In r (NSModel.get_tree t parent None) -> In r t).
  { intros r Hr. assert (X : forall P, In r (NSModel.order_rows (filter P t)) -> In r t).
    { intros P H. apply (Permutation_in _ (isort_perm _ _)) in H. apply filter_In in H. tauto. }
    unfold NSModel.get_tree in Hr. destruct parent as [q|]; [destruct (NSModel.is_leaf q)|]; eauto. }
  assert (All : forall r, In r t -> In (NSReads.row_node r) (preorder F)).
  { intros r Hr. destruct (PropsNS.C20_tree t F None St) as (E & _). cbn [option_map prune_opt] in E.
    change (NSReads.levels None) with (@None nat) in E. cbn in E.
    rewrite <- E. apply in_map. apply (Permutation_in _ (Permutation_sym (isort_perm _ _))). apply filter_In. auto. }
  assert (Ls : map NSReads.row_node (NSModel.get_tree t parent None) = preorder (branch p F)).
  { destruct parent as [r|]; [|apply (PropsNS.C20_tree t F None St)].
    destruct (PropsNS.C20_descendants t F r None St (Hp r eq_refl)) as (k & Ek & E & _).
    cbn [option_map] in E. rewrite E. symmetry. apply (branch_preorder F (NSReads.row_node r) k); auto. }
  unfold ns_dump_bulk, dumped.
  apply (dump_branch Nat.eqb (fun i => i) (fun x => new_item keep_ids (nid x) (ndata x)) NSReads.row_node _
    NSModel.n_pk (fun r => if match parent with Some q => Z.eqb (NSModel.n_depth r) (NSModel.n_depth q)
               | None => Z.eqb (NSModel.n_depth r) 1 end then Ok None
      else do q <- NSModel.get_parent t (NSModel.fresh r);
           match q with Some q => Ok (Some (NSModel.n_pk q)) | None => Err AttributeError end) F p W); auto.
  - rewrite Ls. apply pre_unfolds. apply branch_wf. auto.
  - intros r Hr. split; auto. intros up Eu. cbn [NSReads.row_node nid] in *.
    assert (Hb : In (NSModel.n_pk r) (ids (branch p F))) by (unfold ids; rewrite <- Ls, map_map; apply (in_map NSModel.n_pk); auto).
    assert (Ht := Sub r Hr).
    destruct (PropsNS.C20_ancestors t F r St Ht) as (A & EA & _ & Ed & _).
    assert (T : is_top p (NSModel.n_pk r) up = match parent with Some q => Z.eqb (NSModel.n_depth r) (NSModel.n_depth q)
               | None => Z.eqb (NSModel.n_depth r) 1 end).
    { rewrite (top_by_level p F (NSModel.n_pk r) up A W Hb Eu EA). unfold p. destruct parent as [q|]; cbn [option_map top_level].
      - destruct (PropsNS.C20_ancestors t F q St (Hp q eq_refl)) as (Aq & EAq & _ & Edq & _). rewrite EAq, Ed, Edq.
        destruct (Nat.eqb_spec (S (length A)) (S (length Aq))); symmetry; [apply Z.eqb_eq|apply Z.eqb_neq]; lia.
      - rewrite Ed. destruct (Nat.eqb_spec (S (length A)) 1); symmetry; [apply Z.eqb_eq|apply Z.eqb_neq]; lia. }
    rewrite <- T. destruct (is_top p (NSModel.n_pk r) up) eqn:Et; auto.
    destruct (PropsNS.C20_parent t F r St Ht) as (q & Eq & Ep & _). rewrite Eq. cbn [bind]. rewrite Eu in Ep. injection Ep as ->.
    destruct q as [q|]; auto. cbn [option_map] in *. exfalso. clear T.
    rewrite (root_is_top p F _ W Hb Eu) in Et. discriminate.
Qed.

(** ** Adjacency lists *)
Section AL.
Import ALModel ALInv ALReads ALAnswers.

Theorem al_dump_ok o t F parent keep_ids : stores o t F -> answers o t F ->
  (forall p, parent = Some p -> In (o_row p) t /\ good_depth F p) ->
  al_dump_bulk o t parent keep_ids = Ok (dumped keep_ids (branch (option_map (fun p => a_pk (o_row p)) parent) F)).
Proof.
  intros St AN Hp. set (p := option_map (fun p => a_pk (o_row p)) parent). assert (W := PropsAL.stores_wf _ _ _ St).
  destruct (PropsAnn.al_listing o t F parent St AN Hp) as (L & EL & ML & HL). fold p in ML.
  unfold al_dump_bulk, dumped. rewrite EL. cbn [bind].
  apply (dump_branch Nat.eqb (fun i => i) (fun x => new_item keep_ids (nid x) (ndata x)) obj_node L
    (fun n => a_pk (o_row n)) (fun n => do '(d, _) <- get_depth t n false;
      do top <- match parent with
                | Some p => do '(e, _) <- get_depth t p false; Ok (Z.eqb d e)
                | None => Ok (Z.eqb d 1)
                end;
      if top then Ok None
      else match a_parent (o_row n) with Some q => Ok (Some q) | None => Err KeyError end) F p W); auto.
  - rewrite ML. apply pre_unfolds. apply branch_wf. auto.
  - intros n Hn. split; auto. intros up Eu. cbn [obj_node row_node nid] in *.
    assert (Hb : In (a_pk (o_row n)) (ids (branch p F))) by (unfold ids; rewrite <- ML, map_map; apply (in_map (fun n => a_pk (o_row n))); auto).
    destruct (HL n Hn) as (Ht & Hg). destruct (PropsAnn.al_depth_right o t F n St Ht Hg) as (A & c & EA & Ed).
    rewrite Ed. cbn [bind].
    assert (T : match parent with
                | Some p => do '(e, _) <- get_depth t p false; Ok (Z.eqb (Z.of_nat (S (length A))) e)
                | None => Ok (Z.eqb (Z.of_nat (S (length A))) 1)
                end = Ok (is_top p (a_pk (o_row n)) up)).
    { rewrite (top_by_level p F _ up A W Hb Eu EA). unfold p. destruct parent as [q|]; cbn [option_map top_level].
      - destruct (Hp q eq_refl) as (Hq & Gq). destruct (PropsAnn.al_depth_right o t F q St Hq Gq) as (Aq & cq & EAq & Edq).
        rewrite EAq, Edq. cbn [bind]. f_equal.
        destruct (Nat.eqb_spec (S (length A)) (S (length Aq))); [apply Z.eqb_eq|apply Z.eqb_neq]; lia.
      - f_equal. destruct (Nat.eqb_spec (S (length A)) 1); [apply Z.eqb_eq|apply Z.eqb_neq]; lia. }
    rewrite T. cbn [bind]. destruct (is_top p (a_pk (o_row n)) up) eqn:Et; auto.
    destruct St as (_ & _ & so & Fit & _). destruct (fits_pk so t F W Fit _ Ht) as (_ & P & _).
    rewrite Eu in P. injection P as ->. destruct (a_parent (o_row n)) as [q|] eqn:Eq; auto.
    exfalso. rewrite (root_is_top p F _ W Hb Eu) in Et. discriminate.
Qed.
End AL.

(** ** ltree *)
Section LT.
Import LTModel LTInv LTReads LTCheck.

Theorem lt_dump_ok cfg t F parent keep_ids : stores cfg t F -> (forall p, parent = Some p -> In p t) ->
  lt_dump_bulk t parent keep_ids = Ok (dumped keep_ids (branch (option_map l_pk parent) F)).
Proof.
  intros St Hp. set (p := option_map l_pk parent). assert (W := PropsLT.stores_wf _ _ _ St).
  destruct (proj1 (stores_iff cfg t) (ex_intro _ F St)) as (P & U).
  assert (Eq : order_path (match parent with Some p => filter (fun r => ppre (l_path p) (l_path r)) t | None => t end)
             = get_tree t parent None).
  { unfold get_tree. destruct parent as [q|].
    - f_equal. apply filter_ext. intros r. rewrite andb_true_r. auto.
    - f_equal. symmetry. apply filter_all. auto. }
  unfold lt_dump_bulk, dumped. rewrite Eq.
  assert (Sub : forall r, In r (get_tree t parent None) -> In r t).
  { intros r Hr. unfold get_tree in Hr. apply (Permutation_in _ (isort_perm _ _)) in Hr. apply filter_In in Hr. tauto. }
  assert (Tr := PropsLT.C32_tree cfg t F None St). cbn in Tr.
  assert (All : forall r, In r t -> In (node_of r) (preorder F)).
  { intros r Hr. rewrite <- Tr. apply in_map.
    apply (Permutation_in _ (Permutation_sym (isort_perm _ _))). apply filter_In. auto. }
  assert (Ls : map node_of (get_tree t parent None) = preorder (branch p F)).
  { destruct parent as [r|]; [|apply (PropsLT.C32_tree cfg t F None St)].
    destruct (PropsLT.C32_descendants cfg t F r None St (Hp r eq_refl)) as (k & Ek & E & _); [discriminate|].
    rewrite E. symmetry. apply (branch_preorder F (node_of r) k); auto. }
  apply (dump_branch peq (col l_pk l_path [] t) (fun x => new_item keep_ids (nid x) (ndata x)) node_of _
    l_path (fun r => Ok (if match parent with Some q => length (l_path r) =? length (l_path q) | None => length (l_path r) =? 1 end
                         then None else Some (firstn (length (l_path r) - 1) (l_path r)))) F p W).
  - rewrite Ls. apply pre_unfolds. apply branch_wf. auto.
  - intros i j Hi Hj. unfold ids in Hi, Hj. rewrite <- Tr, map_map in Hi, Hj. apply in_map_iff in Hi, Hj.
    destruct Hi as (r & <- & Hr), Hj as (s & <- & Hs). cbn [node_of nid].
    assert (X : forall x, In x (order_path (filter (fun _ : ltrow => true) t)) -> In x t).
    { intros x H. apply (Permutation_in _ (isort_perm _ _)) in H. apply filter_In in H. tauto. }
    apply X in Hr, Hs. rewrite !(col_at l_pk) by auto. destruct (Nat.eqb_spec (l_pk r) (l_pk s)) as [E|N].
    + apply peq_iff. f_equal. apply (nodup_inj l_pk t); auto.
    + apply peq_false. intros E. apply N. f_equal. apply (nodup_inj l_path t); auto. apply P.
  - intros r Hr. assert (Ht := Sub r Hr). cbn [node_of nid]. rewrite (col_at l_pk) by auto. split; auto. intros up Eu.
    f_equal. destruct (PropsLT.C32_ancestors cfg t F r St Ht) as (A & EA & _ & Ed & _). unfold get_depth in Ed.
    assert (Hb : In (l_pk r) (ids (branch p F))) by (unfold ids; rewrite <- Ls, map_map; apply (in_map l_pk); auto).
    assert (T : is_top p (l_pk r) up = match parent with Some q => length (l_path r) =? length (l_path q) | None => length (l_path r) =? 1 end).
    { rewrite (top_by_level p F (l_pk r) up A W Hb Eu EA), <- Ed. unfold p. destruct parent as [q|]; auto.
      cbn [option_map top_level].
      destruct (PropsLT.C32_ancestors cfg t F q St (Hp q eq_refl)) as (Aq & EAq & _ & Edq & _). unfold get_depth in Edq. rewrite EAq, <- Edq. auto. }
    rewrite <- T. destruct (is_top p (l_pk r) up) eqn:Et; auto.
    destruct (PropsLT.C32_parent cfg t F r St Ht) as (x & Ex & Ep & Hx). rewrite Eu in Ep. injection Ep as ->.
    unfold get_parent in Ex. destruct (Nat.eqb_spec (length (l_path r)) 1) as [E1|N1].
    + injection Ex as <-. exfalso. cbn [option_map] in *. rewrite (root_is_top p F _ W Hb Eu) in Et. discriminate.
    + destruct (get_by_path t (parent_path (l_path r))) as [y|] eqn:Eg; [|discriminate]. cbn [bind] in Ex. injection Ex as <-.
      cbn [option_map]. rewrite (col_at l_pk) by auto. f_equal.
      unfold get_by_path in Eg. destruct (filter (fun x => peq (l_path x) (parent_path (l_path r))) t) as [|z l] eqn:Ef; try discriminate.
      assert (z = y) by (destruct l; congruence). subst z. assert (Hz : In y (filter (fun x => peq (l_path x) (parent_path (l_path r))) t)) by (rewrite Ef; cbn; auto).
      apply filter_In in Hz. destruct Hz as (_ & Hz). apply peq_iff in Hz. rewrite Hz. unfold parent_path.
      rewrite removelast_firstn_len. f_equal. lia.
Qed.
End LT.
