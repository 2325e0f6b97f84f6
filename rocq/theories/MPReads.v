(** What the read methods of a materialized path tree return, in terms of the
    forest that the table stores. *)
From Coq Require Import List Arith Lia Bool Permutation Sorted.
From Verif Require Import Prelude Forest NumConv SpecFacts PathTab PathMove PathDel PathRead CommonModel
  MPModel MPStep MPInv MPCount MPShift MPReorder MPAdd MPMove MPMoveOk MPDelete.
Import ListNotations.

(** The user's node of a row. *)
Definition node_of (r : mprow) : node := mkNode (m_pk r) (m_data r).

Section Reads.
Variable cfg : mp_cfg.
Hypothesis radix2 : 2 <= radix cfg.
Hypothesis step1 : 1 <= steplen cfg.
Notation w := (steplen cfg).
Notation mkrow := (mkrow cfg).
Notation kpwf := (kpwf cfg).
Notation kvalid := (kvalid cfg).
Notation lay := (lay cfg).
Notation stores := (stores cfg).

Lemma node_of_mkrow x : node_of (mkrow x) = fst (snd x).
Proof. destruct x as [p [[i d] c]]. reflexivity. Qed.

Lemma map_node_of l : map node_of (map mkrow l) = map (fun x => fst (snd x)) l.
Proof. rewrite map_map. apply map_ext. intros. apply node_of_mkrow. Qed.

Lemma kerase_roots l : roots (kerase l) = map (fun x => fst (snd x)) (roots l).
Proof. apply (erase_roots fst). Qed.

Lemma kerase_preorder l : preorder (kerase l) = map (fun x => fst (snd x)) (rows l).
Proof.
  unfold kerase, erase. rewrite preorder_fmap. rewrite <- (map_map snd fst (preorder l)).
  rewrite <- (map_map snd fst (rows l)). f_equal. symmetry. apply rows_snd.
Qed.

Lemma node_of_sibrows q l : map node_of (sibrows cfg q l) = roots (kerase l).
Proof.
  unfold sibrows. rewrite kerase_roots, map_map. apply map_ext. intros x. apply (node_of_mkrow (pre q x)).
Qed.

Section Row.
Variable t : mp_table.
Variable f : kf.
Hypothesis L : lay t f.
Hypothesis N : nc_ok f.
Hypothesis I : wf_ids (kerase f).

(** A row in its list of siblings with its list of children. *)
Lemma kids_at r : In r t -> exists p a l, r = mkrow (p, a) /\ At p (Some (a, a)) l l f f /\
  children_of (m_pk r) (kerase f) = Some (kerase l).
Proof.
  intros Hr. destruct (lay_in cfg _ _ _ L Hr) as ([p a] & Hx & ->).
  destruct (@row_kids _ _ _ _ _ Hx) as [l Hl]. destruct (Hl a l) as [f' HA].
  assert (f = f') by (eapply At_same; eauto). subst f'.
  exists p, a, l. split; auto. split; auto.
  assert (C := At_Ctx fst HA (pid_fst (Some (a, a)) eq_refl)). apply (Ctx_kids_of C I).
Qed.

Lemma sibs_at r : In r t -> exists q s pa l1 a c l2 n, r = mkrow (q ++ s, a) /\ pold pa = pnew pa /\
  At q pa (fapp l1 (Cons (s, a) c l2)) (fapp l1 (Cons (s, a) c l2)) f f /\
  length q = n * w /\ m_depth r = S n /\ (pa = None <-> q = []) /\ length s = w /\
  parent_of (m_pk r) (kerase f) = Some (option_map (fun x => nid (fst (fst x))) pa) /\
  kids_of (option_map (fun x => nid (fst (fst x))) pa) (kerase f)
    = Some (kerase (fapp l1 (Cons (s, a) c l2))).
Proof.
  intros Hr. destruct (locate cfg radix2 step1 _ _ _ L Hr)
    as (q & s & pa & l1 & a & c & l2 & n & E & Ep & HA & Lq & D & Hn).
  exists q, s, pa, l1, a, c, l2, n. repeat (split; [assumption|]).
  assert (C := At_Ctx fst HA (pid_fst pa Ep)).
  destruct L as (W & _). assert (Wl := k_At_pwf_l cfg _ _ _ _ _ _ HA W).
  split; [apply pwf_mid in Wl; tauto|]. split.
  - apply (Ctx_parent_of _ C I).
    rewrite E. change (@erase nat payload fst) with kerase. rewrite kerase_roots.
    rewrite map_map, roots_fapp, map_app. apply in_app_iff. right. simpl. auto.
  - apply (Ctx_kids_of C I).
Qed.

Lemma tree_read d : map node_of (get_tree t None d) = preorder (prune_opt d (kerase f)).
Proof.
  assert (W := L). destruct W as (W & V & P). unfold get_tree. rewrite (query cfg step1 _ t f L).
  rewrite map_node_of. destruct d as [d|].
  - simpl prune_opt. replace (prune d (kerase f)) with (kerase (prune d f)) by apply (erase_prune fst).
    rewrite kerase_preorder. f_equal.
    rewrite (@prune_rows _ Nat.ltb w payload step1) by auto.
    apply filter_ext_In. intros x Hx. destruct (depth_spec cfg radix2 step1 f x W Hx) as [E _].
    rewrite E. apply eq_true_iff_eq. rewrite !Nat.leb_le. nia.
  - simpl prune_opt. rewrite kerase_preorder. f_equal. apply filter_all. auto.
Qed.

Lemma children_read r : In r t -> exists k, children_of (m_pk r) (kerase f) = Some k /\
  map node_of (get_children cfg t r) = roots k /\ get_children_count r = length (roots k) /\
  (is_leaf r = true <-> k = Nil).
Proof.
  intros Hr. destruct (kids_at r Hr) as (p & a & l & -> & HA & E).
  exists (kerase l). split; auto. split.
  - rewrite (get_children_lay cfg radix2 step1 _ _ _ _ _ _ _ _ L N HA). apply node_of_sibrows.
  - assert (Nl := nc_At_par _ _ _ _ _ _ _ HA N). unfold get_children_count, is_leaf. simpl m_nc.
    rewrite kerase_roots, map_length, Nl. split; auto.
    destruct l; simpl; split; intros H; auto; discriminate.
Qed.

Lemma siblings_read r : In r t -> map node_of (get_siblings cfg t r) = siblings_of (m_pk r) (kerase f).
Proof.
  intros Hr. destruct (sibs_at r Hr) as (q & s & pa & l1 & a & c & l2 & n & E & Ep & HA & Lq & D & Hn & Ls & E1 & E2).
  unfold siblings_of. rewrite E1, E2. rewrite E.
  rewrite (get_siblings_lay cfg radix2 step1 _ _ _ _ _ _ _ s a L HA).
  - apply node_of_sibrows.
  - rewrite roots_fapp. apply in_app_iff. simpl. auto.
Qed.

Lemma roots_read : map node_of (get_root_nodes t) = roots (kerase f).
Proof. rewrite (get_root_nodes_lay cfg radix2 step1 _ _ L). apply node_of_sibrows. Qed.

Lemma sibs_nodup r : In r t -> NoDup (map nid (siblings_of (m_pk r) (kerase f))).
Proof.
  intros Hr. destruct (sibs_at r Hr) as (q & s & pa & l1 & a & c & l2 & n & E & Ep & HA & Lq & D & Hn & Ls & E1 & E2).
  unfold siblings_of. rewrite E1, E2.
  assert (C := At_Ctx fst HA (pid_fst pa Ep)). assert (Wl := Ctx_wf_l C I).
  change (@erase nat payload fst) with kerase in Wl.
  revert Wl. generalize (kerase (fapp l1 (Cons (s, a) c l2))). clear.
  intros F. induction F as [|b k _ r IH]; simpl; intros W; [constructor|].
  apply wf_cons_inv in W. destruct W as (W1 & W2 & W3 & W4 & W5). constructor; auto.
  intros H. apply W2. apply roots_ids; auto.
Qed.

Lemma neighbours_read r : In r t ->
  option_map node_of (get_next_sibling cfg t r) = next_of (m_pk r) (siblings_of (m_pk r) (kerase f)) /\
  option_map node_of (get_prev_sibling cfg t r) = prev_of (m_pk r) (siblings_of (m_pk r) (kerase f)).
Proof.
  intros Hr. assert (ND := sibs_nodup r Hr). rewrite <- (siblings_read r Hr) in *.
  destruct (sibs_at r Hr) as (q & s & pa & l1 & a & c & l2 & n & E & Ep & HA & Lq & D & Hn & Ls & E1 & E2).
  unfold get_next_sibling, get_prev_sibling.
  assert (W := L). destruct W as (W & V & P).
  assert (Es : get_siblings cfg t r = sibrows cfg q l1 ++ r :: sibrows cfg q l2).
  { rewrite E. rewrite (get_siblings_lay cfg radix2 step1 _ _ _ _ _ _ _ s a L HA).
    - unfold sibrows. rewrite roots_fapp, map_app. simpl. auto.
    - rewrite roots_fapp. apply in_app_iff. simpl. auto. }
  rewrite Es in ND |- *. rewrite (map_app node_of) in ND |- *. cbn [map] in ND |- *.
  rewrite (next_of_split (m_pk r) _ (node_of r)) by auto.
  rewrite (prev_of_split (m_pk r) _ (node_of r)) by auto.
  assert (Wl := k_At_pwf_l cfg _ _ _ _ _ _ HA W).
  apply (pwf_fapp Nat.ltb w) in Wl. destruct Wl as (Wl1 & Wl2 & Wl3).
  destruct Wl2 as (Wa & Wb & Wc & Wd). rewrite Forall_forall in Wd.
  assert (Irr : forall p, plt p p = false) by (intros; apply llt_irr; apply irr).
  assert (Pre : forall u v, plt (q ++ u) (q ++ v) = plt u v) by (intros; apply llt_pre; apply irr).
  assert (Asym : forall u v, plt u v = true -> plt v u = false).
  { intros u v H. destruct (plt v u) eqn:E0; auto.
    assert (plt u u = true); [|rewrite Irr in H0; discriminate].
    unfold plt. apply llt_trans with v; eauto using irr, ltb_tr', ltb_tot'. }
  assert (F1 : forall y, In y (sibrows cfg q l1) -> plt (m_path y) (m_path r) = true).
  { intros y Hy. unfold sibrows in Hy. apply in_map_iff in Hy. destruct Hy as (z & <- & Hz).
    rewrite E. simpl. rewrite Pre. apply (Wl3 z (s, a)); simpl; auto. }
  assert (F2 : forall y, In y (sibrows cfg q l2) -> plt (m_path r) (m_path y) = true).
  { intros y Hy. unfold sibrows in Hy. apply in_map_iff in Hy. destruct Hy as (z & <- & Hz).
    rewrite E. simpl. rewrite Pre. apply (Wd z); auto. }
  rewrite !filter_app. cbn [filter]. rewrite Irr.
  rewrite (filter_none _ (sibrows cfg q l1)) by (intros y Hy; apply Asym; auto).
  rewrite (filter_all _ (sibrows cfg q l2)) by auto.
  rewrite (filter_all _ (sibrows cfg q l1)) by auto.
  rewrite (filter_none _ (sibrows cfg q l2)) by (intros y Hy; apply Asym; auto).
  simpl app. rewrite app_nil_r, hd_error_map, last_opt_map. auto.
Qed.

(** Descendants. *)
Lemma descendants_read r d : In r t -> exists k, children_of (m_pk r) (kerase f) = Some k /\
  map node_of (get_tree t (Some r) d) = node_of r :: preorder (prune_opt d k) /\
  map node_of (get_descendants t r true d) = node_of r :: preorder (prune_opt d k) /\
  map node_of (get_descendants t r false d) = preorder (prune_opt d k) /\
  get_descendant_count t r d = size (prune_opt d k).
Proof.
  intros Hr. destruct (kids_at r Hr) as (p & a & l & E & HA & Ek).
  exists (kerase l). split; auto.
  assert (W := L). destruct W as (W & V & P).
  assert (Nl := nc_At_par _ _ _ _ _ _ _ HA N).
  assert (Kp := k_prefix cfg step1 _ _ _ _ _ _ HA W). cbn [pold option_map prow fst] in Kp.
  assert (Wl := k_At_pwf_l cfg _ _ _ _ _ _ HA W).
  assert (Hx := k_At_in cfg step1 _ _ _ _ _ _ _ HA).
  assert (G : get_tree t (Some r) d
              = r :: map (fun x => mkrow (pre p x)) (rows (prune_opt d l))).
  { unfold get_tree. destruct (is_leaf r) eqn:El.
    - assert (l = Nil).
      { rewrite E in El. unfold is_leaf in El. simpl in El. apply Nat.eqb_eq in El.
        destruct l; auto. simpl in Nl. lia. }
      subst l. replace (prune_opt d (@Nil (path * payload))) with (@Nil (path * payload)) by (destruct d as [[|?]|]; auto).
      simpl. rewrite (query cfg step1 _ t f L).
      assert (Ef : filter (fun x => m_pk (mkrow x) =? m_pk r) (rows f) = [(p, a)]).
      { assert (NDx : NoDup (map (fun x : path * payload => nid (fst (snd x))) (rows f))).
        { unfold wf_ids in I. unfold kerase in I. rewrite erase_ids in I. exact I. }
        rewrite E. simpl. clear - NDx Hx. revert Hx NDx. generalize (rows f) as R0.
        induction R0 as [|y R0 IH]; simpl; [tauto|]. intros Hx ND.
        apply NoDup_cons_iff in ND. destruct ND as [N1 N2]. destruct Hx as [->|Hx].
        - simpl. rewrite Nat.eqb_refl. f_equal. apply filter_none. intros z Hz.
          apply Nat.eqb_neq. intros E. apply N1. simpl. rewrite <- E.
          apply in_map_iff. exists z. auto.
        - destruct (Nat.eqb_spec (nid (fst (snd y))) (nid (fst a))) as [E|E]; auto.
          exfalso. apply N1. rewrite E. apply in_map_iff. exists (p, a). auto. }
      rewrite Ef. rewrite E. reflexivity.
    - rewrite (query cfg step1 _ t f L).
      destruct (depth_spec cfg radix2 step1 f (p, a) W Hx) as [Lp Dp]. simpl fst in Lp.
      rewrite <- E in Lp, Dp.
      rewrite (filter_ext_In _ (fun x => ppre p (fst x) &&
        match d with None => true | Some d => length (fst x) <=? d * w + length p end)).
      + rewrite <- filter_filter, Kp. cbn [app filter]. simpl fst.
        replace (match d with Some d0 => length p <=? d0 * w + length p | None => true end) with true
          by (destruct d; auto; symmetry; apply Nat.leb_le; lia).
        cbn [map]. rewrite <- E. f_equal. rewrite filter_map, map_map. f_equal.
        destruct d as [d|]; simpl prune_opt.
        * rewrite (@prune_rows _ Nat.ltb w payload step1) by auto. apply filter_ext_In.
          intros x _. unfold pre. simpl. rewrite app_length. apply eq_true_iff_eq.
          rewrite !Nat.leb_le. lia.
        * apply filter_all. auto.
      + intros x Hin. destruct (depth_spec cfg radix2 step1 f x W Hin) as [Lx Dx].
        change (m_path (mkrow x)) with (fst x). rewrite E at 1. simpl m_path at 1.
        destruct (ppre p (fst x)) eqn:Ep; auto. cbn [andb].
        apply ppre_iff in Ep. destruct Ep as [z Ez].
        assert (Hle : m_depth r <= m_depth (mkrow x)).
        { assert (Hl := f_equal (@length _) Ez). rewrite app_length, Lx, Lp in Hl.
          revert Hl. generalize (m_depth (mkrow x)) (m_depth r). intros. nia. }
        apply Nat.leb_le in Hle. rewrite Hle. cbn [andb]. destruct d as [d|]; auto.
        rewrite Lx, Lp. generalize (m_depth (mkrow x)) (m_depth r). intros u v.
        apply eq_true_iff_eq. rewrite !Nat.leb_le. nia. }
  assert (Gn : map node_of (map (fun x => mkrow (pre p x)) (rows (prune_opt d l)))
               = preorder (prune_opt d (kerase l))).
  { rewrite map_map. replace (prune_opt d (kerase l)) with (kerase (prune_opt d l)).
    - rewrite kerase_preorder. apply map_ext. intros x. apply (node_of_mkrow (pre p x)).
    - destruct d; auto. apply (erase_prune fst). }
  assert (Gd : get_descendants t r false d = map (fun x => mkrow (pre p x)) (rows (prune_opt d l))).
  { unfold get_descendants. destruct (is_leaf r) eqn:El.
    - assert (l = Nil).
      { rewrite E in El. unfold is_leaf in El. simpl in El. apply Nat.eqb_eq in El.
        destruct l; auto. simpl in Nl. lia. }
      subst l. destruct d as [[|?]|]; auto.
    - rewrite G. cbn [filter]. rewrite Nat.eqb_refl. cbn [negb]. apply filter_all.
      intros y Hy. apply in_map_iff in Hy. destruct Hy as (x & <- & Hin).
      apply negb_true_iff, Nat.eqb_neq. intros Ey.
      assert (Hin' : In (pre p x) (rows f)).
      { assert (Hx' : In x (rows l)).
        { destruct d as [d|]; auto. simpl in Hin.
          rewrite (@prune_rows _ Nat.ltb w payload step1) in Hin by auto. apply filter_In in Hin. tauto. }
        assert (In (pre p x) (filter (fun r => ppre p (fst r)) (rows f))) as Hf.
        { rewrite Kp. right. apply in_map; auto. }
        apply filter_In in Hf. tauto. }
      assert (Er : mkrow (pre p x) = r).
      { eapply pk_inj; eauto. eapply lay_in_rev; eauto. }
      rewrite E in Er. apply (f_equal m_path) in Er. simpl in Er.
      rewrite <- (app_nil_r p) in Er at 2. apply app_inv_head in Er.
      revert Er. apply (@rows_nonempty _ Nat.ltb w payload step1 l x); auto.
      destruct d as [d|]; auto. simpl in Hin.
      rewrite (@prune_rows _ Nat.ltb w payload step1) in Hin by auto. apply filter_In in Hin. tauto. }
  assert (Ghd : map node_of (get_tree t (Some r) d) = node_of r :: preorder (prune_opt d (kerase l))).
  { rewrite G. cbn [map]. f_equal. exact Gn. }
  split; [exact Ghd|]. split; [exact Ghd|]. rewrite Gd. split; auto.
  unfold get_descendant_count. rewrite Gd, <- size_preorder, <- Gn, !map_length. auto.
Qed.

(** Ancestors. *)
Lemma prefixes_sorted p u v : ppre u p = true -> ppre v p = true -> plt u v = true -> length u < length v.
Proof.
  intros Hu Hv Hlt. apply ppre_iff in Hu. apply ppre_iff in Hv. destruct Hu as [x Ex], Hv as [y Ey].
  destruct (Nat.lt_ge_cases (length u) (length v)) as [|G]; auto. exfalso.
  assert (E : u = v ++ skipn (length v) u).
  { rewrite <- (firstn_skipn (length v) u) at 1. f_equal.
    assert (Ef := f_equal (firstn (length v)) Ex). rewrite Ey in Ef at 1.
    rewrite !firstn_app in Ef. replace (length v - length u) with 0 in Ef by lia.
    rewrite Nat.sub_diag, firstn_all in Ef. simpl in Ef. rewrite !app_nil_r in Ef. auto. }
  revert Hlt. rewrite E. generalize (skipn (length v) u) as z. intros z Hlt.
  assert (plt v v = true).
  { destruct z as [|c z]; [rewrite app_nil_r in Hlt; auto|].
    unfold plt in *. apply llt_trans with (v ++ c :: z); eauto using irr, ltb_tr', ltb_tot'.
    apply llt_self_app; auto using irr. discriminate. }
  unfold plt in H. rewrite llt_irr in H; auto using irr. discriminate.
Qed.

Lemma ancestors_lay r p a : r = mkrow (p, a) -> In (p, a) (rows f) ->
  get_ancestors cfg t r = map mkrow (filter (upper Nat.ltb p) (rows f)).
Proof.
  intros -> Hx. assert (W := L). destruct W as (W & V & P).
  destruct (depth_spec cfg radix2 step1 f (p, a) W Hx) as [Lp Dp]. simpl fst in Lp.
  assert (Up : forall x, In x (rows f) ->
     existsb (peq (m_path (mkrow x))) (ancestor_paths cfg p) = upper Nat.ltb p x).
  { intros x Hin. destruct (depth_spec cfg radix2 step1 f x W Hin) as [Lx Dx].
    change (m_path (mkrow x)) with (fst x).
    unfold ancestor_paths. rewrite Lp.
    replace ((m_depth (mkrow (p, a)) * w + w - 1) / w) with (m_depth (mkrow (p, a))).
    2: { generalize (m_depth (mkrow (p, a))) as D. intros D.
         apply Nat.div_unique with (w - 1); lia. }
    revert Lx Dx Lp Dp. generalize (m_depth (mkrow x)) as dx. generalize (m_depth (mkrow (p, a))) as D.
    intros D dx Lx Dx Lp Dp.
    apply eq_true_iff_eq. rewrite existsb_exists. unfold upper. rewrite andb_true_iff, negb_true_iff. split.
    - intros (q & Hq & E). apply peq_iff in E. apply in_map_iff in Hq. destruct Hq as (i & <- & Hi).
      apply in_seq in Hi. rewrite E. split.
      + apply (ppre_iff (firstn (i * w) p) p). exists (skipn (i * w) p). rewrite firstn_skipn. auto.
      + apply (peq_false (firstn (i * w) p) p). intros Ep.
        apply (f_equal (@length _)) in Ep. rewrite firstn_length_le, Lp in Ep by nia.
        assert (i * w < D * w) by (apply Nat.mul_lt_mono_pos_r; lia). lia.
    - intros [H1 H2]. apply (ppre_iff (fst x) p) in H1. apply (peq_false (fst x) p) in H2.
      destruct H1 as [z Ez]. exists (fst x). split; [|apply peq_refl].
      apply in_map_iff. exists dx. split.
      + rewrite <- Lx, Ez, firstn_app, firstn_all, Nat.sub_diag. simpl. apply app_nil_r.
      + apply in_seq. assert (length z <> 0).
        { destruct z; simpl; [|lia]. rewrite app_nil_r in Ez. congruence. }
        assert (Hl := f_equal (@length _) Ez). rewrite app_length, Lx, Lp in Hl.
        assert (dx < D); [|lia]. apply (Nat.mul_lt_mono_pos_r w); lia. }
  unfold get_ancestors, is_root. destruct (m_depth (mkrow (p, a)) =? 1) eqn:E1.
  - apply Nat.eqb_eq in E1. rewrite filter_none; auto. intros x Hin.
    rewrite <- Up by auto. unfold ancestor_paths. rewrite Lp, E1.
    replace ((1 * w + w - 1) / w) with 1 by (apply Nat.div_unique with (w - 1); lia). auto.
  - unfold order_depth. apply isort_unique with (lt := Nat.lt).
    + intros. apply Nat.ltb_lt.
    + intros. lia.
    + intros. lia.
    + assert (So := ssorted_filter (upper Nat.ltb p) (k_sorted cfg step1 f W)).
      assert (Hi : forall x, In x (filter (upper Nat.ltb p) (rows f)) ->
        ppre (fst x) p = true /\ length (fst x) = m_depth (mkrow x) * w).
      { intros x Hin. apply filter_In in Hin. destruct Hin as [Hin Hu]. unfold upper in Hu.
        apply andb_true_iff in Hu. split; [apply Hu|].
        apply (depth_spec cfg radix2 step1 f x W Hin). }
      revert So Hi. generalize (filter (upper Nat.ltb p) (rows f)) as l.
      unfold ssorted. induction 1; intros Hi; simpl; constructor.
      * apply IHSo. intros; apply Hi; simpl; auto.
      * apply Forall_forall. intros y Hy. apply in_map_iff in Hy. destruct Hy as (z & <- & Hz).
        rewrite Forall_forall in H. specialize (H z Hz).
        destruct (Hi a0) as [A1 A2]; [simpl; auto|]. destruct (Hi z) as [B1 B2]; [simpl; auto|].
        assert (Hl := prefixes_sorted p (fst a0) (fst z) A1 B1 H).
        rewrite A2, B2 in Hl. apply Nat.mul_lt_mono_pos_r in Hl; auto.
    + rewrite (Permutation_filter _ P), filter_map.
      erewrite filter_ext_In; [reflexivity|]. intros x Hin. apply Up; auto.
Qed.

Lemma ancestors_read r : In r t -> exists l, ancestors_of (m_pk r) (kerase f) = Some l /\
  map node_of (get_ancestors cfg t r) = l /\ m_depth r = S (length l) /\ (is_root r = true <-> l = []).
Proof.
  intros Hr. destruct (lay_in cfg _ _ _ L Hr) as ([p a] & Hx & E).
  assert (W := L). destruct W as (W & V & P).
  exists (map node_of (get_ancestors cfg t r)).
  assert (E1 : ancestors_of (m_pk r) (kerase f) = Some (map node_of (get_ancestors cfg t r))).
  { rewrite (ancestors_lay r p a E Hx), map_node_of. rewrite E.
    apply (@ancestors_rows _ Nat.ltb w payload irr ltb_tot' step1 fst f p a W I Hx). }
  destruct (@depth_ancestors _ Nat.ltb w payload step1 fst f p a W I Hx) as (l & H1 & H2).
  change (@erase nat payload fst) with kerase in H1.
  assert (m_pk r = nid (fst a)) by (rewrite E; auto). rewrite <- H in H1.
  rewrite H1 in E1. injection E1 as ->.
  split; auto. split; auto.
  assert (D : m_depth r = S (length (map node_of (get_ancestors cfg t r)))).
  { rewrite E at 1. change (m_depth (mkrow (p, a))) with (length p / w). rewrite H2.
    apply Nat.div_mul. lia. }
  split; auto. unfold is_root. rewrite D.
  destruct (map node_of (get_ancestors cfg t r)); simpl; split; intros; auto; discriminate.
Qed.

Lemma parent_read r : In r t -> exists o, get_parent cfg t r = Ok o /\
  parent_of (m_pk r) (kerase f) = Some (option_map m_pk o) /\ (forall x, o = Some x -> In x t).
Proof.
  intros Hr. destruct (sibs_at r Hr) as (q & s & pa & l1 & a & c & l2 & n & E & Ep & HA & Lq & D & Hn & Ls & E1 & E2).
  unfold get_parent. cbv zeta. assert (Em : m_path r = q ++ s) by (rewrite E; auto).
  rewrite !Em. rewrite app_length, Lq, Ls.
  replace ((n * w + w) / w) with (S n).
  2: { rewrite <- (Nat.div_mul (S n) w) by lia. f_equal. simpl. lia. }
  destruct pa as [[b b']|].
  - assert (Hq : q <> []) by (intros H; apply Hn in H; discriminate).
    destruct n as [|n]; [destruct q; simpl in Lq; [congruence|lia]|].
    cbn [Nat.leb]. rewrite Nat.sub_succ, Nat.sub_0_r.
    rewrite (get_basepath_app cfg q s (S n) Lq).
    assert (Hb := k_At_in cfg step1 _ _ _ _ _ _ _ HA).
    assert (Eb := get_by_path_lay cfg step1 t f (q, b) L Hb). simpl fst in Eb.
    rewrite Eb. simpl. eexists. split; [reflexivity|]. split; [exact E1|].
    intros x Ex. injection Ex as <-. eapply lay_in_rev; eauto.
  - assert (q = []) by (apply Hn; auto). subst q. simpl in Lq.
    assert (n = 0) by nia. subst n. simpl. exists None. repeat split; auto. discriminate.
Qed.

Lemma root_read r : In r t -> exists x l, get_root cfg t r = Ok x /\ In x t /\
  ancestors_of (m_pk r) (kerase f) = Some l /\ node_of x = hd (node_of r) l.
Proof.
  intros Hr. destruct (ancestors_read r Hr) as (l & H1 & H2 & H3 & H4).
  unfold get_root. destruct (is_root r) eqn:Er.
  - assert (l = []) by (apply H4; auto). exists r, l. rewrite H. rewrite H in H1. auto.
  - destruct (lay_in cfg _ _ _ L Hr) as ([p a] & Hx & E).
    assert (W := L). destruct W as (W & V & P).
    destruct (depth_spec cfg radix2 step1 f (p, a) W Hx) as [Lp Dp]. simpl fst in Lp.
    rewrite <- E in Lp, Dp.
    assert (Hd : 1 < m_depth r).
    { unfold is_root in Er. apply Nat.eqb_neq in Er. lia. }
    assert (Hw : length (firstn w p) = 1 * w).
    { rewrite firstn_length_le; [lia|]. rewrite Lp. nia. }
    assert (Hst : In (firstn w p) (map fst (rows f))).
    { eapply (@ancestors_stored _ Nat.ltb w payload step1 f p a W Hx (firstn w p) (skipn w p) 0); auto.
      rewrite firstn_skipn. auto. }
    apply in_map_iff in Hst. destruct Hst as ([y b] & Ey & Hy). simpl in Ey. subst y.
    assert (Eb := get_by_path_lay cfg step1 t f (firstn w p, b) L Hy). simpl fst in Eb.
    exists (mkrow (firstn w p, b)), l. rewrite E at 1. simpl m_path. rewrite Eb.
    split; auto. split; [eapply lay_in_rev; eauto|]. split; auto.
    rewrite <- H2. rewrite (ancestors_lay r p a E Hx), map_node_of, node_of_mkrow. simpl.
    assert (Hin : In (firstn w p, b) (filter (upper Nat.ltb p) (rows f))).
    { apply filter_In. split; auto. unfold upper. simpl. apply andb_true_iff. split.
      - apply (ppre_iff (firstn w p) p). exists (skipn w p). rewrite firstn_skipn. auto.
      - apply negb_true_iff. apply (peq_false (firstn w p) p). intros Ep.
        rewrite Ep, Lp in Hw. nia. }
    assert (So := ssorted_filter (upper Nat.ltb p) (k_sorted cfg step1 f W)).
    assert (Hi : forall x, In x (filter (upper Nat.ltb p) (rows f)) ->
        ppre (fst x) p = true /\ w <= length (fst x)).
    { intros x Hix. apply filter_In in Hix. destruct Hix as [Hix Hu]. unfold upper in Hu.
      apply andb_true_iff in Hu. split; [apply Hu|].
      destruct (depth_spec cfg radix2 step1 f x W Hix) as [Lx Dx]. rewrite Lx. nia. }
    destruct (filter (upper Nat.ltb p) (rows f)) as [|z zs]; [destruct Hin|].
    destruct Hin as [->|Hin]; [reflexivity|]. exfalso.
    apply StronglySorted_inv in So. destruct So as [_ So]. rewrite Forall_forall in So.
    specialize (So _ Hin). destruct (Hi z) as [Z1 Z2]; [simpl; auto|].
    destruct (Hi (firstn w p, b)) as [B1 _]; [simpl; auto|].
    assert (Hl := prefixes_sorted p _ _ Z1 B1 So). simpl in Hl. lia.
Qed.

(** Relations between two nodes. *)
Lemma same_path_row q b b' : In (q, b) (rows f) -> In (q, b') (rows f) -> b = b'.
Proof. apply (k_inj cfg step1). apply L. Qed.

Lemma child_read r n : In r t -> In n t ->
  is_child_of r n = true <-> parent_of (m_pk r) (kerase f) = Some (Some (m_pk n)).
Proof.
  intros Hr Hnt.
  destruct (sibs_at r Hr) as (q & s & pa & l1 & a & c & l2 & k & E & Ep & HA & Lq & D & Hn & Ls & E1 & E2).
  rewrite E1. destruct (lay_in cfg _ _ _ L Hnt) as ([p b] & Hx & En).
  assert (W := L). destruct W as (W & V & P).
  destruct (depth_spec cfg radix2 step1 f (p, b) W Hx) as [Lp Dp]. simpl fst in Lp.
  rewrite <- En in Lp, Dp.
  unfold is_child_of. rewrite andb_true_iff, Nat.eqb_eq, D. split.
  - intros [H1 H2]. apply ppre_iff in H1. destruct H1 as [z Ez].
    rewrite E, En in Ez. simpl in Ez. assert (k = m_depth n) by lia.
    apply app_eq_len in Ez; [|rewrite Lq, Lp; congruence]. destruct Ez as [-> _].
    destruct pa as [[b0 b1]|].
    + assert (Hb := k_At_in cfg step1 _ _ _ _ _ _ _ HA).
      rewrite (same_path_row p b0 b Hb Hx). rewrite En. reflexivity.
    + assert (p = []) by (apply Hn; auto). subst p. simpl in Lp. nia.
  - intros H. destruct pa as [[b0 b1]|]; simpl in H; [|discriminate]. injection H as H.
    assert (Hb := k_At_in cfg step1 _ _ _ _ _ _ _ HA).
    assert (En' : mkrow (q, b0) = n).
    { eapply pk_inj; eauto. eapply lay_in_rev; eauto. }
    rewrite <- En', E. simpl m_path. split; [apply ppre_app|].
    change (m_depth (mkrow (q, b0))) with (length q / w). rewrite Lq, Nat.div_mul by lia. lia.
Qed.

Lemma sibling_read r n : In r t -> In n t ->
  is_sibling_of cfg r n = true <-> parent_of (m_pk r) (kerase f) = parent_of (m_pk n) (kerase f).
Proof.
  intros Hr Hnt.
  destruct (sibs_at r Hr) as (q & s & pa & l1 & a & c & l2 & k & E & Ep & HA & Lq & D & Hn & Ls & E1 & E2).
  destruct (sibs_at n Hnt) as (q' & s' & pa' & l1' & a' & c' & l2' & k' & E' & Ep' & HA' & Lq' & D' & Hn' & Ls' & E1' & E2').
  rewrite E1, E1'. unfold is_sibling_of. rewrite D, D'.
  assert (Eqq : q = q' -> option_map (fun x : payload * payload => nid (fst (fst x))) pa
              = option_map (fun x : payload * payload => nid (fst (fst x))) pa').
  { intros ->. destruct pa as [[b b1]|], pa' as [[b' b1']|]; simpl.
    - rewrite (same_path_row q' b b'); auto; eapply k_At_in; eauto.
    - exfalso. destruct Hn' as [H _]. rewrite (H eq_refl) in Hn. destruct Hn as [_ H1]. discriminate H1; auto.
    - exfalso. destruct Hn as [H _]. rewrite (H eq_refl) in Hn'. destruct Hn' as [_ H1]. discriminate H1; auto.
    - auto. }
  destruct (Nat.eqb_spec (S k) (S k')) as [Ek|Ek]; cbn [negb].
  - injection Ek as <-. destruct (Nat.eqb_spec (S k) 1) as [E0|E0].
    + split; auto. intros _. injection E0 as ->. simpl in Lq, Lq'.
      f_equal. apply Eqq. destruct q, q'; auto; discriminate.
    + rewrite Nat.sub_succ, Nat.sub_0_r. rewrite E, E'. simpl m_path.
      rewrite (get_basepath_app cfg q s k Lq). rewrite ppre_iff. split.
      * intros [z Ez]. apply app_eq_len in Ez; [|congruence]. destruct Ez as [Ez _].
        f_equal. apply Eqq; auto.
      * intros H. injection H as H. exists s'. f_equal.
        destruct pa as [[b b1]|], pa' as [[b' b1']|]; simpl in H; try discriminate.
        -- injection H as H. assert (Hb := k_At_in cfg step1 _ _ _ _ _ _ _ HA).
           assert (Hb' := k_At_in cfg step1 _ _ _ _ _ _ _ HA').
           assert (Em : mkrow (q, b) = mkrow (q', b')).
           { eapply (pk_inj cfg); eauto; eapply lay_in_rev; eauto. }
           apply (f_equal m_path) in Em. simpl in Em. auto.
        -- destruct Hn as [H1 _], Hn' as [H2 _]. rewrite H1, H2; auto.
  - split; [discriminate|]. intros H. injection H as H. exfalso. apply Ek. f_equal.
    destruct pa as [[b b1]|], pa' as [[b' b1']|]; simpl in H; try discriminate.
    + injection H as H. assert (Hb := k_At_in cfg step1 _ _ _ _ _ _ _ HA).
      assert (Hb' := k_At_in cfg step1 _ _ _ _ _ _ _ HA').
      assert (Em : mkrow (q, b) = mkrow (q', b')).
      { eapply (pk_inj cfg); eauto; eapply lay_in_rev; eauto. }
      apply (f_equal m_path) in Em. simpl in Em. subst q'. nia.
    + destruct Hn as [H1 _], Hn' as [H2 _]. rewrite H1 in Lq by auto. rewrite H2 in Lq' by auto.
      simpl in *. nia.
Qed.

Lemma descendant_read r n : In r t -> In n t ->
  is_descendant_of r n = true <-> descends (kerase f) (m_pk n) (m_pk r).
Proof.
  intros Hr Hnt. destruct (lay_in cfg _ _ _ L Hr) as ([p a] & Hx & E).
  destruct (lay_in cfg _ _ _ L Hnt) as ([np an] & Hy & En).
  assert (W : kpwf f) by apply L.
  assert (D := desc_spec cfg radix2 step1 f np an p a W I Hy Hx).
  rewrite E, En. simpl m_pk. rewrite <- D. unfold is_descendant_of. simpl m_path.
  destruct (depth_spec cfg radix2 step1 f (p, a) W Hx) as [Lp Dp].
  destruct (depth_spec cfg radix2 step1 f (np, an) W Hy) as [Ln Dn]. simpl fst in *.
  rewrite Lp, Ln.
  rewrite !andb_true_iff, !Nat.ltb_lt. rewrite <- (Nat.mul_lt_mono_pos_r w); [tauto|lia].
Qed.

(** Annotated children: every child with the number of its descendants. *)
Lemma group_count_read o : (forall p, o = Some p -> In p t) ->
  exists l, kids_of (option_map m_pk o) (kerase f) = Some l /\
  map (fun x => (node_of (fst x), snd x)) (get_descendants_group_count cfg t o)
  = map (fun a => (a, match children_of (nid a) (kerase f) with Some k => size k | None => 0 end)) (roots l).
Proof.
  intros Ho. assert (W := L). destruct W as (W & V & P).
  assert (G : forall q pa l, At q pa l l f f ->
    map (fun x => (node_of (fst x), snd x))
      (map (fun n => (n, length (filter (fun r => ppre (m_path n) (m_path r)) t) - 1)) (sibrows cfg q l))
    = map (fun a => (a, match children_of (nid a) (kerase f) with Some k => size k | None => 0 end))
        (roots (kerase l))).
  { intros q pa l HA. unfold sibrows. rewrite kerase_roots, !map_map. apply map_ext_in.
    intros [s a] Hs. cbn [fst snd]. rewrite node_of_mkrow. f_equal.
    destruct (@roots_split _ _ _ _ Hs) as (l1 & c & l2 & ->).
    destruct (At_kid _ _ _ _ _ HA a c) as [f' HK].
    assert (f = f') by (eapply At_same; eauto). subst f'.
    assert (Kp := k_prefix cfg step1 _ _ _ _ _ _ HK W). cbn [pold option_map prow fst] in Kp.
    assert (C := At_Ctx fst HK (pid_fst (Some (a, a)) eq_refl)).
    assert (Ek := Ctx_kids_of C I). simpl in Ek.
    change (@erase nat payload fst) with kerase in Ek. simpl.
    rewrite Ek. rewrite (Permutation_length (Permutation_filter _ P)), filter_map, map_length.
    simpl m_path. unfold pre. simpl. 
    change (fun x : path * payload => ppre (q ++ s) (fst x)) with (fun r : path * payload => ppre (q ++ s) (fst r)).
    rewrite Kp. simpl. rewrite map_length. unfold kerase, erase. rewrite size_fmap.
    rewrite <- size_preorder. rewrite <- (map_length snd (rows c)), rows_snd, map_length. lia. }
  unfold get_descendants_group_count. destruct o as [p|].
  - destruct (kids_at p (Ho p eq_refl)) as (pp & a & l & E & HA & Ek).
    exists (kerase l). split; auto. rewrite E at 1.
    rewrite (get_children_lay cfg radix2 step1 _ _ _ _ _ _ _ _ L N HA). eapply G; eauto.
  - exists (kerase f). split; auto. rewrite (get_root_nodes_lay cfg radix2 step1 _ _ L).
    apply (G [] None f). constructor.
Qed.

End Row.
End Reads.
