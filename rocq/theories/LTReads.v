(** What the read methods of an ltree table return, in terms of the forest that the table
    stores, and deleting. *)
From Coq Require Import List Arith Lia Bool Permutation Sorted ZArith.
From Verif Require Import Prelude Forest SpecFacts PathTab PathMove PathDel PathRead CommonModel
  SpecPerm LTModel LTLabel LTInv LTShift LTNewPath LTAdd LTMove.
Import ListNotations.

(** The user's node of a row. *)
Definition node_of (r : ltrow) : node := mkNode (l_pk r) (l_data r).

(** The levels that a max_depth argument asks for: 0 is no limit. *)
Definition levels (d : option Z) : option nat :=
  match d with Some z => if Z.eqb z 0 then None else Some (Z.to_nat z) | None => None end.

Section Reads.
Variable cfg : lt_cfg.
Notation lay := (lay cfg).
Notation stores := (stores cfg).

Lemma node_of_mkrow x : node_of (mkrow x) = snd x.
Proof. destruct x as [p [i d]]. reflexivity. Qed.

Lemma map_node_of l : map node_of (map mkrow l) = map snd l.
Proof. rewrite map_map. apply map_ext. intros. apply node_of_mkrow. Qed.

Lemma kerase_preorder l : preorder (kerase l) = map snd (rows l).
Proof. unfold kerase, erase. rewrite preorder_fmap, rows_snd. reflexivity. Qed.

Lemma node_of_sibrows q l : map node_of (sibrows q l) = roots (kerase l).
Proof.
  unfold sibrows. rewrite kerase_roots, map_map. apply map_ext. intros x. apply (node_of_mkrow (pre q x)).
Qed.

Lemma kerase_prune d f : kerase (prune_opt d f) = prune_opt d (kerase f).
Proof. destruct d; auto. apply (erase_prune idn). Qed.

Section Row.
Variable t : lt_table.
Variable f : kf.
Hypothesis L : lay t f.
Hypothesis I : wf_ids (kerase f).
Let W : kpwf f := proj1 L.

Lemma kids_at r : In r t -> exists p a l, r = mkrow (p, a) /\ At p (Some (a, a)) l l f f /\ In (p, a) (rows f) /\
  children_of (l_pk r) (kerase f) = Some (kerase l).
Proof.
  intros Hr. destruct (locate_kids cfg _ _ _ L Hr) as (p & a & l & -> & HA & _).
  exists p, a, l. split; auto. split; auto. split; [eapply k_At_in; eauto|].
  apply (Ctx_kids_of (At_Ctx' _ _ _ _ _ _ HA eq_refl) I).
Qed.

Lemma sibs_at r : In r t -> exists q s pa l1 a c l2, r = mkrow (q ++ [s], a) /\ pold pa = pnew pa /\
  At q pa (fapp l1 (Cons ([s], a) c l2)) (fapp l1 (Cons ([s], a) c l2)) f f /\ (pa = None <-> q = []) /\
  parent_of (l_pk r) (kerase f) = Some (up_of pa) /\
  kids_of (up_of pa) (kerase f) = Some (kerase (fapp l1 (Cons ([s], a) c l2))).
Proof.
  intros Hr. destruct (locate cfg _ _ _ L Hr) as (q & s & pa & l1 & a & c & l2 & E & Ep & HA & Hn).
  exists q, s, pa, l1, a, c, l2. repeat (split; [assumption|]).
  assert (C := At_Ctx' _ _ _ _ _ _ HA Ep). split.
  - apply (Ctx_parent_of _ C I). rewrite E, kerase_roots. unfold nodes.
    rewrite map_map, roots_fapp, map_app. apply in_app_iff. right. simpl. auto.
  - apply (Ctx_kids_of C I).
Qed.

Lemma tree_read d : map node_of (get_tree t None d) = preorder (prune_opt (levels d) (kerase f)).
Proof.
  unfold get_tree. rewrite (query cfg _ t f L), map_node_of, <- kerase_prune, kerase_preorder. f_equal.
  unfold levels. destruct d as [d|]; [destruct (Z.eqb_spec d 0) as [E|E]|]; cbn [prune_opt andb].
  - apply filter_all. auto.
  - rewrite (@prune_rows _ lblt 1 node w1) by exact W. apply filter_ext_In. intros x Hx.
    assert (Hl := k_len _ _ W Hx). cbn [l_path mkrow]. apply eq_true_iff_eq. rewrite Z.leb_le, Nat.leb_le. lia.
  - apply filter_all. auto.
Qed.

Lemma children_read r : In r t -> exists k, children_of (l_pk r) (kerase f) = Some k /\
  map node_of (get_children t r) = roots k /\ get_children_count t r = length (roots k) /\
  (is_leaf t r = true <-> k = Nil).
Proof.
  intros Hr. destruct (kids_at r Hr) as (p & a & l & -> & HA & _ & E). exists (kerase l). split; auto.
  assert (Ec := get_children_lay cfg _ _ _ _ _ _ _ _ L HA).
  assert (El : map node_of (get_children t (mkrow (p, a))) = roots (kerase l)) by (rewrite Ec; apply node_of_sibrows).
  split; auto. split.
  - unfold get_children_count. rewrite <- El, map_length. auto.
  - unfold is_leaf. rewrite Ec. destruct l; cbn; split; intros H; auto; discriminate.
Qed.

Lemma siblings_lay r q s pa l1 a c l2 : r = mkrow (q ++ [s], a) ->
  At q pa (fapp l1 (Cons ([s], a) c l2)) (fapp l1 (Cons ([s], a) c l2)) f f ->
  get_siblings t r = sibrows q l1 ++ r :: sibrows q l2.
Proof.
  intros E HA. rewrite E. rewrite (get_siblings_lay cfg _ _ _ _ _ _ _ s a L HA).
  - rewrite sibrows_fapp. reflexivity.
  - rewrite roots_fapp. apply in_app_iff. simpl. auto.
Qed.

Lemma siblings_read r : In r t -> map node_of (get_siblings t r) = siblings_of (l_pk r) (kerase f).
Proof.
  intros Hr. destruct (sibs_at r Hr) as (q & s & pa & l1 & a & c & l2 & E & Ep & HA & Hn & E1 & E2).
  unfold siblings_of. rewrite E1, E2. rewrite (siblings_lay r q s pa l1 a c l2 E HA).
  rewrite <- (node_of_sibrows q). rewrite sibrows_fapp, E. reflexivity.
Qed.

Lemma roots_read : map node_of (get_root_nodes t) = roots (kerase f).
Proof. rewrite (get_root_nodes_lay cfg _ _ L). apply node_of_sibrows. Qed.

Lemma sibs_nodup r : In r t -> NoDup (map nid (siblings_of (l_pk r) (kerase f))).
Proof.
  intros Hr. destruct (sibs_at r Hr) as (q & s & pa & l1 & a & c & l2 & E & Ep & HA & Hn & E1 & E2).
  unfold siblings_of. rewrite E1, E2. apply roots_wf. exact (Ctx_wf_l (At_Ctx' _ _ _ _ _ _ HA Ep) I).
Qed.

Lemma neighbours_read r : In r t ->
  option_map node_of (get_next_sibling t r) = next_of (l_pk r) (siblings_of (l_pk r) (kerase f)) /\
  option_map node_of (get_prev_sibling t r) = prev_of (l_pk r) (siblings_of (l_pk r) (kerase f)).
Proof.
  intros Hr. assert (ND := sibs_nodup r Hr). rewrite <- (siblings_read r Hr) in *.
  destruct (sibs_at r Hr) as (q & s & pa & l1 & a & c & l2 & E & Ep & HA & Hn & E1 & E2).
  unfold get_next_sibling, get_prev_sibling.
  assert (Es := siblings_lay r q s pa l1 a c l2 E HA).
  rewrite Es in ND |- *. rewrite (map_app node_of) in ND |- *. cbn [map] in ND |- *.
  rewrite (next_of_split (l_pk r) _ (node_of r)) by auto.
  rewrite (prev_of_split (l_pk r) _ (node_of r)) by auto.
  assert (Wl := k_At_pwf_l _ _ _ _ _ _ HA W).
  apply (pwf_fapp lblt 1) in Wl. destruct Wl as (Wl1 & Wl2 & Wl3).
  destruct Wl2 as (Wa & Wb & Wc & Wd). rewrite Forall_forall in Wd.
  assert (F1 : forall y, In y (sibrows q l1) -> plt (l_path y) (l_path r) = true).
  { intros y Hy. unfold sibrows in Hy. apply in_map_iff in Hy. destruct Hy as (z & <- & Hz).
    rewrite E. cbn [l_path mkrow fst pre]. rewrite plt_pre. apply (Wl3 z ([s], a)); simpl; auto. }
  assert (F2 : forall y, In y (sibrows q l2) -> plt (l_path r) (l_path y) = true).
  { intros y Hy. unfold sibrows in Hy. apply in_map_iff in Hy. destruct Hy as (z & <- & Hz).
    rewrite E. cbn [l_path mkrow fst pre]. rewrite plt_pre. apply (Wd z); auto. }
  rewrite !filter_app. cbn [filter]. rewrite plt_irr.
  rewrite (filter_none _ (sibrows q l1)) by (intros y Hy; apply plt_asym; auto).
  rewrite (filter_all _ (sibrows q l2)) by auto.
  rewrite (filter_all _ (sibrows q l1)) by auto.
  rewrite (filter_none _ (sibrows q l2)) by (intros y Hy; apply plt_asym; auto).
  simpl app. rewrite app_nil_r, hd_error_map, last_opt_map. auto.
Qed.

(** *** Descendants *)
Lemma prune_in d (l : kf) x : kpwf l -> In x (rows (prune_opt d l)) -> In x (rows l).
Proof.
  intros Wl. destruct d as [d|]; auto. cbn [prune_opt].
  rewrite (@prune_rows _ lblt 1 node w1) by exact Wl. intros H. apply filter_In in H. tauto.
Qed.

Lemma tree_lay p a l d : At p (Some (a, a)) l l f f -> (forall z, d = Some z -> (0 <= z)%Z) ->
  get_tree t (Some (mkrow (p, a))) d = mkrow (p, a) :: map (fun x => mkrow (pre p x)) (rows (prune_opt (levels d) l)).
Proof.
  intros HA Hd. assert (Kp := k_prefix _ _ _ _ _ _ HA W). cbn [pold option_map prow fst] in Kp.
  assert (Wl := k_At_pwf_l _ _ _ _ _ _ HA W).
  unfold get_tree. rewrite (query cfg _ t f L). cbn [l_path mkrow fst].
  rewrite <- filter_filter, Kp. cbn [app filter fst].
  replace (match d with
    | Some d0 => if Z.eqb d0 0 then true else (Z.of_nat (length p) <=? d0 + Z.of_nat (length p))%Z
    | None => true end) with true.
  2: { destruct d as [z|]; auto. destruct (Z.eqb_spec z 0); auto. symmetry. apply Z.leb_le. specialize (Hd z eq_refl). lia. }
  cbn [map]. f_equal. rewrite filter_map, map_map. f_equal.
  unfold levels. destruct d as [d|]; [destruct (Z.eqb_spec d 0) as [E|E]|]; cbn [prune_opt].
  - apply filter_all. auto.
  - rewrite (@prune_rows _ lblt 1 node w1) by exact Wl. apply filter_ext_In. intros x Hx.
    unfold pre. cbn [fst]. rewrite app_length. specialize (Hd d eq_refl). apply eq_true_iff_eq.
    rewrite Z.leb_le, Nat.leb_le. lia.
  - apply filter_all. auto.
Qed.

Lemma descendants_read r d : In r t -> (forall z, d = Some z -> (0 <= z)%Z) ->
  exists k, children_of (l_pk r) (kerase f) = Some k /\
  map node_of (get_tree t (Some r) d) = node_of r :: preorder (prune_opt (levels d) k) /\
  map node_of (get_descendants t r true d) = node_of r :: preorder (prune_opt (levels d) k) /\
  map node_of (get_descendants t r false d) = preorder (prune_opt (levels d) k) /\
  get_descendant_count t r d = size (prune_opt (levels d) k).
Proof.
  intros Hr Hd. destruct (kids_at r Hr) as (p & a & l & E & HA & Hx & Ek). exists (kerase l). split; auto.
  assert (Kp := k_prefix _ _ _ _ _ _ HA W). cbn [pold option_map prow fst] in Kp.
  assert (Wl := k_At_pwf_l _ _ _ _ _ _ HA W).
  assert (G := tree_lay p a l d HA Hd). rewrite <- E in G.
  assert (Gn : map node_of (map (fun x => mkrow (pre p x)) (rows (prune_opt (levels d) l)))
               = preorder (prune_opt (levels d) (kerase l))).
  { rewrite map_map, <- kerase_prune, kerase_preorder. apply map_ext. intros x. apply (node_of_mkrow (pre p x)). }
  assert (Gd : get_descendants t r false d = map (fun x => mkrow (pre p x)) (rows (prune_opt (levels d) l))).
  { unfold get_descendants. rewrite G. cbn [filter]. rewrite Nat.eqb_refl. cbn [negb]. apply filter_all.
    intros y Hy. apply in_map_iff in Hy. destruct Hy as (x & <- & Hin). apply prune_in in Hin; auto.
    apply negb_true_iff, Nat.eqb_neq. intros Ey.
    assert (Hin' : In (pre p x) (rows f)).
    { assert (Hf : In (pre p x) (filter (fun r => ppre p (fst r)) (rows f))) by (rewrite Kp; right; apply in_map; auto).
      apply filter_In in Hf. tauto. }
    assert (Er : mkrow (pre p x) = r) by (eapply pk_inj; eauto; eapply lay_in_rev; eauto).
    rewrite E in Er. apply (f_equal l_path) in Er. cbn in Er.
    rewrite <- (app_nil_r p) in Er at 2. apply app_inv_head in Er.
    revert Er. apply (@rows_nonempty _ lblt 1 node w1 l x); auto. }
  assert (Ghd : map node_of (get_tree t (Some r) d) = node_of r :: preorder (prune_opt (levels d) (kerase l))).
  { rewrite G. cbn [map]. f_equal. exact Gn. }
  split; [exact Ghd|]. split; [exact Ghd|]. rewrite Gd. split; auto.
  unfold get_descendant_count. rewrite Gd, <- size_preorder, <- Gn, !map_length. auto.
Qed.

(** A negative limit answers nothing, not even the node. *)
Lemma negative_read r z : (z < 0)%Z -> get_tree t (Some r) (Some z) = [] /\ get_descendants t r true (Some z) = [] /\
  get_descendants t r false (Some z) = [].
Proof.
  intros Hz. assert (E : get_tree t (Some r) (Some z) = []).
  { unfold get_tree. rewrite filter_none; auto. intros x Hx. destruct (ppre (l_path r) (l_path x)) eqn:Ep; auto.
    apply ppre_iff in Ep. destruct Ep as [y ->]. rewrite app_length. destruct (Z.eqb_spec z 0); [lia|].
    cbn [andb]. apply Z.leb_gt. lia. }
  unfold get_descendants. rewrite E. auto.
Qed.

(** *** Ancestors *)
Lemma ancestors_lay r p a : r = mkrow (p, a) -> In (p, a) (rows f) ->
  get_ancestors t r = map mkrow (filter (upper lblt p) (rows f)).
Proof.
  intros -> Hx. unfold get_ancestors. rewrite (query cfg _ t f L). f_equal.
  apply filter_ext_In. intros [p' a'] Hin. unfold upper. cbn [l_path l_pk mkrow fst snd].
  change (prefixb lblt p' p) with (ppre p' p). destruct (ppre p' p) eqn:Ep; auto. cbn [andb]. f_equal.
  apply eq_true_iff_eq. rewrite Nat.eqb_eq. rewrite (peq_iff p' p). split; intros E.
  - assert (X := rows_id_inj f _ _ _ _ I Hin Hx E). congruence.
  - subst p'. f_equal. eapply k_inj; eauto.
Qed.

Lemma ancestors_read r : In r t -> exists l, ancestors_of (l_pk r) (kerase f) = Some l /\
  map node_of (get_ancestors t r) = l /\ get_depth r = S (length l) /\ (is_root r = true <-> l = []).
Proof.
  intros Hr. destruct (lay_in cfg _ _ _ L Hr) as ([p a] & Hx & E).
  exists (map node_of (get_ancestors t r)).
  assert (E1 : ancestors_of (l_pk r) (kerase f) = Some (map node_of (get_ancestors t r))).
  { rewrite (ancestors_lay r p a E Hx), map_node_of. rewrite E.
    apply (@ancestors_rows _ lblt 1 node lblt_irr lblt_tot w1 idn f p a W I Hx). }
  destruct (@depth_ancestors _ lblt 1 node w1 idn f p a W I Hx) as (l & H1 & H2).
  change (erase idn f) with (kerase f) in H1.
  assert (El : l_pk r = nid (idn a)) by (rewrite E; auto). rewrite <- El in H1.
  rewrite H1 in E1. injection E1 as ->.
  split; auto. split; auto.
  assert (D : get_depth r = S (length (map node_of (get_ancestors t r)))).
  { rewrite E at 1. unfold get_depth. cbn [l_path mkrow fst]. lia. }
  split; auto. unfold is_root. unfold get_depth in D. rewrite D.
  destruct (map node_of (get_ancestors t r)); simpl; split; intros; auto; discriminate.
Qed.

Lemma parent_read r : In r t -> exists o, get_parent t r = Ok o /\
  parent_of (l_pk r) (kerase f) = Some (option_map l_pk o) /\ (forall x, o = Some x -> In x t).
Proof.
  intros Hr. destruct (sibs_at r Hr) as (q & s & pa & l1 & a & c & l2 & E & Ep & HA & Hn & E1 & E2).
  unfold get_parent. assert (Em : l_path r = q ++ [s]) by (rewrite E; auto). rewrite Em, parent_snoc, app_length.
  destruct pa as [[b b']|].
  - assert (Hq : q <> []) by (intros H; apply Hn in H; discriminate).
    replace (length q + length [s] =? 1) with false by (symmetry; apply Nat.eqb_neq; destruct q; [congruence|cbn; lia]).
    assert (Hb := k_At_in _ _ _ _ _ _ _ HA).
    assert (Eb := get_by_path_lay cfg t f (q, b) L Hb). cbn [fst] in Eb.
    rewrite Eb. cbn [bind]. eexists. split; [reflexivity|]. split; [exact E1|].
    intros x Ex. injection Ex as <-. eapply lay_in_rev; eauto.
  - assert (q = []) by (apply Hn; auto). subst q. cbn. exists None. repeat split; auto. discriminate.
Qed.

Lemma root_read r : In r t -> exists x l, get_root t r = Ok x /\ In x t /\
  ancestors_of (l_pk r) (kerase f) = Some l /\ node_of x = hd (node_of r) l.
Proof.
  intros Hr. destruct (ancestors_read r Hr) as (l & H1 & H2 & H3 & H4).
  destruct (lay_in cfg _ _ _ L Hr) as ([p a] & Hx & E).
  assert (Hl := k_len _ _ W Hx). cbn [fst] in Hl. destruct p as [|s p]; [cbn in Hl; lia|].
  unfold get_root. rewrite E. cbn [l_path mkrow fst].
  assert (Hst : In [s] (map fst (rows f))).
  { destruct p as [|s' p].
    - apply in_map_iff. exists ([s], a). auto.
    - eapply (@ancestors_stored _ lblt 1 node w1 f (s :: s' :: p) a W Hx [s] (s' :: p) 0); auto. }
  apply in_map_iff in Hst. destruct Hst as ([y b] & Ey & Hy). cbn in Ey. subst y.
  assert (Eb := get_by_path_lay cfg t f ([s], b) L Hy). cbn [fst] in Eb. rewrite Eb.
  exists (mkrow ([s], b)), l. split; auto. split; [eapply lay_in_rev; eauto|]. rewrite <- E. split; auto.
  rewrite <- H2. rewrite (ancestors_lay r (s :: p) a E Hx), map_node_of, node_of_mkrow. cbn [snd].
  destruct p as [|s' p].
  - assert (b = a) by (eapply k_inj; eauto). subst b.
    rewrite filter_none; [rewrite E; destruct a; reflexivity|].
    intros [p' a'] Hp'. unfold upper. cbn [fst]. destruct (prefixb lblt p' [s]) eqn:Ep; auto. cbn [andb].
    apply (ppre_iff p' [s]) in Ep. destruct Ep as [z Ez]. assert (Hl' := k_len _ _ W Hp'). cbn [fst] in Hl'.
    destruct p' as [|u p']; [cbn in Hl'; lia|]. cbn in Ez. injection Ez as -> Ez. symmetry in Ez. apply app_eq_nil in Ez.
    destruct Ez as [-> ->]. rewrite (peq_refl [u] : leq lblt [u] [u] = true). auto.
  - assert (Hin : In ([s], b) (filter (upper lblt (s :: s' :: p)) (rows f))).
    { apply filter_In. split; auto. unfold upper. cbn [fst]. apply andb_true_iff. split.
      - apply (ppre_app [s] (s' :: p)).
      - apply negb_true_iff. apply (peq_false [s] (s :: s' :: p)). discriminate. }
    assert (So := ssorted_filter (upper lblt (s :: s' :: p)) (k_sorted f W)).
    assert (Hi : forall x, In x (filter (upper lblt (s :: s' :: p)) (rows f)) -> exists u, fst x = s :: u).
    { intros x Hix. apply filter_In in Hix. destruct Hix as [Hix Hu]. unfold upper in Hu.
      apply andb_true_iff in Hu. destruct Hu as [Hu _]. apply (ppre_iff (fst x) (s :: s' :: p)) in Hu. destruct Hu as [z Ez].
      assert (Hl' := k_len _ _ W Hix). destruct (fst x) as [|v u]; [cbn in Hl'; lia|]. cbn in Ez. injection Ez as <- _. eauto. }
    destruct (filter (upper lblt (s :: s' :: p)) (rows f)) as [|z zs]; [destruct Hin|].
    destruct Hin as [->|Hin]; [reflexivity|]. exfalso.
    apply StronglySorted_inv in So. destruct So as [_ So]. rewrite Forall_forall in So.
    specialize (So _ Hin). destruct (Hi z) as [u Eu]; [simpl; auto|]. cbn in So. rewrite Eu in So.
    change (plt ([s] ++ u) ([s] ++ []) = true) in So. rewrite plt_pre in So. destruct u; discriminate So.
Qed.

(** *** Relations between two nodes *)
Lemma path_pk q b q' b' : In (q, b) (rows f) -> In (q', b') (rows f) -> (q = q' <-> nid b = nid b').
Proof.
  intros H H'. split; intros E.
  - subst q'. f_equal. eapply k_inj; eauto.
  - assert (X := rows_id_inj f _ _ _ _ I H H' E). congruence.
Qed.

Lemma child_read r n : In r t -> In n t ->
  is_child_of r n = true <-> parent_of (l_pk r) (kerase f) = Some (Some (l_pk n)).
Proof.
  intros Hr Hnt. destruct (sibs_at r Hr) as (q & s & pa & l1 & a & c & l2 & E & Ep & HA & Hn & E1 & E2).
  rewrite E1. destruct (lay_in cfg _ _ _ L Hnt) as ([p b] & Hx & En).
  assert (Hl := k_len _ _ W Hx). cbn [fst] in Hl.
  unfold is_child_of. rewrite E, En. cbn [l_path l_pk mkrow fst snd]. rewrite parent_snoc, peq_iff.
  destruct pa as [[b0 b1]|]; cbn [up_of option_map fst].
  - rewrite (path_pk _ _ _ _ (k_At_in _ _ _ _ _ _ _ HA) Hx). split; congruence.
  - assert (q = []) by (apply Hn; auto). subst q. split; [intros <-; cbn in Hl; lia|discriminate].
Qed.

Lemma sibling_read r n : In r t -> In n t ->
  is_sibling_of r n = true <-> parent_of (l_pk r) (kerase f) = parent_of (l_pk n) (kerase f).
Proof.
  intros Hr Hnt. destruct (sibs_at r Hr) as (q & s & pa & l1 & a & c & l2 & E & Ep & HA & Hn & E1 & E2).
  destruct (sibs_at n Hnt) as (q' & s' & pa' & l1' & a' & c' & l2' & E' & Ep' & HA' & Hn' & E1' & E2').
  rewrite E1, E1'. unfold is_sibling_of. rewrite E, E'. cbn [l_path mkrow fst]. rewrite !parent_snoc, peq_iff.
  destruct pa as [[b b1]|], pa' as [[b' b1']|]; cbn [up_of option_map fst].
  - rewrite (path_pk _ _ _ _ (k_At_in _ _ _ _ _ _ _ HA) (k_At_in _ _ _ _ _ _ _ HA')). split; congruence.
  - split; [|discriminate]. intros ->. destruct Hn as [_ Hn]. rewrite (proj1 Hn' eq_refl) in Hn. discriminate Hn; auto.
  - split; [|discriminate]. intros <-. destruct Hn' as [_ Hn']. rewrite (proj1 Hn eq_refl) in Hn'. discriminate Hn'; auto.
  - rewrite (proj1 Hn eq_refl), (proj1 Hn' eq_refl). tauto.
Qed.

Lemma descendant_read r n : In r t -> In n t ->
  is_descendant_of r n = true <-> descends (kerase f) (l_pk n) (l_pk r).
Proof.
  intros Hr Hnt. destruct (lay_in cfg _ _ _ L Hr) as ([p a] & Hx & ->).
  destruct (lay_in cfg _ _ _ L Hnt) as ([np an] & Hy & ->). apply (desc_spec f np an p a W I Hy Hx).
Qed.

(** Annotated children: every child with the number of its descendants. *)
Lemma group_count_read o : (forall p, o = Some p -> In p t) ->
  exists l, kids_of (option_map l_pk o) (kerase f) = Some l /\
  map (fun x => (node_of (fst x), snd x)) (get_descendants_group_count t o)
  = map (fun a => (a, match children_of (nid a) (kerase f) with Some k => Z.of_nat (size k) | None => 0%Z end)) (roots l).
Proof.
  intros Ho. assert (P : Permutation t (map mkrow (rows f))) by apply L.
  assert (G : forall q pa l, At q pa l l f f ->
    map (fun x => (node_of (fst x), snd x))
      (map (fun r => (r, (Z.of_nat (length (filter (fun x => ppre (l_path r) (l_path x)) t)) - 1)%Z)) (sibrows q l))
    = map (fun a => (a, match children_of (nid a) (kerase f) with Some k => Z.of_nat (size k) | None => 0%Z end))
        (roots (kerase l))).
  { intros q pa l HA. unfold sibrows. rewrite kerase_roots. unfold nodes. rewrite !map_map. apply map_ext_in.
    intros [s a] Hs. cbn [fst snd]. rewrite node_of_mkrow. cbn [pre snd]. f_equal.
    destruct (@roots_split _ _ _ _ Hs) as (l1 & c & l2 & ->).
    destruct (At_kid _ _ _ _ _ HA a c) as [f' HK].
    assert (f = f') by (eapply At_same; eauto). subst f'.
    assert (Kp := k_prefix _ _ _ _ _ _ HK W). cbn [pold option_map prow fst] in Kp.
    assert (Ek := Ctx_kids_of (At_Ctx' _ _ _ _ _ _ HK eq_refl) I). cbn [kids_of up_of option_map fst] in Ek. rewrite Ek.
    rewrite (Permutation_length (Permutation_filter _ P)), filter_map, map_length.
    cbn [l_path mkrow pre fst]. rewrite Kp. cbn [app length]. rewrite map_length.
    unfold kerase, erase. rewrite size_fmap, <- size_preorder.
    rewrite <- (map_length snd (rows c)), rows_snd, map_length. lia. }
  unfold get_descendants_group_count. destruct o as [p|].
  - destruct (kids_at p (Ho p eq_refl)) as (pp & a & l & E & HA & _ & Ek).
    exists (kerase l). split; auto. rewrite E at 1.
    rewrite (get_children_lay cfg _ _ _ _ _ _ _ _ L HA). eapply G; eauto.
  - exists (kerase f). split; auto. rewrite (get_root_nodes_lay cfg _ _ L). apply (G [] None f). constructor.
Qed.

End Row.

(** ** Deleting *)

(** Proper ancestor by path. *)
Definition above (p r : lpath) : Prop := exists z, z <> [] /\ r = p ++ z.

Lemma above_len p r : above p r -> length p < length r.
Proof. intros (z & Hz & ->). rewrite app_length. destruct z; [congruence|simpl; lia]. Qed.
Lemma above_trans p q r : above p q -> above q r -> above p r.
Proof.
  intros (z & Hz & ->) (y & Hy & ->). exists (z ++ y). rewrite app_assoc. split; auto.
  destruct z; [congruence|discriminate].
Qed.
Lemma ppre_above p r : ppre p r = true <-> p = r \/ above p r.
Proof.
  rewrite ppre_iff. split.
  - intros [[|c z] ->]; [left; rewrite app_nil_r; auto|right; exists (c :: z); split; auto; discriminate].
  - intros [->|(z & _ & ->)]; eauto. exists []. rewrite app_nil_r. auto.
Qed.
Lemma above_plt p r : above p r -> plt p r = true.
Proof. intros (z & Hz & ->). apply llt_self_app; auto with lt. Qed.

(** One step of the loop: does an ancestor of the path go already? *)
Lemma covered_spec acc p : (forall x, In x acc -> x <> []) ->
  existsb (fun d => existsb (peq (firstn d p)) acc) (seq 1 (length p - 1)) = true <-> exists x, In x acc /\ above x p.
Proof.
  intros Ha. rewrite existsb_exists. split.
  - intros (d & Hd & E). apply existsb_exists in E. destruct E as (x & Hx & E). apply peq_iff in E. apply in_seq in Hd.
    exists x. split; auto. exists (skipn d p). split; [|rewrite <- E, firstn_skipn; auto].
    intros E0. apply (f_equal (@length _)) in E0. rewrite skipn_length in E0. simpl in E0. lia.
  - intros (x & Hx & Hab). assert (Hl := above_len _ _ Hab). assert (Hx0 := Ha x Hx). exists (length x). split.
    + apply in_seq. destruct x; [congruence|]. cbn [length] in *. lia.
    + apply existsb_exists. exists x. split; auto. apply peq_iff. destruct Hab as (z & _ & ->).
      rewrite firstn_app, firstn_all, Nat.sub_diag. cbn. apply app_nil_r.
Qed.

(** The loop computes the topmost paths. *)
Lemma paths_spec L2 : forall P acc,
  (forall r, In r (P ++ L2) -> l_path r <> []) ->
  (forall x y, In x P -> In y L2 -> ~ above (l_path y) (l_path x)) ->
  StronglySorted (fun a b => ~ above (l_path b) (l_path a)) L2 ->
  (forall p, In p acc <-> exists r, In r P /\ l_path r = p /\ forall y, In y P -> ~ above (l_path y) p) ->
  forall p, In p (paths_to_remove L2 acc) <->
    exists r, In r (P ++ L2) /\ l_path r = p /\ forall y, In y (P ++ L2) -> ~ above (l_path y) p.
Proof.
  induction L2 as [|r L2 IH]; intros P acc Ne Le So Inv.
  - rewrite app_nil_r. exact Inv.
  - assert (Epp : P ++ r :: L2 = (P ++ [r]) ++ L2) by (rewrite <- app_assoc; auto).
    apply StronglySorted_inv in So. destruct So as [So Fr]. rewrite Forall_forall in Fr.
    assert (Le' : forall x y, In x (P ++ [r]) -> In y L2 -> ~ above (l_path y) (l_path x)).
    { intros x y Hx Hy. apply in_app_iff in Hx. destruct Hx as [Hx|[<-|[]]]; auto. apply Le; simpl; auto. }
    assert (Aacc : forall x, In x acc -> x <> []).
    { intros x Hx. apply Inv in Hx. destruct Hx as (y & Hy & <- & _). apply Ne. apply in_app_iff. auto. }
    assert (Hself : forall p, ~ above p p) by (intros p Hp; apply above_len in Hp; lia).
    assert (Hback : forall x, In x P -> ~ above (l_path r) (l_path x)) by (intros x Hx; apply Le; simpl; auto).
    (* topmost *)
    assert (Top : forall n x, length (l_path x) <= n -> In x P -> exists y, In y P /\ ppre (l_path y) (l_path x) = true /\
       forall z, In z P -> ~ above (l_path z) (l_path y)).
    { induction n as [|n IHn]; intros x Hl Hx.
      - exists x. split; auto. split; [apply ppre_above; auto|]. intros z Hz Hab. apply above_len in Hab. lia.
      - destruct (existsb (fun z => ppre (l_path z) (l_path x) && negb (peq (l_path z) (l_path x))) P) eqn:E.
        + apply existsb_exists in E. destruct E as (z & Hz & E). apply andb_true_iff in E. destruct E as [E1 E2].
          apply negb_true_iff, peq_false in E2. apply ppre_above in E1. destruct E1 as [E1|E1]; [congruence|].
          assert (Hl' := above_len _ _ E1). destruct (IHn z ltac:(lia) Hz) as (y & Hy & Hp & Hm).
          exists y. split; auto. split; auto. apply ppre_above in Hp. apply ppre_above. right.
          destruct Hp as [->|Hp]; auto. eapply above_trans; eauto.
        + exists x. split; auto. split; [apply ppre_above; auto|]. intros z Hz Hab. rewrite existsb_false in E. specialize (E z Hz).
          rewrite (proj2 (ppre_above _ _) (or_intror Hab)) in E. cbn in E. apply negb_false_iff, peq_iff in E.
          rewrite E in Hab. apply (Hself _ Hab). }
    assert (Hex : (exists x, In x acc /\ above x (l_path r)) <-> exists x, In x P /\ above (l_path x) (l_path r)).
    { split; intros (x & Hx & Hab).
      - apply Inv in Hx. destruct Hx as (y & Hy & <- & _). eauto.
      - destruct (Top _ x (le_n _) Hx) as (y & Hy & Hp & Hm). exists (l_path y). split; [apply Inv; eauto|].
        apply ppre_above in Hp. destruct Hp as [->|Hp]; auto. eapply above_trans; eauto. }
    cbn [paths_to_remove]. rewrite Epp. intros p.
    destruct (existsb (fun d => existsb (peq (firstn d (l_path r))) acc) (seq 1 (length (l_path r) - 1))) eqn:Hr.
    + apply covered_spec in Hr; auto. apply Hex in Hr. destruct Hr as (x0 & Hx0 & Hab0).
      apply IH; auto; [rewrite <- Epp; auto|].
      intros z. rewrite Inv. split.
      * intros (y & Hy & Ey & Hm). exists y. split; [apply in_app_iff; auto|]. split; auto. intros u Hu.
        apply in_app_iff in Hu. destruct Hu as [Hu|[<-|[]]]; auto. rewrite <- Ey. auto.
      * intros (y & Hy & Ey & Hm). apply in_app_iff in Hy. destruct Hy as [Hy|[<-|[]]].
        -- exists y. split; auto. split; auto. intros u Hu. apply Hm. apply in_app_iff. auto.
        -- exfalso. apply (Hm x0); [apply in_app_iff; auto|]. rewrite <- Ey. auto.
    + assert (Hno : ~ exists x, In x P /\ above (l_path x) (l_path r)).
      { rewrite <- Hex. rewrite <- covered_spec by auto. congruence. }
      apply IH; auto; [rewrite <- Epp; auto|].
      assert (Inv' : forall z, In z (if existsb (peq (l_path r)) acc then acc else acc ++ [l_path r]) <-> In z acc \/ z = l_path r).
      { intros z. destruct (existsb (peq (l_path r)) acc) eqn:E; [|rewrite in_app_iff; cbn; intuition congruence].
        apply existsb_exists in E. destruct E as (u & Hu & E). apply peq_iff in E. subst u. split; auto. intros [H| ->]; auto. }
      intros z. rewrite Inv', Inv. split.
      * intros [(y & Hy & Ey & Hm)| ->].
        -- exists y. split; [apply in_app_iff; auto|]. split; auto. intros u Hu. apply in_app_iff in Hu.
           destruct Hu as [Hu|[<-|[]]]; auto. rewrite <- Ey. auto.
        -- exists r. split; [apply in_app_iff; cbn; auto|]. split; auto. intros u Hu. apply in_app_iff in Hu.
           destruct Hu as [Hu|[<-|[]]]; auto. intros Hab. apply Hno. eauto.
      * intros (y & Hy & Ey & Hm). apply in_app_iff in Hy. destruct Hy as [Hy|[<-|[]]]; auto. left.
        exists y. split; auto. split; auto. intros u Hu. apply Hm. apply in_app_iff. auto.
Qed.

Section Del.
Variable t : lt_table.
Variable f : kf.
Variable sel : ltrow -> bool.
Hypothesis L : lay t f.
Hypothesis I : wf_ids (kerase f).
Let W : kpwf f := proj1 L.

Let St (i : nat) : bool := existsb (fun r => (l_pk r =? i) && sel r) t.
Let Sp (a : node) : bool := St (nid a).
Let gone := paths_to_remove (order_path (filter sel t)) [].

Lemma St_sel r : In r t -> St (l_pk r) = sel r.
Proof.
  intros H. unfold St. destruct (sel r) eqn:E.
  - apply existsb_exists. exists r. rewrite Nat.eqb_refl. auto.
  - apply existsb_false. intros r' H'. destruct (Nat.eqb_spec (l_pk r') (l_pk r)) as [Ek|]; auto.
    rewrite (pk_inj cfg t f r' r) by auto. rewrite E. auto.
Qed.

Lemma Sp_sel x : In x (rows f) -> Sp (snd x) = sel (mkrow x).
Proof. intros H. unfold Sp. apply (St_sel (mkrow x)). eapply lay_in_rev; eauto. Qed.

Lemma gone_spec p : In p gone <->
  exists r, In r t /\ sel r = true /\ l_path r = p /\ forall y, In y t -> sel y = true -> ~ above (l_path y) p.
Proof.
  assert (Hin : forall r, In r (order_path (filter sel t)) <-> In r t /\ sel r = true).
  { intros r. rewrite <- filter_In. unfold order_path. split; apply Permutation_in; [|symmetry]; apply isort_perm. }
  unfold gone. rewrite (paths_spec (order_path (filter sel t)) [] []).
  - cbn [app]. split.
    + intros (r & Hr & E & Hm). apply Hin in Hr. exists r. split; [tauto|]. split; [tauto|]. split; auto.
      intros y Hy Hs. apply Hm. apply Hin. auto.
    + intros (r & Hr & Hs & E & Hm). exists r. split; [apply Hin; auto|]. split; auto.
      intros y Hy. apply Hin in Hy. apply Hm; tauto.
  - cbn [app]. intros r Hr. apply Hin in Hr. destruct (lay_in cfg _ _ _ L (proj1 Hr)) as (x & Hx & ->).
    assert (Hl := k_len _ _ W Hx). cbn [l_path mkrow]. intros E. rewrite E in Hl. cbn in Hl. lia.
  - intros x y [].
  - rewrite (query cfg _ t f L).
    assert (So := mk_sorted _ (ssorted_filter (fun r => sel (mkrow r)) (k_sorted f W))).
    revert So. unfold ssorted. generalize (map mkrow (filter (fun r => sel (mkrow r)) (rows f))). clear.
    induction 1 as [|x l S IH F]; constructor; auto. rewrite Forall_forall in *. intros y Hy Hab.
    apply above_plt in Hab. specialize (F y Hy). cbn in F. apply plt_asym in F. congruence.
  - intros p'. split; [intros []|]. intros (r & [] & _).
Qed.

Lemma deleted_spec x : In x (rows f) -> existsb (fun p => ppre p (fst x)) gone = hit lblt Sp (rows f) x.
Proof.
  intros Hx. apply eq_true_iff_eq. unfold hit. rewrite !existsb_exists. split.
  - intros (p & Hp & E). apply gone_spec in Hp. destruct Hp as (r & Hr & Hs & <- & _).
    destruct (lay_in cfg _ _ _ L Hr) as (y & Hy & ->). exists y. split; auto. rewrite (Sp_sel y Hy), Hs. exact E.
  - intros (y & Hy & E). apply andb_true_iff in E. destruct E as [E1 E2]. rewrite (Sp_sel y Hy) in E1.
    change (ppre (fst y) (fst x) = true) in E2.
    (* a topmost selected row above y *)
    assert (Top : forall n y, length (fst y) <= n -> In y (rows f) -> sel (mkrow y) = true ->
       exists p, In p gone /\ ppre p (fst y) = true).
    { clear y Hy E1 E2. induction n as [|n IHn]; intros y Hl Hy Hs.
      - assert (Hl' := k_len _ _ W Hy). lia.
      - destruct (existsb (fun z => sel (mkrow z) && (ppre (fst z) (fst y) && negb (peq (fst z) (fst y)))) (rows f)) eqn:E.
        + apply existsb_exists in E. destruct E as (z & Hz & E). apply andb_true_iff in E. destruct E as [Es E].
          apply andb_true_iff in E. destruct E as [E1 E2].
          apply negb_true_iff, peq_false in E2. apply ppre_above in E1. destruct E1 as [E1|E1]; [congruence|].
          assert (Hl' := above_len _ _ E1). destruct (IHn z ltac:(lia) Hz Es) as (p & Hp & Hq).
          exists p. split; auto. apply ppre_above in Hq. apply ppre_above. right. destruct Hq as [->|Hq]; auto. eapply above_trans; eauto.
        + exists (fst y). split; [|apply ppre_above; auto]. apply gone_spec. exists (mkrow y).
          split; [eapply lay_in_rev; eauto|]. split; auto. split; auto. intros r Hr Hsr Hab.
          destruct (lay_in cfg _ _ _ L Hr) as (z & Hz & ->). cbn [l_path mkrow] in Hab. rewrite existsb_false in E. specialize (E z Hz).
          rewrite Hsr, (proj2 (ppre_above _ _) (or_intror Hab)) in E. cbn in E. apply negb_false_iff, peq_iff in E.
          rewrite E in Hab. apply above_len in Hab. lia. }
    destruct (Top _ y (le_n _) Hy E1) as (p & Hp & Hq). exists p. split; auto.
    apply ppre_iff in Hq. apply ppre_iff in E2. destruct Hq as [u Eu], E2 as [v Ev]. rewrite Ev, Eu, <- app_assoc. apply ppre_app.
Qed.

Let g (p : lpath) (a : node) : node := a.

Lemma kdel_erase p (h : kf) : kerase (kdel Sp g p h) = remove_all St (kerase h).
Proof.
  revert p. induction h as [|x k IHk r IHr]; intros p; auto. cbn [kdel]. unfold kerase, erase in *. cbn [fmap remove_all].
  unfold Sp at 1, idn at 2. destruct (St (nid (snd x))); auto. cbn [fmap]. rewrite IHk, IHr. auto.
Qed.

Lemma kdel_valid p (h : kf) : kvalid cfg h -> kvalid cfg (kdel Sp g p h).
Proof.
  revert p. induction h as [|x k IHk r IHr]; intros p V; auto. cbn [kdel].
  apply kvalid_cons in V. destruct V as (V1 & V2 & V3).
  destruct (Sp (snd x)); auto. apply kvalid_cons. auto.
Qed.

Lemma delete_rows : lay (filter (fun r => negb (existsb (fun p => ppre p (l_path r)) gone)) t) (kdel Sp g [] f).
Proof.
  assert (L' := L). destruct L' as (_ & V & P).
  split; [apply kdel_pwf; auto|]. split; [apply kdel_valid; auto|].
  rewrite (@kdel_rows _ lblt 1 node lblt_irr lblt_tot w1) by exact W.
  rewrite (Permutation_filter _ P), filter_map.
  match goal with |- Permutation (map ?a ?b) (map ?c (map ?e ?d)) => replace b with d end.
  - rewrite map_map. erewrite map_ext; [reflexivity|]. intros [p a]. reflexivity.
  - apply filter_ext_In. intros x Hx. cbn [l_path mkrow]. rewrite deleted_spec by auto. auto.
Qed.

End Del.

(** Deleting a queryset removes exactly the subtrees of the selected nodes; the signal
    names the topmost selected paths, and there is none for an empty selection. *)
Theorem delete_queryset_ok db F sel : stores (lt_rows db) F ->
  stores (lt_rows (delete_queryset db sel))
         (remove_all (fun i => existsb (fun r => (l_pk r =? i) && sel r) (lt_rows db)) F) /\
  (if existsb sel (lt_rows db) then
     exists ps, lt_sig (delete_queryset db sel) = lt_sig db ++ [Deleted ps] /\
       forall p, In p ps <-> exists r, In r (lt_rows db) /\ sel r = true /\ l_path r = p /\
         forall y, In y (lt_rows db) -> sel y = true -> ~ above (l_path y) p
   else delete_queryset db sel = db).
Proof.
  intros (f & L & <- & I). assert (D := delete_rows _ f sel L I). assert (G := gone_spec _ f sel L).
  assert (S1 : stores (filter (fun r => negb (existsb (fun p => ppre p (l_path r))
       (paths_to_remove (order_path (filter sel (lt_rows db))) []))) (lt_rows db))
    (remove_all (fun i => existsb (fun r => (l_pk r =? i) && sel r) (lt_rows db)) (kerase f))).
  { eexists. split; [exact D|]. split; [apply kdel_erase|]. apply remove_all_wf; auto. }
  unfold delete_queryset. destruct (existsb sel (lt_rows db)) eqn:E.
  - destruct (paths_to_remove (order_path (filter sel (lt_rows db))) []) as [|p0 ps] eqn:Ep.
    + exfalso. apply existsb_exists in E. destruct E as (r & Hr & Hs).
      destruct (lay_in cfg _ _ _ L Hr) as (x & Hx & ->).
      assert (X := deleted_spec _ f sel L I x Hx). rewrite Ep in X. cbn in X. symmetry in X.
      unfold hit in X. rewrite existsb_false in X. specialize (X x Hx).
      assert (Y := Sp_sel (lt_rows db) f sel L I x Hx). cbn in Y. rewrite Y, Hs in X. cbn in X.
      change (ppre (fst x) (fst x) = false) in X. rewrite (proj2 (ppre_above _ _) (or_introl eq_refl)) in X. discriminate.
    + cbn [lt_rows lt_sig]. split; [exact S1|]. exists (p0 :: ps). split; auto.
  - assert (Hf : filter sel (lt_rows db) = []) by (apply filter_none; apply existsb_false; auto).
    rewrite Hf in *. cbn in *. split; auto.
    assert (Ef : filter (fun _ : ltrow => true) (lt_rows db) = lt_rows db) by (apply filter_all; auto).
    rewrite Ef in S1. exact S1.
Qed.

Theorem delete_ok db F n : stores (lt_rows db) F -> In n (lt_rows db) ->
  stores (lt_rows (delete db n)) (remove (l_pk n) F) /\ lt_sig (delete db n) = lt_sig db ++ [Deleted [l_path n]].
Proof.
  intros H Hn. unfold delete. assert (H' := H). destruct H' as (f & L & E & I).
  destruct (delete_queryset_ok db F (fun r => l_pk r =? l_pk n) H) as [H1 _]. split.
  - replace (remove (l_pk n) F)
      with (remove_all (fun i => existsb (fun r => (l_pk r =? i) && (l_pk r =? l_pk n)) (lt_rows db)) F); auto.
    rewrite <- remove_all_one by auto. apply remove_all_ext. intros i _.
    apply eq_true_iff_eq. rewrite existsb_exists. split.
    + intros (r & _ & Er). apply andb_true_iff in Er. destruct Er as [E1 E2].
      apply Nat.eqb_eq in E1. apply Nat.eqb_eq in E2. apply Nat.eqb_eq. congruence.
    + intros Er. apply Nat.eqb_eq in Er. subst i. exists n. rewrite Nat.eqb_refl. auto.
  - subst F. unfold delete_queryset.
    assert (Ef : filter (fun r => l_pk r =? l_pk n) (lt_rows db) = [n]).
    { assert (ND : NoDup (map l_pk (lt_rows db))) by (rewrite (lay_pks cfg _ _ L); auto).
      revert Hn ND. generalize (lt_rows db). clear. induction l as [|y l IH]; intros Hn ND; [inversion Hn|].
      cbn in ND. inversion ND; subst. cbn [filter]. destruct Hn as [->|Hn].
      - rewrite Nat.eqb_refl. f_equal. apply filter_none. intros z Hz. apply Nat.eqb_neq. intros E. apply H1.
        rewrite <- E. apply in_map; auto.
      - rewrite IH by auto. destruct (Nat.eqb_spec (l_pk y) (l_pk n)) as [E|E]; auto. exfalso. apply H1. rewrite E. apply in_map; auto. }
    rewrite Ef. cbn [order_path isort insert]. unfold order_path. cbn [isort insert paths_to_remove].
    replace (existsb _ (seq 1 (length (l_path n) - 1))) with false; [reflexivity|].
    symmetry. apply existsb_false. auto.
Qed.

End Reads.
