(** The signals of materialized path trees describe every change of paths (C14). *)
From Coq Require Import String List Arith ZArith Lia Bool Permutation.
From Verif Require Import Prelude Forest NumConv PathTab CommonModel Order MPModel MPStep MPFixModel.
Import ListNotations.

Section MPSignals.
Variable cfg : mp_cfg.
Notation steplen := (steplen cfg).

(** ** A listener
    It keeps primary key, path and depth of the nodes and applies each path_updated
    signal as documented in /repo/docs/source/mp_tree.rst:249-268. *)
Definition copy := list (nat * (path * nat)).
Definition copy_of (t : mp_table) : copy := map (fun r => (m_pk r, (m_path r, m_depth r))) t.

Definition starts (p q : path) : Prop := exists s, q = p ++ s.

Definition hear1 (old new : path) (x : nat * (path * nat)) : nat * (path * nat) :=
  let '(pk, (p, d)) := x in
  if ppre old p
  then let p' := new ++ skipn (length old) p in
       (pk, (p', if length old =? length new then d else length p' / steplen))
  else x.
Definition hear (c : copy) (s : path * path) : copy := map (hear1 (fst s) (snd s)) c.

Definition heard (db db' : mp_db) : Prop :=
  exists new, db_sig db' = db_sig db ++ new /\ fold_left hear new (copy_of (db_rows db)) = copy_of (db_rows db').

Lemma heard_refl db : heard db db.
Proof. exists []. rewrite app_nil_r. auto. Qed.

Lemma heard_trans a b c : heard a b -> heard b c -> heard a c.
Proof.
  intros (n1 & E1 & H1) (n2 & E2 & H2). exists (n1 ++ n2). rewrite E2, E1, app_assoc, fold_left_app, H1. auto.
Qed.

Lemma heard_same (db : mp_db) t : copy_of t = copy_of (db_rows db) -> heard db (mkDB t (db_sig db)).
Proof. intros E. exists []. cbn [db_sig db_rows fold_left]. rewrite app_nil_r. auto. Qed.

Lemma ppre_refl_set p q : ppre p q = true -> p ++ skipn (length p) q = q.
Proof. rewrite ppre_iff. intros [s ->]. f_equal. rewrite skipn_app, skipn_all, Nat.sub_diag. reflexivity. Qed.

Lemma hear_row old new r : hear1 old new (m_pk r, (m_path r, m_depth r)) =
  (fun r => (m_pk r, (m_path r, m_depth r))) (set_row cfg old new r).
Proof. unfold hear1, set_row. destruct (ppre old (m_path r)); auto. Qed.

Lemma hear_none old new t : existsb (fun r => ppre old (m_path r)) t = false -> map (set_row cfg old new) t = t.
Proof.
  intros E. rewrite <- (map_id t) at 2. apply map_ext_in. intros r Hr. unfold set_row.
  rewrite existsb_false in E. rewrite E; auto.
Qed.

Lemma set_row_same p r : set_row cfg p p r = r.
Proof.
  unfold set_row. destruct (ppre p (m_path r)) eqn:E; auto. rewrite Nat.eqb_refl, (ppre_refl_set _ _ E). destruct r; auto.
Qed.

Lemma heard_set db old new db' : set_newpath cfg db old new = Ok db' -> heard db db'.
Proof.
  unfold set_newpath. destruct (peq old new) eqn:Ep.
  - intros E. injection E as <-. eexists. cbn [db_sig db_rows]. split; [reflexivity|].
    apply peq_iff in Ep. subst new. destruct (existsb _ (db_rows db)); auto. cbn [fold_left]. unfold hear, copy_of. cbn [fst snd].
    rewrite map_map. apply map_ext. intros r. rewrite hear_row, set_row_same. auto.
  - destruct (paths_clash cfg old new (db_rows db)); [discriminate|]. intros E. injection E as <-.
    eexists. cbn [db_sig db_rows]. split; [reflexivity|]. destruct (existsb _ (db_rows db)) eqn:Ex.
    + cbn [fold_left]. unfold hear, copy_of. cbn [fst snd]. rewrite !map_map. apply map_ext. intros r. apply hear_row.
    + rewrite hear_none by auto. auto.
Qed.

Lemma heard_siblings l : forall db op tp db' op' tp', move_siblings cfg db op tp l = Ok (db', op', tp') -> heard db db'.
Proof.
  induction l as [|r l IH]; intros db op tp db' op' tp'; cbn [move_siblings].
  - intros E. injection E as <- _ _. apply heard_refl.
  - destruct (inc_path cfg (m_path r)) as [i|]; cbn [bind]; [|discriminate].
    destruct (set_newpath cfg db (m_path r) i) as [d1|] eqn:E; cbn [bind]; [|discriminate].
    apply heard_set in E. destruct op; intros H; eapply heard_trans; eauto.
Qed.

Lemma heard_reorder db p np nd tg sib op db' op' x y : reorder cfg db p np nd tg sib op = Ok (db', op', x, y) -> heard db db'.
Proof.
  unfold reorder. destruct (goes_last cfg (db_rows db) p tg).
  - destruct (opt_res (get_last_sibling cfg (db_rows db) tg) AttributeError) as [l|]; cbn [bind]; [|discriminate].
    destruct (inc_path cfg (m_path l)) as [i|]; cbn [bind]; [|discriminate].
    destruct op as [op|]; cbn [bind].
    + destruct (set_newpath cfg db op i) as [d|] eqn:E; cbn [bind]; [|discriminate]. intros H. injection H as <- _ _ _.
      eapply heard_set; eauto.
    + intros H. injection H as <- _ _ _. apply heard_refl.
  - destruct (match np with Some n => _ | None => _ end) as [[n s]|]; cbn [bind]; [|discriminate].
    match goal with |- (bind ?X _ = _ -> _) => destruct X as [[db1 tmp]|] eqn:E1; cbn [bind]; [|discriminate] end.
    assert (H1 : heard db db1).
    { destruct op as [op|]; [|injection E1 as <- _; apply heard_refl].
      match type of E1 with (if ?b then _ else _) = _ => destruct b end; [|injection E1 as <- _; apply heard_refl].
      destruct (opt_res _ _); cbn [bind] in E1; [|discriminate]. destruct (get_lastpos _ _); cbn [bind] in E1; [|discriminate].
      match type of E1 with bind ?X _ = _ => destruct X as [d|] eqn:E2; cbn [bind] in E1; [|discriminate] end.
      injection E1 as <- _. eapply heard_set; eauto. }
    destruct (collect_movesiblings _ _ _) as [ms|]; cbn [bind]; [|discriminate].
    destruct (move_siblings _ _ _ _ _) as [[[db2 op2] tp]|] eqn:E3; cbn [bind]; [|discriminate].
    apply heard_siblings in E3. assert (H2 := heard_trans _ _ _ H1 E3). destruct op2 as [op2|].
    + match goal with |- (bind ?X _ = _ -> _) => destruct X as [d|] eqn:E4; cbn [bind]; [|discriminate] end.
      intros H. injection H as <- _ _ _. apply heard_set in E4. eapply heard_trans; eauto.
    + intros H. injection H as <- _ _ _. auto.
Qed.

(** After a call that adds a node the table is the listener's copy and the new row
    (which post_save reports). *)
Definition heard_new (db db' : mp_db) (r : mprow) : Prop :=
  exists new c, db_sig db' = db_sig db ++ new /\ fold_left hear new (copy_of (db_rows db)) = c /\
    copy_of (db_rows db') = (m_pk r, (m_path r, m_depth r)) :: c.

Lemma heard_save db db0 r db' : heard db db0 -> save_row db0 r = Ok db' ->
  ~ In (m_pk r) (map m_pk (db_rows db0)) -> heard_new db db' r.
Proof.
  intros (n & E & H) Hs Fr. unfold save_row in Hs.
  destruct (existsb _ (db_rows db0)); [discriminate|].
  replace (existsb (fun x => m_pk x =? m_pk r) (db_rows db0)) with false in Hs.
  - injection Hs as <-. exists n, (copy_of (db_rows db0)). auto.
  - symmetry. apply existsb_false. intros x Hx. apply Nat.eqb_neq. intros Ex. apply Fr. rewrite <- Ex. apply in_map. auto.
Qed.

Lemma heard_pks db db' : heard db db' -> map m_pk (db_rows db') = map m_pk (db_rows db).
Proof.
  intros (n & _ & H). assert (G : forall n c, map fst (fold_left hear n c) = map fst c).
  { clear. induction n as [|s n IH]; intros c; cbn [fold_left]; auto. rewrite IH. unfold hear. rewrite map_map.
    apply map_ext. intros [pk [p d]]. cbn. destruct (ppre (fst s) p); auto. }
  specialize (G n (copy_of (db_rows db))). rewrite H in G. unfold copy_of in G. rewrite !map_map in G. exact G.
Qed.

Lemma copy_nc p g t : copy_of (map (upd_nc p g) t) = copy_of t.
Proof. unfold copy_of. rewrite map_map. apply map_ext. intros r. unfold upd_nc. destruct (peq (m_path r) p); auto. Qed.

Lemma copy_nc_pk k g t : copy_of (map (upd_nc_pk k g) t) = copy_of t.
Proof. unfold copy_of. rewrite map_map. apply map_ext. intros r. unfold upd_nc_pk. destruct (m_pk r =? k); auto. Qed.

Theorem add_sibling_heard db target p x db' r : ~ In (new_pk x) (map m_pk (db_rows db)) ->
  add_sibling cfg db target p x = Ok (db', r) -> heard_new db db' r.
Proof.
  intros Fr. unfold add_sibling. destruct (prepare_pos_add (is_sorted cfg) p) as [P|]; cbn [bind]; [|discriminate].
  match goal with |- (bind ?X _ = _ -> _) => destruct X as [[[P' np] sib]|]; cbn [bind]; [|discriminate] end.
  destruct (reorder _ _ _ _ _ _ _ _) as [[[[db1 op] newpath] tp]|] eqn:E; cbn [bind]; [|discriminate].
  apply heard_reorder in E. cbv zeta.
  match goal with |- (bind (save_row ?d ?w) _ = _ -> _) => set (db2 := d); set (row := w) end.
  destruct (save_row db2 row) as [db3|] eqn:Es; cbn [bind]; [|discriminate]. intros H. injection H as <- <-.
  assert (H2 : heard db db2).
  { eapply heard_trans; [exact E|]. unfold db2. destruct (get_basepath _ _ _); [apply heard_refl|].
    apply heard_same. apply copy_nc. }
  eapply heard_save; eauto. rewrite (heard_pks _ _ H2). auto.
Qed.

Theorem add_root_heard db x db' r : ~ In (new_pk x) (map m_pk (db_rows db)) ->
  add_root cfg db x = Ok (db', r) -> heard_new db db' r.
Proof.
  intros Fr. unfold add_root. destruct (get_last_root_node (db_rows db)) as [l|].
  - destruct (is_sorted cfg); [apply add_sibling_heard; auto|].
    destruct (inc_path _ _); cbn [bind]; [|discriminate]. destruct (save_row db _) as [d|] eqn:E; cbn [bind]; [|discriminate].
    intros H. injection H as <- <-. eapply heard_save; [apply heard_refl|exact E|]. auto.
  - cbv zeta. destruct (save_row db _) as [d|] eqn:E; cbn [bind]; [|discriminate].
    intros H. injection H as <- <-. eapply heard_save; [apply heard_refl|exact E|]. auto.
Qed.

Theorem add_child_heard db target x db' r tg : ~ In (new_pk x) (map m_pk (db_rows db)) ->
  add_child cfg db target x = Ok (db', r, tg) -> heard_new db db' r.
Proof.
  intros Fr. unfold add_child. destruct (get_by_pk _ _) as [nd|]; cbn [bind]; [|discriminate].
  destruct (is_sorted cfg && negb (is_leaf nd)).
  - destruct (opt_res _ _) as [l|]; cbn [bind]; [|discriminate].
    destruct (add_sibling cfg db l _ x) as [[d y]|] eqn:E; cbn [bind]; [|discriminate]. intros H. injection H as <- <- _.
    eapply add_sibling_heard; eauto.
  - cbv zeta. match goal with |- (bind ?X _ = _ -> _) => destruct X as [np|]; cbn [bind]; [|discriminate] end.
    destruct (save_row _ _) as [d|] eqn:E; cbn [bind]; [|discriminate]. intros H. injection H as <- <- _.
    eapply heard_save; [apply heard_same; apply copy_nc_pk|exact E|]. cbn [db_rows].
    intros Hi. apply Fr. rewrite map_map in Hi.
    replace (map m_pk (db_rows db)) with (map (fun x0 => m_pk (upd_nc_pk (m_pk nd) S x0)) (db_rows db)); auto.
    apply map_ext. intros y. unfold upd_nc_pk. destruct (m_pk y =? m_pk nd); auto.
Qed.

Theorem move_heard db node target p db' node' target' :
  move cfg db node target p = Ok (db', node', target') -> heard db db'.
Proof.
  unfold move. destruct (prepare_pos_move (is_sorted cfg) p) as [P|]; cbn [bind]; [|discriminate].
  destruct (move_to_child_vars cfg (db_rows db) node target P) as [[[[[[t1 nd] sib] np] p1] ut]|]; cbn [bind]; [|discriminate].
  destruct (is_descendant_of t1 node); [discriminate|].
  destruct (move_prepare _ _ _ _ _ _ _ _) as [[[[p2 np2] sib2]|]|]; cbn [bind]; [| |discriminate].
  - destruct (reorder _ _ _ _ _ _ _ _) as [[[[db1 op] newpath] tp]|] eqn:E; cbn [bind]; [|discriminate].
    apply heard_reorder in E. set (db2 := update_parent_counts _ _ _ _).
    assert (H2 : heard db1 db2).
    { unfold db2, update_parent_counts. destruct (peq _ _); [apply heard_refl|].
      destruct (get_parent_path cfg (match op with Some x => x | None => [] end)) as [|a l];
        destruct (get_parent_path cfg newpath) as [|b l'].
      all: unfold decrement_numchild, increment_numchild; cbn [db_rows db_sig].
      all: first [apply heard_refl | apply heard_same; rewrite ?copy_nc; reflexivity]. }
    destruct (refresh (db_rows db2) node); cbn [bind]; [|discriminate].
    destruct (refresh (db_rows db2) t1); cbn [bind]; [|discriminate]. intros H. injection H as <- _ _.
    eapply heard_trans; eauto.
  - intros H. injection H as <- _ _. apply heard_refl.
Qed.

(** ** fix_tree, and the paths alone *)
Definition paths_of (t : mp_table) : list (nat * path) := map (fun r => (m_pk r, m_path r)) t.
Definition hear_path (c : list (nat * path)) (s : path * path) : list (nat * path) :=
  map (fun x => if ppre (fst s) (snd x) then (fst x, snd s ++ skipn (length (fst s)) (snd x)) else x) c.
Definition heard_p (db db' : mp_db) : Prop :=
  exists new, db_sig db' = db_sig db ++ new /\ fold_left hear_path new (paths_of (db_rows db)) = paths_of (db_rows db').

Lemma heardp_refl db : heard_p db db.
Proof. exists []. rewrite app_nil_r. auto. Qed.

Lemma heardp_trans a b c : heard_p a b -> heard_p b c -> heard_p a c.
Proof.
  intros (n1 & E1 & H1) (n2 & E2 & H2). exists (n1 ++ n2). rewrite E2, E1, app_assoc, fold_left_app, H1. auto.
Qed.

Lemma heardp_rewrite db old new db' : rewrite_node_path db old new = Ok db' -> heard_p db db'.
Proof.
  unfold rewrite_node_path. destruct (peq old new) eqn:Ep.
  - intros E. injection E as <-. eexists. cbn [db_sig db_rows]. split; [reflexivity|].
    apply peq_iff in Ep. subst new. destruct (existsb _ (db_rows db)); auto. cbn [fold_left]. unfold hear_path, paths_of. cbn [fst snd].
    rewrite map_map. apply map_ext. intros r. cbn [fst snd]. destruct (ppre old (m_path r)) eqn:E; auto.
    rewrite (ppre_refl_set _ _ E). auto.
  - match goal with |- (if ?b then _ else _) = _ -> _ => destruct b end; [discriminate|]. intros E. injection E as <-.
    eexists. cbn [db_sig db_rows]. split; [reflexivity|]. destruct (existsb _ (db_rows db)) eqn:Ex.
    + cbn [fold_left]. unfold hear_path, paths_of. cbn [fst snd]. rewrite !map_map. apply map_ext. intros r.
      cbn [fst snd]. unfold rewrite_row. destruct (ppre old (m_path r)); auto.
    + cbn [fold_left]. unfold paths_of. rewrite map_map. apply map_ext_in. intros r Hr. unfold rewrite_row.
      rewrite existsb_false in Ex. rewrite Ex; auto.
Qed.

Lemma heardp_item pp d i pk s s' : fix_item cfg pp d i pk s = Ok s' -> heard_p (fx_db s) (fx_db s').
Proof.
  unfold fix_item. destruct (opt_res (assoc pk (fx_paths s)) KeyError); cbn [bind]; [|discriminate].
  destruct (get_lastpos cfg a) as [ac|]; cbn [bind]; [|discriminate]. destruct (ac =? i).
  { intros E. injection E as <-. apply heardp_refl. }
  destruct (evict cfg pp d i s) as [s1|] eqn:Ev; cbn [bind]; [|discriminate].
  assert (H1 : heard_p (fx_db s) (fx_db s1)).
  { unfold evict in Ev. destruct (assoc i (fx_seq s)); [|injection Ev as <-; apply heardp_refl].
    destruct (opt_res _ _); cbn [bind] in Ev; [|discriminate]. destruct (_ <? _); [discriminate|].
    destruct (rewrite_node_path _ _ _) eqn:E; cbn [bind] in Ev; [|discriminate]. injection Ev as <-. eapply heardp_rewrite; eauto. }
  destruct (opt_res (assoc pk (fx_paths s1)) KeyError); cbn [bind]; [|discriminate].
  destruct (rewrite_node_path _ _ _) eqn:E; cbn [bind]; [|discriminate]. intros H. injection H as <-. cbn [fx_db].
  eapply heardp_trans; [exact H1|]. eapply heardp_rewrite; eauto.
Qed.

Lemma heardp_items pp d items : forall i s q s' q', fix_items cfg pp d i items s q = Ok (s', q') -> heard_p (fx_db s) (fx_db s').
Proof.
  induction items as [|it items IH]; intros i s q s' q'; cbn [fix_items].
  - intros E. injection E as <- _. apply heardp_refl.
  - destruct (fix_item cfg pp d (S i) (m_pk it) s) as [s1|] eqn:E; cbn [bind]; [|discriminate].
    destruct (opt_res _ _); cbn [bind]; [|discriminate]. intros H. apply IH in H. apply heardp_item in E.
    eapply heardp_trans; eauto.
Qed.

Lemma heardp_loop fuel : forall db q db', fix_loop cfg fuel db q = Ok db' -> heard_p db db'.
Proof.
  induction fuel as [|fuel IH]; intros db [|[p d] q] db'; cbn [fix_loop]; try discriminate;
    try (intros E; injection E as <-; apply heardp_refl).
  destruct (fix_level cfg db p d q) as [[d1 q1]|] eqn:E; cbn [bind]; [|discriminate]. intros H. apply IH in H.
  eapply heardp_trans; [|exact H]. unfold fix_level in E. destruct (positions _ _); cbn [bind] in E; [|discriminate].
  destruct (fix_items _ _ _ _ _ _ _) as [[s' q']|] eqn:E1; cbn [bind] in E; [|discriminate]. injection E as <- _.
  apply heardp_items in E1. exact E1.
Qed.

Theorem fix_tree_heard db fp parent db' : fix_tree cfg db fp parent = Ok db' -> heard_p db db'.
Proof.
  unfold fix_tree. set (t := fix_numchild _ _ _).
  assert (H : heard_p db (mkDB t (db_sig db))).
  { exists []. cbn [db_sig db_rows fold_left]. rewrite app_nil_r. split; auto.
    unfold t, fix_numchild, fix_depth, paths_of. rewrite !map_map. apply map_ext. intros r.
    destruct (below parent r) eqn:E; cbn; rewrite ?E; auto. unfold below in *. cbn in *. destruct parent; cbn in *; rewrite ?E; auto. }
  destruct fp.
  - intros E. apply heardp_loop in E. eapply heardp_trans; eauto.
  - intros E. injection E as <-. auto.
Qed.

(** ** nodes_deleted
    The two lists of the signal, /repo/treebeard/mp_tree.py:58-68 and 83-85. *)
Definition del_signal (t : mp_table) (selected : mprow -> bool) : list nat * list path :=
  let removed := minimal_removed cfg [] (isort depth_path_le (filter selected t)) in
  (map m_pk (filter is_leaf removed), map m_path (filter (fun r => negb (is_leaf r)) removed)).

Definition hear_deleted (s : list nat * list path) (c : copy) : copy :=
  filter (fun x => negb (existsb (Nat.eqb (fst x)) (fst s) || existsb (fun p => ppre p (fst (snd x))) (snd s))) c.

Theorem delete_heard t selected :
  copy_of (delete_queryset cfg t selected) = hear_deleted (del_signal t selected) (copy_of t).
Proof.
  unfold delete_queryset, run_statements, delete_statements, del_signal. set (rem := minimal_removed _ _ _).
  rewrite fold_left_app. cbn [fold_left].
  assert (G : forall l u, copy_of (fold_left (fun t s => s t) (map (fun p => map (upd_nc p (fun n => n - lost_children cfg rem p))) l) u) = copy_of u).
  { induction l as [|p l IH]; intros u; cbn [map fold_left]; auto. rewrite IH. apply copy_nc. }
  specialize (G (parents_of_removed cfg rem) t). set (u := fold_left _ _ t) in *. rewrite <- G.
  unfold hear_deleted, copy_of. rewrite filter_map. cbn [fst snd]. f_equal. apply filter_ext. intros r. f_equal.
  unfold deleted_row. clearbody u. clear G. clearbody rem. induction rem as [|x l IH]; auto. cbn [existsb filter]. rewrite IH. destruct (is_leaf x); cbn [negb map existsb].
  - apply orb_assoc.
  - rewrite !orb_assoc. f_equal. apply orb_comm.
Qed.
End MPSignals.
