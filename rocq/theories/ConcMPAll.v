(** The transactions of all calls on materialized paths do alone what the calls do (C72). *)
From Coq Require Import String List Arith Lia Bool Permutation.
From Verif Require Import Prelude Forest SpecFacts PathTab CommonModel Order History ConcModel ConcRun ConcAlone ConcCalls.
From Verif Require Import MPModel MPStep MPInv MPHist ConcMPModel.
Import ListNotations.
Local Open Scope nat_scope.

Notation alone := (alone mprow m_pk mp_same).

Section MP.
Variable cfg : mp_cfg.
Notation rows_res r := (do db <- r; Ok (db_rows db)).

Lemma reads_alone A (f : mp_table -> res A) c t : alone t (reads f c) = do a <- f t; alone t (c a).
Proof. unfold reads. cbn [ConcAlone.alone]. destruct (f t); reflexivity. Qed.
Lemma raise_alone A (r : res A) c t : alone t (or_raise r c) = do a <- r; alone t (c a).
Proof. destruct r; reflexivity. Qed.

Lemma set_row_same p r : set_row cfg p p r = r.
Proof.
  unfold set_row. destruct (ppre p (m_path r)) eqn:E; [|auto]. apply ppre_iff in E. destruct E as [z Ez]. rewrite Nat.eqb_refl.
  rewrite Ez, skipn_app, skipn_all, Nat.sub_diag. cbn [skipn app]. rewrite <- Ez. destruct r; auto.
Qed.
Lemma set_row_out old new r : ppre old (m_path r) = false -> set_row cfg old new r = r.
Proof. intros E. unfold set_row. rewrite E. auto. Qed.

Lemma set_alone db old new c : alone (db_rows db) (mp_set cfg old new c) = do db' <- set_newpath cfg db old new; alone (db_rows db') c.
Proof.
  unfold mp_set, set_newpath. cbn [ConcAlone.alone]. cbv zeta.
  assert (E : map (fun r => if ppre old (m_path r) then set_row cfg old new r else r) (db_rows db) = map (set_row cfg old new) (db_rows db)).
  { apply map_ext. intros r. destruct (ppre old (m_path r)) eqn:Ep; auto. symmetry. apply set_row_out. auto. }
  destruct (peq old new) eqn:Eq.
  - apply peq_iff in Eq. subst new. cbn [negb andb ConcAlone.alone bind db_rows]. rewrite E. f_equal.
    rewrite <- (map_id (db_rows db)) at 2. apply map_ext. intros r. apply set_row_same.
  - cbn [negb andb]. destruct (paths_clash cfg old new (db_rows db)); [reflexivity|]. cbn [ConcAlone.alone bind db_rows]. rewrite E. reflexivity.
Qed.

Lemma set_pks db old new db' : set_newpath cfg db old new = Ok db' -> map m_pk (db_rows db') = map m_pk (db_rows db).
Proof.
  unfold set_newpath. cbv zeta. destruct (peq old new); [intros E; injection E as <-; auto|]. destruct (paths_clash cfg old new (db_rows db)); [discriminate|].
  intros E. injection E as <-. cbn [db_rows]. rewrite map_map. apply map_ext. intros r. unfold set_row. destruct (ppre old (m_path r)); auto.
Qed.

Lemma moves_alone l : forall db op tp c,
  alone (db_rows db) (mp_moves cfg op l c) =
  do x <- move_siblings cfg db op tp l; alone (db_rows (fst (fst x))) (c (snd (fst x))).
Proof.
  induction l as [|r l IH]; intros db op tp c; [reflexivity|]. cbn [mp_moves move_siblings]. rewrite raise_alone.
  destruct (inc_path cfg (m_path r)) as [inc|e]; [|reflexivity]. cbn [bind]. rewrite set_alone.
  destruct (set_newpath cfg db (m_path r) inc) as [db'|e]; [|reflexivity]. cbn [bind]. destruct op as [op|]; cbn [option_map]; apply IH.
Qed.
Lemma moves_pks l : forall db op tp x, move_siblings cfg db op tp l = Ok x -> map m_pk (db_rows (fst (fst x))) = map m_pk (db_rows db).
Proof.
  induction l as [|r l IH]; intros db op tp x; cbn [move_siblings]; [intros E; injection E as <-; auto|].
  destruct (inc_path cfg (m_path r)) as [inc|e]; [|discriminate]. cbn [bind].
  destruct (set_newpath cfg db (m_path r) inc) as [db'|e] eqn:Es; [|discriminate]. cbn [bind].
  intros E. rewrite <- (set_pks _ _ _ _ Es). destruct op; eauto.
Qed.

(** [sibs] is what the QuerySet gives. *)
Definition gives (t : mp_table) (siblings : option (mp_table -> list mprow)) (l : list mprow) : Prop :=
  match siblings with Some q => q t | None => [] end = l.

Lemma reorder_alone db p newpos newdepth target siblings l op c : (newpos <> None -> gives (db_rows db) siblings l) ->
  alone (db_rows db) (mp_reorder cfg p newpos newdepth target siblings op c) =
  do '(db', op', np, _) <- reorder cfg db p newpos newdepth target l op; alone (db_rows db') (c op' np).
Proof.
  intros G. unfold mp_reorder, reorder. rewrite reads_alone. cbn [bind]. destruct (goes_last cfg (db_rows db) p target).
  - rewrite reads_alone. destruct (opt_res (get_last_sibling cfg (db_rows db) target) AttributeError) as [last|e]; [|reflexivity]. cbn [bind].
    rewrite raise_alone. destruct (inc_path cfg (m_path last)) as [np|e]; [|reflexivity]. cbn [bind]. destruct op as [op|].
    + rewrite set_alone. destruct (set_newpath cfg db op np); reflexivity.
    + reflexivity.
  - rewrite reads_alone.
    assert (El : mp_later cfg newpos siblings p target (db_rows db) = match newpos with Some n => Ok (n, l) | None => reorder_pos cfg (db_rows db) p target end).
    { unfold mp_later. destruct newpos; auto. rewrite (G ltac:(discriminate)). auto. }
    rewrite El. clear El. destruct (match newpos with Some _ => _ | None => _ end) as [[n sibs]|e]; [|reflexivity]. cbn [bind].
    set (np := get_path cfg (m_path target) newdepth n). unfold mp_temporary.
    assert (Tail : forall db1 temp,
      alone (db_rows db1) (or_raise (collect_movesiblings cfg np sibs) (fun ms => mp_moves cfg op (rev ms) (fun op =>
        match op with None => c None np | Some o => mp_set cfg (match temp with Some x => x | None => o end) np (c (Some o) np) end))) =
      do '(db', op', np, _) <- (do movesiblings <- collect_movesiblings cfg np sibs;
        do '(db2, oldpath2, tpath) <- move_siblings cfg db1 op (m_path target) (rev movesiblings);
        match oldpath2 with
        | None => Ok (db2, None, np, tpath)
        | Some op2 => do db3 <- set_newpath cfg db2 (match temp with Some x => x | None => op2 end) np; Ok (db3, Some op2, np, tpath)
        end); alone (db_rows db') (c op' np)).
    { intros db1 temp. rewrite raise_alone. destruct (collect_movesiblings cfg np sibs) as [ms|e]; [|reflexivity]. cbn [bind].
      rewrite (moves_alone (rev ms) db1 op (m_path target)). destruct (move_siblings cfg db1 op (m_path target) (rev ms)) as [[[db2 op2] tp]|e]; [|reflexivity].
      cbn [bind fst snd]. destruct op2 as [op2|]; [|reflexivity]. rewrite set_alone. destruct (set_newpath cfg db2 _ np); reflexivity. }
    destruct op as [op|]; [|apply (Tail db None)].
    destruct ((length op =? length np) && _ && _ && _) eqn:Et; [|apply (Tail db None)].
    rewrite reads_alone. destruct (opt_res (get_last_sibling cfg (db_rows db) target) AttributeError) as [last|e]; [|reflexivity]. cbn [bind].
    rewrite raise_alone. destruct (get_lastpos cfg (m_path last)) as [b|e]; [|reflexivity]. cbn [bind]. cbv zeta. rewrite set_alone.
    destruct (set_newpath cfg db op _) as [db1|e]; [|reflexivity]. cbn [bind]. apply (Tail db1 (Some _)).
Qed.
Lemma reorder_pks db p newpos newdepth target l op x : reorder cfg db p newpos newdepth target l op = Ok x ->
  map m_pk (db_rows (fst (fst (fst x)))) = map m_pk (db_rows db).
Proof.
  unfold reorder. cbv zeta. destruct (goes_last cfg (db_rows db) p target).
  - destruct (opt_res _ _) as [last|]; [|discriminate]. cbn [bind]. destruct (inc_path cfg (m_path last)) as [np|]; [|discriminate]. cbn [bind].
    destruct op as [op|]; cbn [bind].
    + destruct (set_newpath cfg db op np) as [db'|] eqn:E; [|discriminate]. cbn [bind]. intros H. injection H as <-. eapply set_pks; eauto.
    + intros H. injection H as <-. auto.
  - destruct (match newpos with Some _ => _ | None => _ end) as [[n sibs]|]; [|discriminate]. cbn [bind].
    set (np := get_path cfg (m_path target) newdepth n).
    match goal with |- context [bind ?e (fun x => _)] => destruct e as [[db1 temp]|] eqn:E1; [|discriminate] end. cbn [bind].
    assert (P1 : map m_pk (db_rows db1) = map m_pk (db_rows db)).
    { destruct op as [op|]; [|injection E1 as <- _; auto]. destruct ((length op =? length np) && _ && _ && _); [|injection E1 as <- _; auto].
      destruct (opt_res _ _) as [last|]; [|discriminate]. cbn [bind] in E1. destruct (get_lastpos cfg (m_path last)) as [b|]; [|discriminate]. cbn [bind] in E1.
      destruct (set_newpath cfg db op _) as [db'|] eqn:E; [|discriminate]. cbn [bind] in E1. injection E1 as <- _. eapply set_pks; eauto. }
    destruct (collect_movesiblings cfg np sibs) as [ms|]; [|discriminate]. cbn [bind].
    destruct (move_siblings cfg db1 op (m_path target) (rev ms)) as [[[db2 op2] tp]|] eqn:Em; [|discriminate]. cbn [bind].
    assert (P2 := moves_pks _ _ _ _ _ Em). cbn [fst] in P2. destruct op2 as [op2|].
    + destruct (set_newpath cfg db2 _ np) as [db3|] eqn:E; [|discriminate]. cbn [bind]. intros H. injection H as <-. cbn [fst]. rewrite (set_pks _ _ _ _ E). congruence.
    + intros H. injection H as <-. cbn [fst]. congruence.
Qed.

Lemma unused_pk x (t : mp_table) : ~ In (nid x) (map m_pk t) -> existsb (fun r => m_pk r =? nid x) t = false.
Proof.
  intros N. apply not_true_iff_false. intros E. apply existsb_exists in E. destruct E as (r & Hr & E). apply Nat.eqb_eq in E. apply N. rewrite <- E. apply in_map. auto.
Qed.
Lemma save_alone db x np depth : ~ In (nid x) (map m_pk (db_rows db)) ->
  alone (db_rows db) (Insert (mp_new x np depth) Commit) = rows_res (save_row db (mp_new x np depth)).
Proof.
  intros N. cbn [ConcAlone.alone]. unfold save_row. cbv zeta. change (m_pk (mp_new x np depth)) with (nid x). change (m_path (mp_new x np depth)) with np.
  rewrite (unused_pk x _ N).
  assert (E : existsb (mp_same (mp_new x np depth)) (db_rows db) = existsb (fun r => peq (m_path r) np && negb (m_pk r =? nid x)) (db_rows db)).
  { apply eq_true_iff_eq. rewrite !existsb_exists. split; intros (r & Hr & E); exists r; split; auto.
    - unfold mp_same in E. cbn in E. assert (Nr : m_pk r <> nid x) by (intros H; apply N; rewrite <- H; apply in_map; auto).
      apply orb_true_iff in E. destruct E as [E|E]; [apply Nat.eqb_eq in E; congruence|].
      apply andb_true_iff. split; [apply peq_iff; apply peq_iff in E; auto|]. apply negb_true_iff, Nat.eqb_neq. auto.
    - apply andb_true_iff in E. destruct E as [E _]. unfold mp_same. cbn. apply orb_true_iff. right. apply peq_iff. apply peq_iff in E. auto. }
  rewrite E. clear E. destruct (existsb (fun r => peq (m_path r) np && negb (m_pk r =? nid x)) (db_rows db)); reflexivity.
Qed.

Lemma upd_eq p g (t : mp_table) : map (fun r => if peq (m_path r) p then set_nc r (g (m_nc r)) else r) t = map (upd_nc p g) t.
Proof. apply map_ext. intros r. unfold upd_nc, set_nc. destruct (peq (m_path r) p); auto. Qed.
Lemma upd_pks p g (t : mp_table) : map m_pk (map (upd_nc p g) t) = map m_pk t.
Proof. rewrite map_map. apply map_ext. intros r. unfold upd_nc. destruct (peq (m_path r) p); auto. Qed.

Lemma insert_sibling_alone db x depth np : ~ In (nid x) (map m_pk (db_rows db)) ->
  alone (db_rows db) (mp_insert_sibling cfg x depth np) =
  let parentpath := get_basepath cfg np (depth - 1) in
  let db2 := match parentpath with [] => db | _ => increment_numchild db parentpath end in
  rows_res (save_row db2 (mp_new x np depth)).
Proof.
  intros N. unfold mp_insert_sibling. cbv zeta. destruct (get_basepath cfg np (depth - 1)) as [|z b] eqn:Eb; [apply save_alone; auto|].
  cbn [ConcAlone.alone]. rewrite upd_eq. assert (S := save_alone (increment_numchild db (z :: b)) x np depth). cbn [db_rows increment_numchild] in S.
  rewrite upd_pks in S. exact (S N).
Qed.

Lemma first_alone p target d t : mp_first cfg p target d t = Ok (match p with SortedSibling => hd_error (sorted_siblings cfg t target d) | _ => None end).
Proof. reflexivity. Qed.

Lemma sibling_alone db target p x : ~ In (nid x) (map m_pk (db_rows db)) ->
  alone (db_rows db) (mp_sibling cfg target p x) = do r <- add_sibling cfg db target p (mkNew (nid x) 0 (ndata x)); Ok (db_rows (fst r)).
Proof.
  intros N. unfold mp_sibling, add_sibling. rewrite raise_alone. destruct (prepare_pos_add (is_sorted cfg) p) as [P|e]; [|reflexivity]. cbn [bind].
  rewrite reads_alone, first_alone. cbn [bind new_data new_pk new_nc]. rewrite raise_alone.
  assert (Tail : forall P' newpos l, (newpos <> None -> gives (db_rows db) (mp_siblings cfg P target (ndata x)) l) ->
    alone (db_rows db) (mp_reorder cfg P' newpos (m_depth target) target (mp_siblings cfg P target (ndata x)) None
      (fun _ newpath => mp_insert_sibling cfg x (m_depth target) newpath)) =
    do r <- (do '(db1, _, newpath, _) <- reorder cfg db P' newpos (m_depth target) target l None;
      do db3 <- save_row (match get_basepath cfg newpath (m_depth target - 1) with [] => db1 | _ => increment_numchild db1 (get_basepath cfg newpath (m_depth target - 1)) end) (mkMP (nid x) newpath (m_depth target) 0 (ndata x));
      Ok (db3, mkMP (nid x) newpath (m_depth target) 0 (ndata x))); Ok (db_rows (fst r))).
  { intros P' newpos l G. rewrite (reorder_alone db P' newpos (m_depth target) target _ l None _ G).
    destruct (reorder cfg db P' newpos (m_depth target) target l None) as [[[[db1 op] np] tp]|e] eqn:Er; [|reflexivity]. cbn [bind].
    apply reorder_pks in Er. cbn [fst] in Er. rewrite insert_sibling_alone by (rewrite Er; auto). cbv zeta. unfold mp_new.
    destruct (get_basepath cfg np (m_depth target - 1)); destruct (save_row _ _); reflexivity. }
  destruct P; try (cbn [bind]; apply Tail; congruence).
  destruct (hd_error (sorted_siblings cfg (db_rows db) target (ndata x))) as [f|].
  - destruct (get_lastpos cfg (m_path f)) as [n|e]; [|reflexivity]. cbn [bind]. apply Tail. reflexivity.
  - cbn [bind]. apply Tail. congruence.
Qed.

Lemma counts_alone db op np c : alone (db_rows db) (mp_counts cfg op np c) = alone (db_rows (update_parent_counts cfg db op np)) c.
Proof.
  unfold mp_counts, update_parent_counts. cbv zeta. destruct (peq (get_parent_path cfg op) (get_parent_path cfg np)); [reflexivity|].
  destruct (get_parent_path cfg op), (get_parent_path cfg np); cbn [ConcAlone.alone]; rewrite ?upd_eq; reflexivity.
Qed.

Lemma get_pk t k r : get_by_pk t k = Ok r -> m_pk r = k.
Proof.
  unfold get_by_pk. destruct (filter (fun r => m_pk r =? k) t) as [|a l] eqn:E; [discriminate|]. intros H. injection H as <-.
  assert (Ha : In a (filter (fun r => m_pk r =? k) t)) by (rewrite E; left; auto). apply filter_In in Ha. apply Nat.eqb_eq. tauto.
Qed.

Lemma move_alone db n q p :
  alone (db_rows db) (mp_move cfg n q p) =
  do n <- get_by_pk (db_rows db) n; do t <- get_by_pk (db_rows db) q;
  do r <- move cfg db n t p; Ok (db_rows (fst (fst r))).
Proof.
  unfold mp_move, move. rewrite reads_alone. destruct (get_by_pk (db_rows db) n) as [nd|e] eqn:En; [|reflexivity]. cbn [bind].
  rewrite reads_alone. destruct (get_by_pk (db_rows db) q) as [target|e] eqn:Eq; [|reflexivity]. cbn [bind].
  rewrite raise_alone. destruct (prepare_pos_move (is_sorted cfg) p) as [P|e]; [|reflexivity]. cbn [bind].
  rewrite reads_alone. destruct (move_to_child_vars cfg (db_rows db) nd target P) as [[[[[[tg depth] sibs] newpos] P1] ut]|e] eqn:Em; [|reflexivity]. cbn [bind].
  destruct (is_descendant_of tg nd); [reflexivity|]. rewrite reads_alone, first_alone. cbn [bind]. rewrite raise_alone.
  assert (Es : sibs = []).
  { unfold move_to_child_vars in Em. destruct P; try (injection Em as _ _ <- _ _ _; auto; fail);
      destruct (m_pk target =? m_pk nd); try discriminate; destruct (is_leaf target); try (injection Em as _ _ <- _ _ _; auto; fail);
      destruct (opt_res _ _); try discriminate; injection Em as _ _ <- _ _ _; auto. }
  subst sibs. apply get_pk in En.
  assert (Tail : forall P2 np l, (np <> None -> gives (db_rows db) (mp_siblings cfg P1 tg (m_data nd)) l) ->
    alone (db_rows db) (reads (mp_noop cfg nd tg depth P2) (fun stays => if stays : bool then Commit else
      mp_reorder cfg P2 np depth tg (mp_siblings cfg P1 tg (m_data nd)) (Some (m_path nd)) (fun oldpath newpath =>
      mp_counts cfg (match oldpath with Some x => x | None => [] end) newpath
      (reads (fun t => get_by_pk t n) (fun _ => reads (fun t => get_by_pk t (m_pk tg)) (fun _ => Commit)))))) =
    do r <- (do r <-
      (if (depth =? m_depth nd) && match P2 with
           | FirstSibling => same_pk nd (get_first_sibling cfg (db_rows db) tg)
           | LastSibling => same_pk nd (get_last_sibling cfg (db_rows db) tg) | _ => false end
       then Ok None
       else if (m_pk nd =? m_pk tg) && match P2 with Left => true
           | Right | LastSibling => same_pk tg (get_last_sibling cfg (db_rows db) tg) | _ => false end
       then Ok None else Ok (Some (P2, np, l)));
      match r with
      | None => Ok (db, nd, ut)
      | Some (p2, newpos, siblings) =>
        do '(db1, oldpath, newpath, tpath) <- reorder cfg db p2 newpos depth tg siblings (Some (m_path nd));
        do node' <- refresh (db_rows (update_parent_counts cfg db1 (match oldpath with Some x => x | None => [] end) newpath)) nd;
        do target' <- refresh (db_rows (update_parent_counts cfg db1 (match oldpath with Some x => x | None => [] end) newpath)) tg;
        Ok (update_parent_counts cfg db1 (match oldpath with Some x => x | None => [] end) newpath, node',
            if (match P with FirstChild | LastChild | SortedChild => negb (is_leaf target) | _ => false end) then ut else target')
      end); Ok (db_rows (fst (fst r)))).
  { intros P2 np l G. rewrite reads_alone. unfold mp_noop. cbn [bind].
    destruct ((depth =? m_depth nd) && _); [reflexivity|]. cbn [orb]. destruct ((m_pk nd =? m_pk tg) && _); [reflexivity|]. cbn [bind].
    rewrite (reorder_alone db P2 np depth tg _ l _ _ G).
    destruct (reorder cfg db P2 np depth tg l (Some (m_path nd))) as [[[[db1 op] npath] tp]|e]; [|reflexivity]. cbn [bind].
    rewrite counts_alone, reads_alone. unfold refresh. rewrite En.
    destruct (get_by_pk (db_rows (update_parent_counts cfg db1 _ npath)) n); [|reflexivity]. cbn [bind]. rewrite reads_alone.
    destruct (get_by_pk (db_rows (update_parent_counts cfg db1 _ npath)) (m_pk tg)); reflexivity. }
  unfold move_prepare. unfold mp_place. destruct P1; cbn match; try (cbn [bind]; exact (Tail _ newpos [] (fun _ => eq_refl))).
  destruct (hd_error (sorted_siblings cfg (db_rows db) tg (m_data nd))) as [f|].
  - destruct (get_lastpos cfg (m_path f)) as [k|e]; [|reflexivity]. cbn [bind]. destruct (get_lastpos cfg (m_path nd)) as [h|e]; [|reflexivity]. cbn [bind].
    destruct (peq _ _ && _); [reflexivity|]. cbn [bind]. apply Tail. reflexivity.
  - cbn [bind]. apply Tail. congruence.
Qed.

Lemma child_alone db k x : ~ In (nid x) (map m_pk (db_rows db)) ->
  alone (db_rows db) (mp_add_child_by cfg k x) =
  do t <- get_by_pk (db_rows db) k; do r <- add_child cfg db t (mkNew (nid x) 0 (ndata x)); Ok (db_rows (fst (fst r))).
Proof.
  intros N. unfold mp_add_child_by, add_child. cbn [ConcAlone.alone].
  destruct (get_by_pk (db_rows db) k) as [nd|e] eqn:E.
  - assert (Ek := get_pk _ _ _ E). cbn [bind]. rewrite Ek, E. cbn [bind].
    assert (Eh : hd_error (filter (fun r => m_pk r =? k) (db_rows db)) = Some nd) by (unfold get_by_pk in E; destruct (filter _ (db_rows db)); [discriminate|injection E as ->; auto]).
    rewrite Eh. cbn [else_raise].
    assert (Ins : forall np, alone (db_rows db) (mp_insert_child k x (m_depth nd + 1) np) =
      rows_res (save_row (mkDB (map (upd_nc_pk k S) (db_rows db)) (db_sig db)) (mp_new x np (m_depth nd + 1)))).
    { intros np. unfold mp_insert_child. cbn [ConcAlone.alone].
      replace (map (fun r => if m_pk r =? k then set_nc r (S (m_nc r)) else r) (db_rows db)) with (map (upd_nc_pk k S) (db_rows db)).
      - apply (save_alone (mkDB (map (upd_nc_pk k S) (db_rows db)) (db_sig db))). cbn [db_rows]. rewrite map_map.
        rewrite (map_ext _ m_pk); auto. intros r. unfold upd_nc_pk. destruct (m_pk r =? k); auto.
      - apply map_ext. intros r. unfold upd_nc_pk, set_nc. destruct (m_pk r =? k); auto. }
    destruct (is_sorted cfg && negb (is_leaf nd)).
    + rewrite reads_alone. destruct (opt_res _ _) as [last|e]; [|reflexivity]. cbn [bind]. rewrite sibling_alone by auto.
      destruct (add_sibling cfg db last _ _) as [[db' r]|e]; reflexivity.
    + destruct (is_leaf nd).
      * cbv zeta. destruct (maxlen cfg <? _); [reflexivity|]. cbn [bind]. rewrite Ins, ?Ek. unfold mp_new. cbn [new_pk new_nc new_data].
        destruct (save_row _ _); reflexivity.
      * rewrite reads_alone. destruct (opt_res _ _) as [last|e]; [|reflexivity]. cbn [bind]. rewrite raise_alone.
        destruct (inc_path cfg (m_path last)) as [np|e]; [|reflexivity]. cbn [bind]. rewrite Ins, ?Ek. unfold mp_new. cbn [new_pk new_nc new_data].
        destruct (save_row _ _); reflexivity.
  - cbn [bind]. unfold get_by_pk in E. destruct (filter _ (db_rows db)); [injection E as <-; reflexivity|discriminate].
Qed.

Definition mp_exec_rows (t : mp_table) (c : call) : res mp_table := do db <- mp_exec cfg (mkDB t []) c; Ok (db_rows db).
Definition all_ready (t : mp_table) (c : call) : Prop := forall i, In i (new_ids c) -> ~ In i (map m_pk t).

Lemma delete_alone t l : alone t (mp_delete cfg l) = Ok (delete_queryset cfg t (fun r => existsb (Nat.eqb (m_pk r)) l)).
Proof.
  unfold mp_delete, delete_queryset, delete_statements, run_statements. cbn [ConcAlone.alone]. cbv zeta. set (rs := minimal_removed cfg [] _).
  rewrite fold_left_app. cbn [fold_left]. revert t rs. intros t rs.
  assert (G : forall ps u, alone u (mp_decrease cfg rs ps (Delete (deleted_row rs) Commit)) =
    Ok (filter (fun r => negb (deleted_row rs r)) (fold_left (fun t s => s t) (map (fun p => map (upd_nc p (fun n => n - lost_children cfg rs p))) ps) u))).
  { induction ps as [|p ps IH]; intros u; [reflexivity|]. cbn [mp_decrease ConcAlone.alone map fold_left]. rewrite IH. reflexivity. }
  apply G.
Qed.

(** For any table whatsoever. *)
Theorem all_same_call t c : all_ready t c -> alone t (mp_tx cfg c) = mp_exec_rows t c.
Proof.
  intros N. unfold mp_exec_rows. destruct c as [x|k x|k p x|n q p|l]; cbn [mp_tx mp_exec db_rows].
  - assert (Nx : ~ In (nid x) (map m_pk t)) by (apply N; left; auto).
    unfold mp_add_root_by, add_root. cbn [db_rows]. rewrite reads_alone. cbn [bind].
    assert (Sv := fun np => save_alone (mkDB t []) x np 1 Nx). cbn [db_rows] in Sv.
    destruct (get_last_root_node t) as [lr|].
    + destruct (is_sorted cfg).
      * assert (Sb := sibling_alone (mkDB t []) lr (Some "sorted-sibling"%string) x Nx). cbn [db_rows] in Sb. rewrite Sb. destruct (add_sibling _ _ _ _ _); reflexivity.
      * rewrite raise_alone. destruct (inc_path cfg (m_path lr)) as [np|]; [|reflexivity]. cbn [bind]. rewrite Sv. unfold mp_new. cbn [new_pk new_nc new_data].
        destruct (save_row _ _); reflexivity.
    + rewrite Sv. unfold mp_new. cbn [new_pk new_nc new_data]. destruct (save_row _ _); reflexivity.
  - assert (Nx : ~ In (nid x) (map m_pk t)) by (apply N; left; auto).
    assert (C := child_alone (mkDB t []) k x Nx). cbn [db_rows] in C. rewrite C. destruct (get_by_pk t k); [|reflexivity]. cbn [bind].
    destruct (add_child _ _ _ _) as [[[db r] t']|e]; reflexivity.
  - assert (Nx : ~ In (nid x) (map m_pk t)) by (apply N; left; auto).
    unfold mp_add_sibling. rewrite reads_alone. destruct (get_by_pk t k) as [r|]; [|reflexivity]. cbn [bind].
    assert (Sb := sibling_alone (mkDB t []) r p x Nx). cbn [db_rows] in Sb. rewrite Sb. destruct (add_sibling _ _ _ _ _); reflexivity.
  - assert (M := move_alone (mkDB t []) n q p). cbn [db_rows] in M. rewrite M. destruct (get_by_pk t n); [|reflexivity]. cbn [bind].
    destruct (get_by_pk t q); [|reflexivity]. cbn [bind]. destruct (move _ _ _ _ _) as [[[db r] t']|e]; reflexivity.
  - apply delete_alone.
Qed.
End MP.
