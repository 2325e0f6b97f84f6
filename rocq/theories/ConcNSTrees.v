(** Calls of all kinds on nested sets that work in different trees (C68). *)
From Coq Require Import String List Arith Lia Bool ZArith Permutation Sorted.
From Verif Require Import Prelude Forest SpecFacts CommonModel Order History ConcModel ConcRun ConcAlone ConcLocal ConcCalls ConcTrees.
From Verif Require Import NSModel NSInv NSReads NSHist ConcNSModel ConcNSAll.
From Verif Require ConcNS SpecSane.
Import ListNotations.
Local Open Scope nat_scope.

(** ** Calls that do not make roots *)

Definition child_positions : list (option string) := [Some "first-child"; Some "last-child"; Some "sorted-child"]%string.

(** The call is about nodes of the forest, and adds or moves below existing roots. *)
Definition below_roots (F : forest node) (c : call) : Prop :=
  match c with
  | CAddRoot _ => False
  | CAddChild k _ => In k (ids F)
  | CAddSibling k _ _ => In k (ids F) /\ ~ In k (map nid (roots F))
  | CMove n q p => In n (ids F) /\ In q (ids F) /\ (In p child_positions \/ ~ In q (map nid (roots F)))
  | CDelete l => forall i, In i l -> In i (ids F)
  end.

Lemma below_names F c i : below_roots F c -> In i (names c) -> In i (ids F).
Proof. destruct c; cbn; try tauto; intuition (subst; auto). Qed.

Definition child_pos (P : pos) : bool := match P with FirstChild | LastChild | SortedChild => true | _ => false end.

Lemma child_positions_pos s p P : In p child_positions -> prepare_pos_move s p = Ok P -> child_pos P = true.
Proof. intros [<-|[<-|[<-|[]]]] E; destruct s; vm_compute in E; try discriminate; injection E as <-; auto. Qed.

Lemma parent_some a s f : parent_from (Some a) s f <> Some None.
Proof.
  revert a. induction f as [|b k IHk r IHr]; intros a; cbn; [discriminate|]. destruct (nid b =? s); [discriminate|].
  destruct (parent_from (Some (nid b)) s k) eqn:E; [rewrite <- E; apply IHk|apply IHr].
Qed.
Lemma parent_root s f : parent_from None s f = Some None -> In s (map nid (roots f)).
Proof.
  induction f as [|b k IHk r IHr]; cbn; [discriminate|]. destruct (Nat.eqb_spec (nid b) s); auto.
  destruct (parent_from (Some (nid b)) s k) eqn:E; [|auto]. intros H. exfalso. apply (parent_some (nid b) s k). congruence.
Qed.
Lemma parent_in s f : forall up, In s (ids f) -> parent_from up s f <> None.
Proof.
  induction f as [|b k IHk r IHr]; intros up; [intros []|]. rewrite ids_cons. cbn. destruct (Nat.eqb_spec (nid b) s); [discriminate|].
  rewrite in_app_iff. intros [H|[H|H]]; [congruence| |].
  - specialize (IHk (Some (nid b)) H). destruct (parent_from (Some (nid b)) s k); [discriminate|congruence].
  - destruct (parent_from (Some (nid b)) s k); [discriminate|auto].
Qed.
Lemma nonroot_parent s f : In s (ids f) -> ~ In s (map nid (roots f)) -> exists u, parent_of s f = Some (Some u).
Proof.
  intros H N. unfold parent_of. destruct (parent_from None s f) as [[u|]|] eqn:E; eauto.
  - exfalso. apply N. apply parent_root. auto.
  - exfalso. apply (parent_in s f None H E).
Qed.

(** Such a call makes no roots. *)
Lemma sp_roots o F F0 c G : wf_ids F -> incl (map nid (roots F)) (map nid (roots F0)) -> below_roots F0 c -> sp_exec o F c = Ok G ->
  incl (map nid (roots G)) (map nid (roots F)).
Proof.
  intros Wf I B E. assert (Eg := sp_exec_ok _ _ _ _ E). subst G. destruct c as [x|k x|k p x|n q p|l]; [destruct B| | | |]; cbn [sp_call].
  - unfold sp_add_child. cbn. rewrite SpecSane.roots_at_node. apply incl_refl.
  - destruct (prepare_pos_add _ p) as [P|e] eqn:EP; [|apply incl_refl]. unfold sp_exec in E.
    destruct (has k F) eqn:Hk; [|discriminate]. apply has_spec in Hk.
    destruct (nonroot_parent k F Hk) as [u Eu]; [intros H; apply B; auto|].
    unfold sp_add_sibling, resolve. rewrite Eu.
    destruct P; cbn; rewrite SpecSane.roots_at_node; apply incl_refl.
  - destruct (prepare_pos_move _ p) as [P|e] eqn:EP; [|apply incl_refl]. unfold sp_exec in E.
    destruct (has n F && has q F) eqn:Hk; [|discriminate]. apply andb_true_iff in Hk. destruct Hk as [Hn Hq]. apply has_spec in Hn, Hq.
    assert (R : forall u w t, incl (map nid (roots (at_kids (Some u) (ins w t) (remove n F)))) (map nid (roots F))).
    { intros u w t. cbn. rewrite SpecSane.roots_at_node, SpecSane.roots_remove by auto. intros i Hi. apply in_map_iff in Hi. destruct Hi as (y & <- & Hy).
      apply in_map. unfold drop in Hy. apply filter_In in Hy. tauto. }
    unfold sp_move. destruct (resolve q P _ F) as [up w] eqn:Er. destruct (place_is_self n w); [apply incl_refl|].
    assert (exists u, up = Some u) as [u ->]; [|apply R].
    destruct B as (_ & _ & [B|B]).
    + assert (C := child_positions_pos _ _ _ B EP). destruct P; try discriminate; injection Er as <- _; eauto.
    + destruct (nonroot_parent q F Hq) as [u Eu]; [intros H; apply B; auto|].
      unfold resolve in Er. rewrite Eu in Er. destruct P; injection Er as <- _; eauto.
  - intros i Hi. apply in_map_iff in Hi. destruct Hi as (y & <- & Hy). apply in_map. eapply remove_all_roots; eauto.
Qed.

(** ** What the calls read and write *)
Section Domain.
Variable o : ordering.
Variable D : nsrow -> bool.
Variable K : nat -> bool.
Hypothesis Dtr : forall r r', D r = true -> n_tree r' = n_tree r -> D r' = true.
Notation local_at := (local_at nsrow n_pk ns_same (fun _ => True) D K).
Notation home := (home nsrow n_pk (fun _ => True) D K).

(** What is read depends on rows of the domain only. *)
Definition here {A} (f : ns_table -> A) (t : ns_table) : Prop := forall t', home t' -> filter D t' = filter D t -> f t' = f t.

Lemma reads_at A (f : ns_table -> res A) c t : here f t -> (forall a, f t = Ok a -> local_at (filter D t) (c a)) ->
  local_at (filter D t) (reads f c).
Proof.
  intros S L t1 H1 E1. rewrite (S t1 H1 E1). split.
  - destruct (f t); cbn [or_raise ConcLocal.local_at]; auto.
  - intros t2 H2 E2. rewrite (S t2 H2 E2). auto.
Qed.

Lemma here_const A (a : A) t : here (fun _ => a) t.
Proof. intros t' _ _. auto. Qed.
Lemma here_bind A B (f : ns_table -> res A) (g : A -> ns_table -> res B) t : here f t -> (forall a, f t = Ok a -> here (g a) t) -> here (fun t => do a <- f t; g a t) t.
Proof. intros S1 S2 t' H' E. rewrite (S1 t' H' E). destruct (f t) as [a|]; auto. cbn [bind]. apply S2; auto. Qed.

Lemma here_filter (s : nsrow -> bool) t : home t -> (forall r, s r = true -> D r = true) -> here (filter s) t.
Proof.
  intros H M t' H' E. assert (M' : forall r, True -> s r = true -> mine nsrow n_pk D K r) by (intros r _ Er; left; auto).
  rewrite (sel_dom nsrow n_pk (fun _ => True) D K s t' H' M'), (sel_dom nsrow n_pk (fun _ => True) D K s t H M'), E. auto.
Qed.

Lemma here_pk k t : home t -> K k = true -> here (fun t => get_by_pk t k) t.
Proof.
  intros H Kk t' H' E. unfold get_by_pk.
  rewrite (key_dom nsrow n_pk (fun _ => True) D K k t' H' Kk), (key_dom nsrow n_pk (fun _ => True) D K k t H Kk), E. auto.
Qed.
Lemma pk_row k t r : home t -> K k = true -> get_by_pk t k = Ok r -> In r t /\ D r = true /\ n_pk r = k.
Proof.
  intros H Kk E. unfold get_by_pk in E. destruct (filter _ t) as [|a l] eqn:El; [discriminate|]. injection E as ->.
  destruct (key_row nsrow n_pk (fun _ => True) D K k t r H Kk) as (A & B & C & _); auto. rewrite El. auto.
Qed.

Lemma here_children nd t : home t -> D nd = true -> here (fun t => get_children t nd) t.
Proof.
  intros H Dn t' H' E. unfold get_children, get_descendants, get_tree. destruct (is_leaf nd); auto.
  f_equal. f_equal. f_equal. apply here_filter; auto. intros r Er. apply (Dtr nd); auto. rewrite !andb_true_iff in Er. lia.
Qed.
Lemma children_rows t nd r : In r (get_children t nd) -> In r t /\ n_tree r = n_tree nd /\ n_depth r = (n_depth nd + 1)%Z.
Proof.
  unfold get_children, get_descendants. intros E. apply filter_In in E. destruct E as [E Ed].
  destruct (is_leaf nd) eqn:El; [destruct E|]. apply filter_In in E. destruct E as [E _]. unfold get_tree in E. rewrite El in E.
  apply (Permutation_in _ (isort_perm _ _)) in E. apply filter_In in E. destruct E as [E Es]. rewrite !andb_true_iff in Es. split; auto. lia.
Qed.

Lemma here_parent nd t : home t -> D nd = true -> here (fun t => query_parent t nd) t.
Proof.
  intros H Dn t' H' E. unfold query_parent, get_ancestors. destruct (is_root nd); auto.
  replace (filter _ t') with (filter (fun r => (n_tree r =? n_tree nd)%Z && (n_lft r <? n_lft nd)%Z && (n_rgt nd <? n_rgt r)%Z) t); auto.
  symmetry. apply (here_filter (fun r => (n_tree r =? n_tree nd)%Z && (n_lft r <? n_lft nd)%Z && (n_rgt nd <? n_rgt r)%Z)); auto. intros r Er. apply (Dtr nd); auto. rewrite !andb_true_iff in Er. lia.
Qed.
Lemma parent_row t nd q : query_parent t nd = Ok q -> In q t /\ n_tree q = n_tree nd.
Proof.
  unfold query_parent. destruct (last_opt (get_ancestors t nd)) as [a|] eqn:E; [|discriminate]. intros X. injection X as ->.
  apply last_opt_Some in E. destruct E as [l' E]. assert (E' : In q (l' ++ [q])) by (apply in_or_app; right; left; auto).
  rewrite <- E in E'. unfold get_ancestors in E'. destruct (is_root nd); [destruct E'|].
  apply (Permutation_in _ (isort_perm _ _)) in E'. apply filter_In in E'. destruct E' as [A B]. rewrite !andb_true_iff in B. split; auto. lia.
Qed.

Lemma here_siblings nd t : home t -> D nd = true -> is_root nd = false -> here (fun t => get_siblings t nd) t.
Proof.
  intros H Dn R. unfold get_siblings. unfold is_root in R. rewrite R.
  apply (here_bind _ _ (fun t => query_parent t nd) (fun p t => Ok (get_children t p))); [apply here_parent; auto|].
  intros q E. destruct (parent_row _ _ _ E) as [_ Eq]. intros t' H' E'. rewrite (here_children q t H (Dtr nd q Dn Eq) t' H' E'). auto.
Qed.

Section Stored.
Variable t : ns_table.
Hypothesis Ht : home t.
Variable F : forest node.
Hypothesis St : stores t F.

Lemma deep_row r : In r t -> (1 <= n_depth r)%Z /\ (n_depth r <> 1%Z -> is_root r = false).
Proof.
  destruct St as (W & ts & (L & So & _) & P). intros Hr. apply (Permutation_in _ P) in Hr. split.
  - clear - Hr. revert ts Hr. induction F as [|a k _ f IH]; intros ts; [destruct ts; intros []|]. destruct ts as [|T ts]; [intros []|]. cbn [layout].
    rewrite in_app_iff. intros [H|H]; [apply number_bounds in H; lia|eauto].
  - intros N. apply not_true_iff_false. intros E.
    assert (H : In r (filter is_root (layout ts F))) by (apply filter_In; auto). rewrite heads_layout in H. apply heads_tree in H. tauto.
Qed.
Lemma child_nonroot nd r : In nd t -> In r (get_children t nd) -> In r t /\ n_tree r = n_tree nd /\ is_root r = false.
Proof.
  intros Hn Hr. apply children_rows in Hr. destruct Hr as (A & B & C). split; auto. split; auto. apply deep_row; auto.
  assert (X := proj1 (deep_row nd Hn)). lia.
Qed.
Lemma root_row r : In r t -> is_root r = true -> In (n_pk r) (map nid (roots F)).
Proof.
  destruct St as (W & ts & (L & So & _) & P). intros Hr E. apply (Permutation_in _ P) in Hr.
  assert (H : In r (filter is_root (layout ts F))) by (apply filter_In; auto). rewrite heads_layout in H.
  rewrite <- (heads_roots ts F L), map_map. apply in_map_iff. exists r. auto.
Qed.

(** A node below a root, in the domain. *)
Definition spot (r : nsrow) : Prop := In r t /\ D r = true /\ is_root r = false.

Lemma sibling_spot nd l r : spot nd -> get_siblings t nd = Ok l -> In r l -> spot r /\ n_tree r = n_tree nd.
Proof.
  intros (Hn & Dn & R) E Hr. unfold get_siblings in E. unfold is_root in R. rewrite R in E.
  destruct (query_parent t nd) as [q|] eqn:Eq; [|discriminate]. injection E as <-. destruct (parent_row _ _ _ Eq) as [Hq Tq].
  destruct (child_nonroot q r Hq Hr) as (A & B & C). split; [|congruence]. split; auto. split; auto. apply (Dtr nd); auto. congruence.
Qed.

Lemma here_sorted p tg data : spot (o_row tg) \/ p = LastChild -> here (read_sorted o p tg data) t.
Proof.
  intros S. unfold read_sorted. destruct p; try apply here_const. destruct S as [(A & B & C)|]; [|discriminate].
  apply (here_bind _ _ (fun t => get_siblings t (o_row tg)) (fun l _ => Ok (sorted_target o l data tg))); [apply here_siblings; auto|]. intros; apply here_const.
Qed.
Lemma sorted_spot p tg data p' tg' : spot (o_row tg) -> read_sorted o p tg data t = Ok (p', tg') -> spot (o_row tg') /\ n_tree (o_row tg') = n_tree (o_row tg).
Proof.
  intros S. unfold read_sorted. destruct p; try (intros E; injection E as <- <-; auto; fail).
  destruct (get_siblings t (o_row tg)) as [l|] eqn:El; [|discriminate]. cbn [bind]. unfold sorted_target.
  destruct (filter _ l) as [|s f] eqn:Ef; intros E; injection E as <- <-; cbn [fresh o_row]; auto.
  assert (Hs : In s (filter (fun r => sorted_after o data (n_data r)) l)) by (rewrite Ef; left; auto). apply filter_In in Hs. eapply sibling_spot; eauto; tauto.
Qed.

Lemma after_in nd l s : after_target nd l = Some s -> In s l.
Proof.
  induction l as [|r l IH]; cbn; [discriminate|]. destruct (n_pk r =? n_pk nd); auto. destruct l as [|a l]; [discriminate|]. cbn. intros E. injection E as ->. auto.
Qed.

Lemma here_normalize p tg : spot (o_row tg) \/ p = LastChild -> here (fun t => normalize t p tg) t.
Proof.
  intros S. unfold normalize. destruct p; try apply here_const; (destruct S as [(A & B & C)|]; [|discriminate]);
    (apply (here_bind _ _ (fun t => get_siblings t (o_row tg))); [apply here_siblings; auto|]; intros; apply here_const).
Qed.
Lemma normalize_spot p tg p' tg' : spot (o_row tg) -> normalize t p tg = Ok (p', tg') -> spot (o_row tg') /\ n_tree (o_row tg') = n_tree (o_row tg).
Proof.
  intros S. unfold normalize.
  assert (Hd : forall l s, get_siblings t (o_row tg) = Ok l -> hd_error l = Some s -> spot s /\ n_tree s = n_tree (o_row tg)).
  { intros l s El E. eapply sibling_spot; eauto. destruct l; [discriminate|]. injection E as ->. left. auto. }
  destruct p; try (intros E; injection E as <- <-; auto; fail); destruct (get_siblings t (o_row tg)) as [l|] eqn:El; try discriminate; cbn [bind].
  - destruct (hd_error l) as [s|] eqn:Es; [|discriminate]. intros E; injection E as <- <-. cbn. eauto.
  - destruct (same_pk (o_row tg) (hd_error l)); [|intros E; injection E as <- <-; auto].
    destruct (hd_error l) as [s|] eqn:Es; [|discriminate]. intros E; injection E as <- <-. cbn. eauto.
  - destruct (same_pk (o_row tg) (last_opt l)); [intros E; injection E as <- <-; auto|].
    set (tg1 := match after_target (o_row tg) l with Some s => fresh s | None => tg end).
    assert (S1 : spot (o_row tg1) /\ n_tree (o_row tg1) = n_tree (o_row tg)).
    { unfold tg1. destruct (after_target (o_row tg) l) as [s|] eqn:Ea; auto. cbn. eapply sibling_spot; eauto. eapply after_in; eauto. }
    destruct (same_pk (o_row tg1) (hd_error l)); [|intros E; injection E as <- <-; auto].
    destruct (hd_error l) as [s|] eqn:Es; [|discriminate]. intros E; injection E as <- <-. cbn. eauto.
Qed.

Lemma here_rgt tg : spot (o_row tg) -> here (fun t => parent_rgt t tg) t.
Proof.
  intros (A & B & C). unfold parent_rgt.
  apply (here_bind _ _ (fun t => get_parent t tg)); [|intros; apply here_const]. unfold get_parent. rewrite C. destruct (o_up tg); [apply here_const|].
  apply (here_bind _ _ (fun t => query_parent t (o_row tg))); [apply here_parent; auto|]. intros; apply here_const.
Qed.

Lemma here_last nd : D nd = true -> here (fun t => get_last_child t nd) t.
Proof. intros Dn t' H' E. unfold get_last_child. rewrite (here_children nd t Ht Dn t' H' E). auto. Qed.
Lemma last_spot nd c : In nd t -> D nd = true -> get_last_child t nd = Some c -> spot c /\ n_tree c = n_tree nd.
Proof.
  intros Hn Dn E. assert (Hc : In c (get_children t nd)).
  { apply last_opt_Some in E. destruct E as [l' E]. rewrite E. apply in_or_app. right. left. auto. }
  destruct (child_nonroot nd c Hn Hc) as (A & B & C). split; auto. split; auto. split; auto. apply (Dtr nd); auto.
Qed.

Lemma here_target nd target p : D (o_row target) = true -> here (fun t => move_target t nd target p) t.
Proof.
  intros Dt t' H' E. unfold move_target. rewrite (here_last (o_row target) Dt t' H' E). auto.
Qed.
Lemma here_noop nd tg p : spot (o_row tg) \/ p = LastChild -> here (fun t => move_is_noop t nd tg p) t.
Proof.
  intros S. unfold move_is_noop. destruct (_ =? _); [|apply here_const]. destruct p; try apply here_const; (destruct S as [(A & B & C)|]; [|discriminate]);
    unfold get_first_sibling, get_last_sibling;
    (apply (here_bind _ _ (fun t => do l <- get_siblings t (o_row tg); _)); [|intros; apply here_const];
     apply (here_bind _ _ (fun t => get_siblings t (o_row tg))); [apply here_siblings; auto|]; intros; apply here_const).
Qed.
End Stored.

(** *** Statements that write *)

Lemma save_local t x tree lft rgt depth a : K (nid x) = true -> D a = true -> n_tree a = tree -> local_at (filter D t) (ns_save x tree lft rgt depth).
Proof.
  intros Kx Da Ta. cbn. split; [apply (Dtr a); auto|]. split; auto. split; auto. split; auto.
  intros r' _ Sr. apply Nat.eqb_eq in Sr. cbn in Sr. right. rewrite <- Sr. auto.
Qed.

Lemma update_at sel f c t : home t ->
  (forall r, sel r = true -> n_pk (f r) = n_pk r /\ D r = true /\ (D r = true -> D (f r) = true)) ->
  (home (map (fun r => if sel r then f r else r) t) -> local_at (filter D (map (fun r => if sel r then f r else r) t)) c) -> local_at (filter D t) (Update sel f c).
Proof.
  intros H L C.
  assert (L' : forall r, sel r = true -> n_pk (f r) = n_pk r /\ (True -> mine nsrow n_pk D K r /\ True /\ (D r = true -> D (f r) = true))).
  { intros r Er. destruct (L r Er) as (A & B & E). split; auto. intros _. split; [left; auto|]. auto. }
  destruct (map_home nsrow n_pk (fun _ => True) D K sel f t H L') as [A B]. split; auto. rewrite <- B. auto.
Qed.

Lemma alter_at tree start off c t a : home t -> D a = true -> n_tree a = tree ->
  (forall t', home t' -> local_at (filter D t') c) -> local_at (filter D t) (ns_alter tree start off c).
Proof.
  intros H Da Ta C. apply update_at; auto. intros r Er. unfold alter_sel in Er. split; auto.
  assert (Dr : D r = true) by (apply (Dtr a); auto; lia). split; auto. intros _. apply (Dtr r); auto.
Qed.

Lemma jump_at n q depth down tree np a t : home t -> K n = true -> K q = true -> D a = true -> n_tree a = tree ->
  local_at (filter D t) (ns_jump n q depth down tree np).
Proof.
  intros H Kn Kq Da Ta. apply reads_at; [apply here_pk; auto|]. intros nd En. destruct (pk_row n t nd H Kn En) as (_ & Dn & _).
  apply update_at; auto.
  - intros r Er. unfold jump_sel in Er. split; auto. assert (Dr : D r = true) by (apply (Dtr nd); auto; lia). split; auto. intros _. apply (Dtr a); auto.
  - intros H'. apply (alter_at _ _ _ _ _ nd); auto. intros t2 H2. apply reads_at; [apply here_pk; auto|]. intros _ _. apply reads_at; [apply here_pk; auto|]. intros _ _. exact I.
Qed.

Lemma hole_at t gap parent tg p c : home t -> D (o_row tg) = true -> is_root (o_row tg) = false \/ p = LastChild ->
  (forall t' np, home t' -> local_at (filter D t') (c (n_tree (o_row tg)) np)) -> local_at (filter D t) (ns_hole gap parent tg p c).
Proof.
  intros H Dt Sp C. unfold ns_hole. cbv zeta.
  assert (A : forall np, local_at (filter D t) (ns_alter (n_tree (o_row tg)) np gap (c (n_tree (o_row tg)) np))).
  { intros np. apply (alter_at _ _ _ _ _ (o_row tg)); auto. }
  destruct p; try (destruct parent; cbn [else_raise]; auto; exact I); (destruct Sp as [->|]; [|discriminate]); auto; try exact I.
  apply reads_at; auto. intros t' H' E. unfold parent_rgt, get_parent. destruct (is_root (o_row tg)); auto. destruct (o_up tg); auto.
  rewrite (here_parent (o_row tg) t H Dt t' H' E). auto.
Qed.

Section Calls.
Variable t : ns_table.
Hypothesis Ht : home t.
Variable F : forest node.
Hypothesis St : stores t F.

Lemma sibling_at target p x : spot t (o_row target) -> K (nid x) = true -> local_at (filter D t) (ns_sibling o target p x).
Proof.
  intros S Kx. unfold ns_sibling. destruct (prepare_pos_add (is_sorted o) p) as [P|e]; [|exact I]. cbn [or_raise].
  assert (R : is_root (o_row target) = false) by apply S. rewrite R. cbv zeta.
  apply reads_at; [apply here_sorted; auto|]. intros [P1 tg1] E1. destruct (sorted_spot t F St P target _ _ _ S E1) as [S1 T1].
  apply reads_at; [apply here_normalize; auto|]. intros [P2 tg2] E2. destruct (normalize_spot t F St P1 tg1 _ _ S1 E2) as [S2 T2].
  apply reads_at.
  - destruct P2; try apply here_const. apply here_rgt; auto.
  - intros np _. destruct S2 as (A & B & C). apply (alter_at _ _ _ _ _ (o_row tg2)); auto. intros t' H'. apply (save_local t' x _ _ _ _ (o_row tg2)); auto. congruence.
Qed.

Lemma add_child_at k x : K k = true -> K (nid x) = true -> local_at (filter D t) (ns_add_child_by o k x).
Proof.
  intros Kk Kx. unfold ns_add_child_by. split; auto. rewrite <- (key_dom nsrow n_pk (fun _ => True) D K k t Ht Kk).
  destruct (hd_error _) as [nd|] eqn:E; [|exact I]. cbn [else_raise].
  destruct (key_row nsrow n_pk (fun _ => True) D K k t nd Ht Kk E) as (Hn & Dn & _).
  destruct (is_leaf nd).
  - apply (alter_at _ _ _ _ _ nd); auto. intros t' H'. apply (save_local t' x _ _ _ _ nd); auto.
  - apply reads_at; [intros t' H' E'; rewrite (here_last t Ht nd Dn t' H' E'); auto|]. intros last El. injection El as El.
    destruct last as [last|]; [|exact I]. cbn [else_raise]. apply sibling_at; auto. cbn. apply (last_spot t F St nd); auto.
Qed.

Lemma add_sibling_at k p x : K k = true -> K (nid x) = true -> ~ In k (map nid (roots F)) -> local_at (filter D t) (ns_add_sibling o k p x).
Proof.
  intros Kk Kx N. apply reads_at; [apply here_pk; auto|]. intros r Er. destruct (pk_row k t r Ht Kk Er) as (Hr & Dr & Ek).
  apply sibling_at; auto. cbn. split; auto. split; auto. apply not_true_iff_false. intros R. apply N. rewrite <- Ek. apply (root_row t F St); auto.
Qed.

Lemma move_at n q p : K n = true -> K q = true -> In p child_positions \/ ~ In q (map nid (roots F)) ->
  local_at (filter D t) (ns_move o n q p).
Proof.
  intros Kn Kq B. unfold ns_move. apply reads_at; [apply here_pk; auto|]. intros nd En. destruct (pk_row n t nd Ht Kn En) as (Hn & Dn & Pn).
  apply reads_at; [apply here_pk; auto|]. intros target Eq. destruct (pk_row q t target Ht Kq Eq) as (Hq & Dq & Pq).
  destruct (prepare_pos_move (is_sorted o) p) as [P|e] eqn:EP; [|exact I]. cbn [or_raise].
  apply reads_at; [apply here_target; auto|]. intros [[parent tg] P1] E1.
  assert (S1 : D (o_row tg) = true /\ (spot t (o_row tg) \/ P1 = LastChild)).
  { assert (Root : child_pos P = false -> is_root target = false).
    { intros C. apply not_true_iff_false. intros R. destruct B as [B|B].
      - rewrite (child_positions_pos _ _ _ B EP) in C. discriminate.
      - apply B. rewrite <- Pq. apply (root_row t F St); auto. }
    unfold move_target in E1. cbn [fresh o_row] in E1.
    assert (Ch : forall P', (if n_pk nd =? n_pk target then Err InvalidMoveToDescendant
        else if is_leaf target then Ok (Some target, fresh target, LastChild)
        else match get_last_child t target with None => Err AttributeError | Some c => Ok (None, fresh c, P') end) = Ok (parent, tg, P1) ->
      D (o_row tg) = true /\ (spot t (o_row tg) \/ P1 = LastChild)).
    { intros P'. destruct (_ =? _); [discriminate|]. destruct (is_leaf target); [intros X; injection X as <- <- <-; auto|].
      destruct (get_last_child t target) as [c|] eqn:Ec; [|discriminate]. intros X; injection X as <- <- <-. cbn.
      destruct (last_spot t F St target c Hq Dq Ec) as [S _]. split; auto. apply S. }
    destruct P; try (eapply Ch; exact E1); injection E1 as <- <- <-; cbn; split; auto; left; split; auto. }
  destruct S1 as [D1 S1]. destruct (is_descendant_of (o_row tg) nd); [exact I|].
  apply reads_at; [apply here_noop; auto|]. intros [|] _; [exact I|]. cbv zeta.
  set (tg0 := noop_cache nd tg). assert (R0 : o_row tg0 = o_row tg) by (unfold tg0, noop_cache; destruct (_ =? _); auto).
  apply reads_at; [apply here_sorted; auto; rewrite R0; auto|]. intros [P2 tg2] E2.
  assert (S2 : D (o_row tg2) = true /\ (spot t (o_row tg2) \/ P2 = LastChild)).
  { destruct S1 as [S1| ->].
    - rewrite <- R0 in S1. destruct (sorted_spot t F St P1 tg0 _ _ _ S1 E2) as [S2 _]. split; auto. apply S2.
    - cbn in E2. injection E2 as <- <-. rewrite R0. auto. }
  destruct S2 as [D2 S2]. apply reads_at; [apply here_normalize; auto|]. intros [P3 tg3] E3.
  assert (S3 : D (o_row tg3) = true /\ (is_root (o_row tg3) = false \/ P3 = LastChild)).
  { destruct S2 as [S2| ->].
    - destruct (normalize_spot t F St P2 tg2 _ _ S2 E3) as [S3 _]. split; [apply S3|]. left. apply S3.
    - cbn in E3. injection E3 as <- <-. auto. }
  destruct S3 as [D3 S3]. apply hole_at; auto. intros t' np H'. apply (jump_at _ _ _ _ _ _ (o_row tg3)); auto.
Qed.
End Calls.
End Domain.

(** ** The calls in different trees *)
Section Trees.
Variable o : ordering.

Lemma exec_result t F F0 c t' : stores t F -> incl (map nid (roots F)) (map nid (roots F0)) -> all_ready t c -> below_roots F0 c ->
  ns_exec_rows o t c = Ok t' -> stores t' (sp_call o F c) /\ incl (map nid (roots (sp_call o F c))) (map nid (roots F0)).
Proof.
  intros St Ro N B E. unfold ns_exec_rows in E.
  assert (Fr : fresh_call F c) by (intros i Hi H; apply (N i Hi); apply (ConcNS.ids_iff t F i St); auto).
  assert (A := ns_call_ok o (mkNSDB t []) F c St Fr). unfold agree, ns_rel in A.
  destruct (ns_exec o (mkNSDB t []) c) as [db|]; [|discriminate]. injection E as <-.
  destruct (sp_exec o F c) as [G|] eqn:Eg; [|destruct A]. assert (Eg' := sp_exec_ok _ _ _ _ Eg). subst G. split; auto.
  apply (incl_tran (m := map nid (roots F))); auto. eapply sp_roots; eauto. apply St.
Qed.

Lemma exec_stays_ready t F c d t' : stores t F -> all_ready t c -> all_ready t d -> new_apart c d -> ns_exec_rows o t c = Ok t' -> all_ready t' d.
Proof.
  intros St Rc N A E i Hi H. unfold ns_exec_rows in E.
  assert (Fr : fresh_call F c) by (intros j Hj X; apply (Rc j Hj); apply (ConcNS.ids_iff t F j St); auto).
  assert (X := ns_call_ok o (mkNSDB t []) F c St Fr). unfold agree, ns_rel in X.
  destruct (ns_exec o (mkNSDB t []) c) as [db|]; [|discriminate]. injection E as <-.
  destruct (sp_exec o F c) as [G|] eqn:Eg; [|destruct X]. assert (Eg' := sp_exec_ok _ _ _ _ Eg). subst G.
  apply (ConcNS.ids_iff _ _ i X) in H. apply sp_call_ids in H. destruct H as [H|H].
  - apply (N i Hi). apply (ConcNS.ids_iff t F i St). auto.
  - apply (A i H Hi).
Qed.

Theorem ns_all_different_trees t F calls schedule : stores t F -> (forall c, In c calls -> below_roots F c) ->
  NoDup (flat_map new_ids calls) -> (forall i, In i (flat_map new_ids calls) -> ~ In i (ids F)) ->
  (forall i j c d, i <> j -> nth_error calls i = Some c -> nth_error calls j = Some d -> trees_apart F c d) ->
  let W := play n_pk ns_same (all_begin t (map (ns_tx o) calls)) schedule in
  one_by_one (ns_exec_rows o) calls t (map fst (w_log W)) = (w_rows W, w_log W) /\ NoDup (map fst (w_log W)) /\
  (stores (w_rows W) (fold_left (sp_call o) (succeeded calls (w_log W)) F) /\
   incl (map nid (roots (fold_left (sp_call o) (succeeded calls (w_log W)) F))) (map nid (roots F))) /\
  (finished W = true -> Permutation (map fst (w_log W)) (seq 0 (length calls))) /\
  exists schedule', finished (play n_pk ns_same W schedule') = true.
Proof.
  intros St B0 New0 Fr0 Ap0.
  assert (In1 : forall c i, In c calls -> In i (names c) -> In i (ids F)) by (intros c i Hc; apply below_names; auto).
  assert (Ids : forall i, In i (ids F) <-> In i (map n_pk t)) by (intros i; apply ConcNS.ids_iff; auto).
  apply (trees_serial nsrow n_pk ns_same ns_same_pk (fun _ => True) Z n_tree Z.eqb Z.eqb_eq t F calls) with
    (rel := fun t1 F1 => stores t1 F1 /\ incl (map nid (roots F1)) (map nid (roots F))) (ready := fun t c => all_ready t c /\ below_roots F c); auto.
  - apply ConcNS.nodup. exists F. auto.
  - intros r q. apply ns_trees. auto.
  - intros t1 c Hc [F1 [S1 R1]] _ H1. assert (Kn := fun i => keys_name nsrow n_pk Z n_tree Z.eqb Z.eqb_eq t F calls Ids In1 c i Hc).
    assert (Ne := keys_new nsrow n_pk Z n_tree Z.eqb t c).
    assert (Dt := dom_tr nsrow n_pk Z n_tree Z.eqb Z.eqb_eq t c).
    assert (B := B0 c Hc). destruct c as [x|k x|k p x|n q p|l]; [destruct B| | | |]; cbn [ns_tx].
    + apply (add_child_at _ _ _ Dt t1 H1 F1 S1); [apply Kn; left; auto|apply Ne; left; auto].
    + apply (add_sibling_at _ _ _ Dt t1 H1 F1 S1); [apply Kn; left; auto|apply Ne; left; auto|]. intros X. apply B. auto.
    + apply (move_at _ _ _ Dt t1 H1 F1 S1); [apply Kn; left; auto|apply Kn; right; left; auto|]. destruct B as (_ & _ & [B|B]); auto.
    + apply local_local_at; auto; [exact ns_same_pk|]. apply ns_delete_local; auto.
  - intros t1 c _ [R _]. apply all_same_call. auto.
  - intros t1 F1 c t2 [S1 R1] [N1 B1] E. eapply exec_result; eauto.
  - intros t1 c d t2 [F1 [S1 R1]] [N1 B1] [N2 B2] A E. split; auto. apply (exec_stays_ready t1 F1 c d t2); auto.
  - split; auto. apply incl_refl.
  - intros c Hc. split; auto. intros i Hi H. apply (Fr0 i); [apply in_flat_map; eauto|]. apply Ids. auto.
Qed.

(** ** One call after another *)

Lemma exec_stores t F c t' : stores t F -> all_ready t c -> ns_exec_rows o t c = Ok t' -> stores t' (sp_call o F c).
Proof.
  intros St N E. unfold ns_exec_rows in E.
  assert (Fr : fresh_call F c) by (intros i Hi H; apply (N i Hi); apply (ConcNS.ids_iff t F i St); auto).
  assert (A := ns_call_ok o (mkNSDB t []) F c St Fr). unfold agree, ns_rel in A.
  destruct (ns_exec o (mkNSDB t []) c) as [db|]; [|discriminate]. injection E as <-.
  destruct (sp_exec o F c) as [G|] eqn:Eg; [|destruct A]. assert (Eg' := sp_exec_ok _ _ _ _ Eg). subst G. auto.
Qed.

Notation keyed := (keyed nsrow n_pk).
Lemma keyed_reads A (f : ns_table -> res A) c : (forall a, keyed (c a)) -> keyed (reads f c).
Proof. intros H t. destruct (f t); cbn; auto. Qed.
Lemma keyed_alter tree start off c : keyed c -> keyed (ns_alter tree start off c).
Proof. intros H. cbn. auto. Qed.
Lemma keyed_right tree c : keyed c -> keyed (ns_right tree c).
Proof. intros H. cbn. auto. Qed.
Lemma keyed_sibling target p x : keyed (ns_sibling o target p x).
Proof.
  unfold ns_sibling. destruct (prepare_pos_add _ p) as [P|]; [|exact I]. cbn [or_raise]. destruct (is_root _).
  - apply keyed_reads. intros [P1 tg]. apply keyed_reads. intros last.
    destruct (match P1 with Right => _ | LastSibling => _ | _ => _ end); [destruct last; exact I|].
    destruct P1; try exact I; apply keyed_right; exact I.
  - cbv zeta. apply keyed_reads. intros [P1 tg]. apply keyed_reads. intros [P2 tg2]. apply keyed_reads. intros np. apply keyed_alter. exact I.
Qed.
Lemma keyed_jump n q depth down tree np : keyed (ns_jump n q depth down tree np).
Proof.
  apply keyed_reads. intros nd. cbn [ConcAlone.keyed]. split; auto. apply keyed_alter. apply keyed_reads. intros _. apply keyed_reads. intros _. exact I.
Qed.
Lemma all_keyed c : keyed (ns_tx o c).
Proof.
  destruct c as [x|k x|k p x|n q p|l]; cbn [ns_tx].
  - apply keyed_reads. intros [lr|]; [|exact I]. destruct (is_sorted o); [apply keyed_sibling|exact I].
  - intros [nd|]; [|exact I]. cbn [else_raise]. destruct (is_leaf nd); [apply keyed_alter; exact I|]. apply keyed_reads. intros [last|]; [apply keyed_sibling|exact I].
  - apply keyed_reads. intros r. apply keyed_sibling.
  - apply keyed_reads. intros nd. apply keyed_reads. intros target. destruct (prepare_pos_move _ p) as [P|]; [|exact I]. cbn [or_raise].
    apply keyed_reads. intros [[parent tg] P1]. destruct (is_descendant_of _ _); [exact I|]. apply keyed_reads. intros [|]; [exact I|]. cbv zeta.
    apply keyed_reads. intros [P2 tg2]. apply keyed_reads. intros [P3 tg3]. unfold ns_hole. cbv zeta.
    destruct P3; try (destruct parent); cbn [else_raise]; destruct (is_root (o_row tg3));
      repeat match goal with
      | |- ConcAlone.keyed _ _ (Raise _) => exact I
      | |- ConcAlone.keyed _ _ (ns_jump _ _ _ _ _ _) => apply keyed_jump
      | |- ConcAlone.keyed _ _ (ns_alter _ _ _ _) => apply keyed_alter
      | |- ConcAlone.keyed _ _ (ns_right _ _) => apply keyed_right
      | |- ConcAlone.keyed _ _ (reads _ _) => apply keyed_reads; intros ?
      end.
  - apply (ns_keyed (CDelete l)).
Qed.

Theorem ns_all_serial t F calls order : stores t F ->
  NoDup (flat_map new_ids calls) -> (forall i, In i (flat_map new_ids calls) -> ~ In i (ids F)) ->
  NoDup order -> (forall i, In i order -> i < length calls) ->
  exists schedule, let W := play n_pk ns_same (all_begin t (map (ns_tx o) calls)) schedule in
    (w_rows W, w_log W) = one_by_one (ns_exec_rows o) calls t order /\
    forall i, i < length calls -> nth_error (w_txs W) i = Some None <-> In i order.
Proof.
  intros St N Fr No Hl.
  assert (Eo : one_by_one (ConcAlone.alone nsrow n_pk ns_same) (map (ns_tx o) calls) t order = one_by_one (ns_exec_rows o) calls t order).
  { apply (one_by_one_same nsrow call n_pk ns_same (ns_exec_rows o) (ns_tx o) ns_ok all_ready new_apart); auto.
    - intros t1 c _ R. apply all_same_call. auto.
    - intros t1 c t2 [F1 S1] R E. exists (sp_call o F1 c). eapply exec_stores; eauto.
    - intros t1 c d t2 [F1 S1] Rc Rd A E. apply (exec_stays_ready t1 F1 c d t2); auto.
    - apply calls_apart. auto.
    - exists F. auto.
    - intros i c Hi Hc k Hk H. apply nth_error_In in Hc. apply (Fr k); [apply in_flat_map; eauto|]. apply (ConcNS.ids_iff t F k St). auto. }
  rewrite <- Eo. destruct (serial_begin nsrow n_pk ns_same ns_same_pk t (map (ns_tx o) calls) order) as (s & Hs); auto.
  - apply Forall_forall. intros p Hp. apply in_map_iff in Hp. destruct Hp as (c & <- & _). apply all_keyed.
  - apply ConcNS.nodup. exists F. auto.
  - rewrite map_length. auto.
  - exists s. rewrite map_length in Hs. exact Hs.
Qed.
End Trees.
