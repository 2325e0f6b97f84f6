(** Theorems about concurrent calls (C41). *)
From Coq Require Import String List Arith Lia Bool ZArith Permutation.
From Verif Require Import Prelude Forest CommonModel Order History Fixture ConcModel ConcRun.
From Verif Require MPModel MPInv MPHist MPFixModel MPCheck PropsMP ConcMP ConcNS ConcAL NSModel NSHist NSInv NSCheck PropsNS
  ALModel ALInv ALReads ALHist PropsAL LTModel LTInv LTHist PropsLT ConcLT.
Import ListNotations.
Local Open Scope list_scope.
Local Open Scope nat_scope.

(** The calls of two transactions. *)
Lemma orders_2 (order : list nat) : Permutation order (seq 0 2) -> order = [0; 1] \/ order = [1; 0].
Proof.
  intros P. assert (L := Permutation_length P). destruct order as [|a [|b [|? ?]]]; cbn in L; try lia.
  assert (Ha : In a [0; 1]) by (apply (Permutation_in _ P); left; auto).
  assert (Hb : In b [0; 1]) by (apply (Permutation_in _ P); right; left; auto).
  assert (N : NoDup [a; b]) by (apply (Permutation_NoDup (Permutation_sym P)); apply (seq_NoDup 2 0)).
  apply NoDup_cons_iff in N. destruct N as [N _]. cbn in *.
  destruct Ha as [<-|[<-|[]]], Hb as [<-|[<-|[]]]; auto; exfalso; auto.
Qed.

(** ** Materialized paths *)
Section MP.
Import MPModel MPInv MPHist MPFixModel PropsMP.

(** add_child calls [calls] (parent, new node), each in a transaction of its own, on a tree
    without node_order_by.  At every moment of every schedule, the committed rows and what
    the finished calls raised are those of the finished calls made one at a time in the
    order in which they finished; nothing is ever stuck. *)
Theorem C41_mp_partial cfg t F (calls : list (nat * node)) schedule :
  2 <= radix cfg -> 1 <= steplen cfg -> order_by cfg = [] -> stores cfg t F ->
  NoDup (map (fun c => nid (snd c)) calls) -> (forall c, In c calls -> ~ In (nid (snd c)) (ids F)) ->
  let exec t c := do db <- mp_exec cfg (mkDB t []) (CAddChild (fst c) (snd c)); Ok (db_rows db) in
  let W := play m_pk mp_same (all_begin t (map (fun c => mp_add_child cfg (fst c) (snd c)) calls)) schedule in
  one_by_one exec calls t (map fst (w_log W)) = (w_rows W, w_log W) /\ NoDup (map fst (w_log W)) /\
  stores cfg (w_rows W) (fold_left (fun F c => sp_add_child None (fst c) (snd c) F) (succeeded calls (w_log W)) F) /\
  (finished W = true -> Permutation (map fst (w_log W)) (seq 0 (length calls))) /\
  exists schedule', finished (play m_pk mp_same W schedule') = true.
Proof. intros H1 H2 H3 H4 H5 H6. exact (ConcMP.mp_concurrent cfg H1 H2 H3 t F calls schedule H4 H5 H6). Qed.

(** Three calls: 1 waits for 0 (the same parent), 2 does not. *)
Example C41_mp_example :
  let calls := [(1, nd 21 0); (1, nd 22 0); (9, nd 23 0)] in
  let W l := play m_pk mp_same (all_begin (db_rows ex_db) (map (fun c => mp_add_child c10 (fst c) (snd c)) calls)) l in
  NoDup (map (fun c => nid (snd c)) calls) /\
  w_txs (W [0; 1; 1; 1]) = w_txs (W [0]) /\
  let W' := W [1; 0; 2; 1; 1; 0; 2; 1; 1; 2; 1; 0; 2; 0; 2; 2; 0; 0; 0; 0; 0] in
  finished W' = true /\ w_log W' = [(1, None); (2, None); (0, None)] /\
  map (fun r => (m_pk r, m_path r, m_nc r)) (get_tree (w_rows W') None None) =
  [(7, [0;1], 0); (1, [0;2], 4); (3, [0;2;0;1], 0); (5, [0;2;0;2], 0); (22, [0;2;0;3], 0); (21, [0;2;0;4], 0);
   (2, [0;3], 2); (4, [0;3;0;1], 1); (6, [0;3;0;1;0;1], 0); (9, [0;3;0;3], 2); (10, [0;3;0;3;0;1], 0); (23, [0;3;0;3;0;2], 0)].
Proof. split; [repeat constructor; cbn; intuition lia|]. split; [vm_compute; reflexivity|]. vm_compute. auto. Qed.

(** The transaction alone is the call. *)
Example C41_mp_alone_example :
  let W c x := play m_pk mp_same (all_begin (db_rows so_db) [mp_add_child s10 c x]) (repeat 0 12) in
  forallb (fun cx => let '(c, x) := cx in
    match mp_exec s10 so_db (CAddChild c x) with
    | Ok db => forallb (fun r => existsb (fun r' => mp_same r r' && (m_nc r =? m_nc r') && (m_depth r =? m_depth r')) (db_rows db)) (w_rows (W c x))
               && (length (w_rows (W c x)) =? length (db_rows db))
    | Err _ => false
    end) [(6, nd 20 7); (6, nd 20 12); (6, nd 20 1); (1, nd 20 6); (1, nd 20 9); (2, nd 20 0); (3, nd 20 3)] = true.
Proof. vm_compute. reflexivity. Qed.

(** With node_order_by two calls that both succeed can leave a table that stores no tree: an
    add_child shifts a sibling while a child is added below it by the other call. *)
Theorem C41_mp_sorted_refuted : exists cfg t F calls schedule,
  2 <= radix cfg /\ 1 <= steplen cfg /\ stores cfg t F /\ ordered (order_by cfg) F /\
  NoDup (map (fun c => nid (snd c)) calls) /\ (forall c, In c calls -> ~ In (nid (snd c)) (ids F)) /\
  let W := play m_pk mp_same (all_begin t (map (fun c => mp_add_child cfg (fst c) (snd c)) calls)) schedule in
  finished W = true /\ w_log W = [(1, None); (0, None)] /\ find_problems cfg (w_rows W) None <> [] /\
  ~ exists F', stores cfg (w_rows W) F'.
Proof.
  exists s10, (db_rows so_db), so_F, [(6, nd 20 7); (3, nd 21 1)], [1; 0; 0; 0; 0; 0; 1; 1; 1; 1; 0; 0; 0; 0; 0; 0; 0].
  split; [apply le_b; reflexivity|]. split; [apply le_b; reflexivity|]. split; [apply so_stores|]. split; [apply so_stores|].
  split; [repeat constructor; cbn; intuition lia|].
  split; [intros c [<-|[<-|[]]]; vm_compute; intuition discriminate|].
  cbv zeta.
  match goal with |- context [play ?a ?b ?c ?d] => set (W := play a b c d) end.
  assert (E : find_problems s10 (w_rows W) None = [(20, WrongNumchild); (3, WrongNumchild)]) by (vm_compute; reflexivity).
  split; [vm_compute; reflexivity|]. split; [vm_compute; reflexivity|]. split; [rewrite E; discriminate|].
  intros [F' St]. apply (MPCheck.find_problems_clean s10 (le_b 2 10 eq_refl) (le_b 1 2 eq_refl) _ F' None) in St. rewrite E in St. discriminate.
Qed.

(** add_root takes no lock: of two calls that succeed in any order one after the other, one
    can fail. *)
Theorem C41_mp_add_root_refuted : exists cfg t F (xs : list node) schedule,
  stores cfg t F /\ order_by cfg = [] /\
  (forall order, Permutation order (seq 0 (length xs)) ->
     map snd (snd (one_by_one (fun t x => do db <- mp_exec cfg (mkDB t []) (CAddRoot x); Ok (db_rows db)) xs t order)) = [None; None]) /\
  let W := play m_pk mp_same (all_begin t (map (mp_add_root cfg) xs)) schedule in
  finished W = true /\ w_log W = [(0, None); (1, Some IntegrityError)].
Proof.
  exists c10, (db_rows ex_db), ex_F, [nd 21 0; nd 22 0], [0; 1; 0; 0; 1; 1].
  split; [apply ex_stores|]. split; auto. split; [|vm_compute; auto].
  intros order P. apply orders_2 in P. destruct P as [->| ->]; vm_compute; reflexivity.
Qed.

(** delete reads the nodes and takes no lock: a child added to a node between the SELECT and
    the DELETE stays, without a parent. *)
Theorem C41_mp_delete_refuted : exists cfg t F k x schedule,
  2 <= radix cfg /\ 1 <= steplen cfg /\ order_by cfg = [] /\ stores cfg t F /\ In k (ids F) /\ ~ In (nid x) (ids F) /\
  let W := play m_pk mp_same (all_begin t [mp_delete cfg [k]; mp_add_child cfg k x]) schedule in
  finished W = true /\ w_log W = [(1, None); (0, None)] /\
  In (nid x, Orphan) (find_problems cfg (w_rows W) None) /\ ~ exists F', stores cfg (w_rows W) F'.
Proof.
  exists c10, (db_rows ex_db), ex_F, 3, (nd 20 7), [0; 1; 1; 1; 1; 1; 0; 0; 0; 0; 0].
  split; [apply le_b; reflexivity|]. split; [apply le_b; reflexivity|]. split; auto. split; [apply ex_stores|].
  split; [vm_compute; auto 8|]. split; [vm_compute; intuition discriminate|]. cbv zeta.
  match goal with |- context [play ?a ?b ?c ?d] => set (W := play a b c d) end.
  assert (E : find_problems c10 (w_rows W) None = [(20, Orphan)]) by (vm_compute; reflexivity).
  split; [vm_compute; reflexivity|]. split; [vm_compute; reflexivity|]. split; [rewrite E; left; auto|].
  intros [F' St]. apply (MPCheck.find_problems_clean c10 (le_b 2 10 eq_refl) (le_b 1 2 eq_refl) _ F' None) in St. rewrite E in St. discriminate.
Qed.

(** The transaction alone is the call. *)
Example C41_mp_delete_example :
  forallb (fun l => let W := play m_pk mp_same (all_begin (db_rows ex_db) [mp_delete c10 l]) (repeat 0 12) in
    match mp_exec c10 ex_db (CDelete l) with
    | Ok db => finished W && forallb (fun r => existsb (fun r' => mp_same r r' && (m_nc r =? m_nc r') && (m_depth r =? m_depth r')) (db_rows db)) (w_rows W)
               && (length (w_rows W) =? length (db_rows db))
    | Err _ => false
    end) [[3]; [1]; [4; 6; 7]; [9; 3; 5]; [2; 10; 99]] = true.
Proof. vm_compute. reflexivity. Qed.
End MP.

(** ** Nested sets *)
Section NS.
Import NSModel NSHist NSInv PropsNS.

(** The lock on the parent does not help: the rows an UPDATE has to shift are found before
    it waits, and a row inserted meanwhile is not shifted.  Two add_child calls in one tree
    that both succeed can leave a table that stores no tree. *)
Theorem C41_ns_refuted : exists t F calls schedule,
  stores t F /\ NoDup (map (fun c => nid (snd c)) calls) /\ (forall c, In c calls -> ~ In (nid (snd c)) (ids F)) /\
  let W := play n_pk ns_same (all_begin t (map (fun c => ns_add_child (fst c) (snd c)) calls)) schedule in
  finished W = true /\ w_log W = [(0, None); (1, None)] /\ find_problems (w_rows W) None <> ([], [], [], []) /\
  ~ exists F', stores (w_rows W) F'.
Proof.
  exists (ns_rows ex_db), ex_F, [(5, nd 20 7); (3, nd 21 1)], [0; 0; 0; 1; 1; 0; 0; 1; 1; 1].
  split; [apply ex_stores|]. split; [repeat constructor; cbn; intuition lia|].
  split; [intros c [<-|[<-|[]]]; vm_compute; intuition discriminate|].
  split; [vm_compute; reflexivity|]. split; [vm_compute; reflexivity|].
  split; [vm_compute; discriminate|].
  intros [F' St]. apply C21_no_false_alarm in St. destruct St as [St _]. revert St. vm_compute. discriminate.
Qed.

(** One transaction after the other: the calls of ns_tree.py. *)
Example C41_ns_alone_example :
  forallb (fun cx => let '(c, x) := cx in
    let W := play n_pk ns_same (all_begin (ns_rows ex_db) [ns_add_child c x]) (repeat 0 6) in
    match ns_exec [] ex_db (CAddChild c x) with
    | Ok db => forallb (fun r => existsb (fun r' => (n_pk r =? n_pk r') && (n_tree r =? n_tree r')%Z && (n_lft r =? n_lft r')%Z
                   && (n_rgt r =? n_rgt r')%Z && (n_depth r =? n_depth r')%Z) (ns_rows db)) (w_rows W)
               && (length (w_rows W) =? length (ns_rows db))
    | Err _ => false
    end) [(7, nd 20 0); (1, nd 20 0); (3, nd 20 0); (5, nd 20 0); (2, nd 20 0); (4, nd 20 0); (9, nd 20 0)] = true.
Proof. vm_compute. reflexivity. Qed.

(** Without node_order_by, add_child calls of which any two have the same parent or parents
    in different trees: as [C41_mp_partial], and none fails. *)
Theorem C41_ns_trees_partial t F (calls : list (nat * node)) schedule : stores t F ->
  NoDup (map (fun c => nid (snd c)) calls) -> (forall c, In c calls -> In (fst c) (ids F) /\ ~ In (nid (snd c)) (ids F)) ->
  (forall c d r s, In c calls -> In d calls -> In r t -> In s t -> n_pk r = fst c -> n_pk s = fst d -> n_tree r = n_tree s -> fst c = fst d) ->
  let exec t c := do db <- ns_exec [] (mkNSDB t []) (CAddChild (fst c) (snd c)); Ok (ns_rows db) in
  let W := play n_pk ns_same (all_begin t (map (fun c => ns_add_child (fst c) (snd c)) calls)) schedule in
  one_by_one exec calls t (map fst (w_log W)) = (w_rows W, w_log W) /\ NoDup (map fst (w_log W)) /\
  Forall (fun e => snd e = None) (w_log W) /\
  stores (w_rows W) (fold_left (fun F c => sp_add_child None (fst c) (snd c) F) (succeeded calls (w_log W)) F) /\
  (finished W = true -> Permutation (map fst (w_log W)) (seq 0 (length calls))) /\
  exists schedule', finished (play n_pk ns_same W schedule') = true.
Proof. intros H1 H2 H3 H4. exact (ConcNS.ns_concurrent t F calls schedule H1 H2 H3 H4). Qed.

(** Calls 0 and 1 have one parent, call 2 works in another tree. *)
Example C41_ns_trees_example :
  let calls := [(1, nd 21 0); (1, nd 22 0); (9, nd 23 0)] in
  let W l := play n_pk ns_same (all_begin (ns_rows ex_db) (map (fun c => ns_add_child (fst c) (snd c)) calls)) l in
  (forall c d r s, In c calls -> In d calls -> In r (ns_rows ex_db) -> In s (ns_rows ex_db) ->
     n_pk r = fst c -> n_pk s = fst d -> n_tree r = n_tree s -> fst c = fst d) /\
  w_txs (W [0; 1; 1; 1]) = w_txs (W [0]) /\
  let W' := W [1; 0; 2; 1; 2; 1; 1; 0; 2; 2; 1; 1; 2; 0; 2; 0; 0; 0; 0; 0; 0] in
  finished W' = true /\ w_log W' = [(1, None); (2, None); (0, None)] /\
  map (fun r => (Z.of_nat (n_pk r), n_lft r, n_rgt r)) (get_tree (w_rows W') None None) =
  [(7, 1, 2); (1, 1, 10); (3, 2, 3); (5, 4, 5); (22, 6, 7); (21, 8, 9);
   (2, 1, 12); (4, 2, 5); (6, 3, 4); (9, 6, 11); (10, 7, 8); (23, 9, 10)]%Z.
Proof.
  split; [|split; [vm_compute; reflexivity|vm_compute; auto]].
  intros c d r s Hc Hd Hr Hs Ec Ed. cbn in Hc, Hd, Hr, Hs.
  assert (T : forall r, In r (ns_rows ex_db) -> n_pk r = 1 \/ n_pk r = 9 -> n_tree r = if n_pk r =? 1 then 2%Z else 3%Z).
  { assert (E : forallb (fun r => negb ((n_pk r =? 1) || (n_pk r =? 9)) || (n_tree r =? (if (n_pk r =? 1)%nat then 2 else 3))%Z) (ns_rows ex_db) = true) by reflexivity.
    intros a Ha K. rewrite forallb_forall in E. specialize (E a Ha). destruct K as [K|K]; rewrite K in *; apply Z.eqb_eq, E. }
  assert (Kc : fst c = 1 \/ fst c = 9) by (destruct Hc as [<-|[<-|[<-|[]]]]; auto).
  assert (Kd : fst d = 1 \/ fst d = 9) by (destruct Hd as [<-|[<-|[<-|[]]]]; auto).
  rewrite (T r) by (auto; rewrite Ec; auto). rewrite (T s) by (auto; rewrite Ed; auto). rewrite Ec, Ed.
  destruct Kc as [-> | ->], Kd as [-> | ->]; cbn; congruence.
Qed.

(** Two add_root calls can give the same tree_id to two trees. *)
Theorem C41_ns_add_root_refuted : exists t F (xs : list node) schedule,
  stores t F /\
  let W := play n_pk ns_same (all_begin t (map ns_add_root xs)) schedule in
  finished W = true /\ w_log W = [(0, None); (1, None)] /\
  (exists r s, In r (w_rows W) /\ In s (w_rows W) /\ n_pk r <> n_pk s /\ n_depth r = 1%Z /\ n_depth s = 1%Z /\ n_tree r = n_tree s) /\
  ~ exists F', stores (w_rows W) F'.
Proof.
  exists (ns_rows ex_db), ex_F, [nd 20 0; nd 21 0], [0; 1; 0; 0; 1; 1].
  split; [apply ex_stores|]. split; [vm_compute; reflexivity|]. split; [vm_compute; reflexivity|]. split.
  - exists (mkNS 20 4 1 2 1 (ndata (nd 20 0))), (mkNS 21 4 1 2 1 (ndata (nd 21 0))). repeat split; vm_compute; auto; discriminate.
  - intros [F' St]. apply C21_no_false_alarm in St. destruct St as [St _]. revert St. vm_compute. discriminate.
Qed.
End NS.

(** ** Adjacency lists *)
Section AL.
Import ALModel ALHist ALInv PropsAL.

(** Nothing is locked: two children added to one parent can get one sib_order, which they
    do not get one after the other. *)
Theorem C41_al_refuted : exists t F calls schedule,
  stores [] t F /\ NoDup (map (fun c => nid (snd c)) calls) /\ (forall c, In c calls -> ~ In (nid (snd c)) (ids F)) /\
  let orders t := map a_sib (filter (fun r => match a_parent r with Some 5 => true | _ => false end) t) in
  (forall order, Permutation order (seq 0 (length calls)) ->
     orders (fst (one_by_one (fun t c => al_exec [] t (CAddChild (fst c) (snd c))) calls t order)) = [2%Z; 1%Z]) /\
  let W := play a_pk al_same (all_begin t (map (fun c => al_add_child [] (fst c) (snd c)) calls)) schedule in
  finished W = true /\ w_log W = [(0, None); (1, None)] /\ orders (w_rows W) = [1%Z; 1%Z].
Proof.
  exists ex_t, ex_F, [(5, nd 20 7); (5, nd 21 1)], [0; 1; 0; 1; 0; 1].
  split; [apply ex_stores|]. split; [repeat constructor; cbn; intuition lia|].
  split; [intros c [<-|[<-|[]]]; vm_compute; intuition discriminate|].
  split; [|vm_compute; auto].
  intros order P. apply orders_2 in P. destruct P as [->| ->]; vm_compute; reflexivity.
Qed.

(** With node_order_by, or with calls for different parents: as [C41_mp_partial], and none
    fails. *)
Theorem C41_al_partial o t F (calls : list (nat * node)) schedule : stores o t F ->
  NoDup (map (fun c => nid (snd c)) calls) -> (o = [] -> NoDup (map fst calls)) ->
  (forall c, In c calls -> In (fst c) (ids F) /\ ~ In (nid (snd c)) (ids F)) ->
  (o <> [] -> Forall (fun c => has_values o (ndata (snd c))) calls) ->
  let exec t c := al_exec o t (CAddChild (fst c) (snd c)) in
  let W := play a_pk al_same (all_begin t (map (fun c => al_add_child o (fst c) (snd c)) calls)) schedule in
  one_by_one exec calls t (map fst (w_log W)) = (w_rows W, w_log W) /\ NoDup (map fst (w_log W)) /\
  Forall (fun e => snd e = None) (w_log W) /\
  stores o (w_rows W) (fold_left (fun F c => sp_add_child (gt_opt o (ndata (snd c))) (fst c) (snd c) F) (succeeded calls (w_log W)) F) /\
  (finished W = true -> Permutation (map fst (w_log W)) (seq 0 (length calls))) /\
  exists schedule', finished (play a_pk al_same W schedule') = true.
Proof. intros H1 H2 H3 H4 H5. exact (ConcAL.al_concurrent o t F calls schedule H1 H2 H3 H4 H5). Qed.

Example C41_al_example :
  let calls := [(6, nd 21 7); (6, nd 22 3); (1, nd 23 9)] in
  NoDup (map (fun c => nid (snd c)) calls) /\
  (forall c, In c calls -> In (fst c) (ids so_F) /\ ~ In (nid (snd c)) (ids so_F)) /\
  Forall (fun c => has_values so (ndata (snd c))) calls /\
  let W := play a_pk al_same (all_begin so_t (map (fun c => al_add_child so (fst c) (snd c)) calls)) [0; 1; 2; 2; 1; 0] in
  finished W = true /\ w_log W = [(2, None); (1, None); (0, None)] /\
  map a_pk (kids so (w_rows W) (Some 6)) = [1; 21; 3; 22] /\ map a_pk (kids so (w_rows W) (Some 1)) = [23; 4; 5].
Proof.
  cbv zeta. split; [repeat constructor; cbn; intuition lia|].
  split; [intros c [<-|[<-|[<-|[]]]]; (split; [apply (has_spec); reflexivity|apply has_false; reflexivity])|].
  split; [apply Forall_forall; intros c [<-|[<-|[<-|[]]]]; intros f b [E|[]]; injection E as <- <-; discriminate|]. vm_compute. auto.
Qed.

(** Without node_order_by, for all calls: apart from the numbers in sib_order, the rows are
    those of the finished calls made one at a time, and the new children of a node come
    after the old ones. *)
Theorem C41_al_one_parent_partial t F (calls : list (nat * node)) schedule : stores [] t F ->
  NoDup (map (fun c => nid (snd c)) calls) ->
  (forall c, In c calls -> In (fst c) (ids F) /\ ~ In (nid (snd c)) (ids F)) ->
  let exec t c := al_exec [] t (CAddChild (fst c) (snd c)) in
  let without_order (r : alrow) := (a_pk r, a_parent r, a_data r) in
  let W := play a_pk al_same (all_begin t (map (fun c => al_add_child [] (fst c) (snd c)) calls)) schedule in
  exists t', one_by_one exec calls t (map fst (w_log W)) = (t', w_log W) /\ NoDup (map fst (w_log W)) /\
  Forall (fun e => snd e = None) (w_log W) /\
  stores [] t' (fold_left (fun F c => sp_add_child None (fst c) (snd c) F) (succeeded calls (w_log W)) F) /\
  Permutation (map without_order (w_rows W)) (map without_order t') /\
  (forall r s, In r (w_rows W) -> In s (w_rows W) -> a_parent r = a_parent s -> In (a_pk r) (ids F) -> ~ In (a_pk s) (ids F) ->
     (a_sib r < a_sib s)%Z) /\
  (finished W = true -> Permutation (map fst (w_log W)) (seq 0 (length calls))) /\
  exists schedule', finished (play a_pk al_same W schedule') = true.
Proof.
  intros H1 H2 H3. apply (ConcAL.al_unsorted calls t H2); auto.
  intros c Hc. unfold ConcAL.ready. rewrite <- !(ConcAL.ids_iff [] t F _ H1). auto.
Qed.

Example C41_al_one_parent_example :
  let calls := [(1, nd 21 0); (1, nd 22 0); (9, nd 23 0); (1, nd 24 0)] in
  let W := play a_pk al_same (all_begin ex_t (map (fun c => al_add_child [] (fst c) (snd c)) calls)) [0; 1; 2; 2; 1; 0; 2; 0; 1; 3; 3; 3] in
  finished W = true /\ w_log W = [(2, None); (0, None); (1, None); (3, None)] /\
  map (fun r => (a_pk r, a_sib r)) (kids [] (w_rows W) (Some 1)) = [(3, 1%Z); (5, 2%Z); (22, 3%Z); (21, 3%Z); (24, 4%Z)].
Proof. vm_compute. auto. Qed.

(** Two moves that each see that they make no loop make one together. *)
Theorem C41_al_moves_refuted : exists o t F a b schedule,
  stores o t F /\ In a (ids F) /\ In b (ids F) /\
  let W := play a_pk al_same (all_begin t [al_move_sorted o a b; al_move_sorted o b a]) schedule in
  finished W = true /\ w_log W = [(0, None); (1, None)] /\
  (exists r s, In r (w_rows W) /\ In s (w_rows W) /\ a_parent r = Some (a_pk s) /\ a_parent s = Some (a_pk r)) /\
  ~ exists F', stores o (w_rows W) F'.
Proof.
  exists so, so_t, so_F, 2, 3, [0; 0; 0; 1; 1; 1; 0; 0; 0; 1; 1; 1].
  split; [apply so_stores|]. split; [apply has_spec; reflexivity|]. split; [apply has_spec; reflexivity|]. cbv zeta.
  match goal with |- context [play ?a ?b ?c ?d] => set (W := play a b c d) end.
  split; [vm_compute; reflexivity|]. split; [vm_compute; reflexivity|].
  assert (R2 : In (row (w_rows W) 2) (w_rows W) /\ a_pk (row (w_rows W) 2) = 2 /\ a_parent (row (w_rows W) 2) = Some 3 /\
    get_ancestors (w_rows W) (row (w_rows W) 2) = Err OutOfFuel) by (vm_compute; auto 10).
  assert (R3 : In (row (w_rows W) 3) (w_rows W) /\ a_pk (row (w_rows W) 3) = 3 /\ a_parent (row (w_rows W) 3) = Some 2) by (vm_compute; auto 10).
  clearbody W. destruct R2 as (Hr & Er & Pr & Ar), R3 as (Hs & Es & Ps). split.
  - exists (row (w_rows W) 2), (row (w_rows W) 3). rewrite Er, Es. auto.
  - intros [F' (Wf & _ & so' & Fit & _)].
    destruct (ALReads.read_ancestors so' (w_rows W) F' Wf Fit _ Hr) as (l & A & El & _). congruence.
Qed.

(** The transaction alone is the call. *)
Example C41_al_move_example :
  forallb (fun nq => let '(n, q) := nq in
    let W := play a_pk al_same (all_begin so_t [al_move_sorted so n q]) (repeat 0 9) in
    match al_exec so so_t (CMove n q (Some "sorted-child"%string)), w_log W with
    | Ok t, [(0, None)] => forallb (fun r => existsb (fun r' => (a_pk r =? a_pk r') && par_eqb (a_parent r) (a_parent r')) t) (w_rows W) && (length (w_rows W) =? length t)
    | Err InvalidMoveToDescendant, [(0, Some InvalidMoveToDescendant)] => true
    | _, _ => false
    end) [(2, 6); (6, 2); (4, 3); (6, 5); (1, 1); (3, 4); (1, 6)] = true.
Proof. vm_compute. reflexivity. Qed.
End AL.

(** ** Ltree *)
Section LT.
Import LTModel LTInv LTHist PropsLT.

(** As [C41_mp_partial]. *)
Theorem C41_lt_partial cfg t F (calls : list (nat * node)) schedule :
  2 <= label_max cfg -> lt_order cfg = [] -> stores cfg t F ->
  NoDup (map (fun c => nid (snd c)) calls) -> (forall c, In c calls -> ~ In (nid (snd c)) (ids F)) ->
  let exec t c := do db <- lt_exec cfg (mkLTDB t []) (CAddChild (fst c) (snd c)); Ok (lt_rows db) in
  let W := play l_pk lt_same (all_begin t (map (fun c => lt_add_child cfg (fst c) (snd c)) calls)) schedule in
  one_by_one exec calls t (map fst (w_log W)) = (w_rows W, w_log W) /\ NoDup (map fst (w_log W)) /\
  stores cfg (w_rows W) (fold_left (fun F c => sp_add_child None (fst c) (snd c) F) (succeeded calls (w_log W)) F) /\
  (finished W = true -> Permutation (map fst (w_log W)) (seq 0 (length calls))) /\
  exists schedule', finished (play l_pk lt_same W schedule') = true.
Proof. intros H1 H2 H3 H4 H5. exact (ConcLT.lt_concurrent cfg H2 H1 t F calls schedule H3 H4 H5). Qed.

Example C41_lt_example :
  let calls := [(1, nd 21 0); (1, nd 22 0); (9, nd 23 0); (77, nd 24 0)] in
  let W l := play l_pk lt_same (all_begin (lt_rows ex_db) (map (fun c => lt_add_child c0 (fst c) (snd c)) calls)) l in
  NoDup (map (fun c => nid (snd c)) calls) /\
  w_txs (W [0; 1; 1; 1]) = w_txs (W [0]) /\
  let W' := W [1; 0; 2; 1; 1; 0; 2; 1; 1; 2; 3; 1; 0; 2; 0; 2; 2; 0; 0; 0; 0; 0] in
  finished W' = true /\ w_log W' = [(3, Some DoesNotExist); (1, None); (2, None); (0, None)] /\
  map l_pk (order_path (w_rows W')) = [7; 1; 3; 5; 22; 21; 2; 4; 6; 9; 10; 23].
Proof. split; [repeat constructor; cbn; intuition lia|]. split; [vm_compute; reflexivity|]. vm_compute. auto. Qed.
End LT.

Print Assumptions C41_mp_partial.
Print Assumptions C41_mp_sorted_refuted.
Print Assumptions C41_mp_add_root_refuted.
Print Assumptions C41_mp_delete_refuted.
Print Assumptions C41_ns_refuted.
Print Assumptions C41_ns_trees_partial.
Print Assumptions C41_ns_add_root_refuted.
Print Assumptions C41_al_refuted.
Print Assumptions C41_al_partial.
Print Assumptions C41_al_one_parent_partial.
Print Assumptions C41_al_moves_refuted.
Print Assumptions C41_lt_partial.
