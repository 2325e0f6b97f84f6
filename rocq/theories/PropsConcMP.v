(** Theorems about the calls on materialized paths as transactions: all calls, all positions,
    with and without node_order_by (C72). *)
From Coq Require Import String List Arith Lia Bool ZArith Permutation.
From Verif Require Import Prelude Forest CommonModel Order History Fixture ConcModel ConcRun ConcAlone ConcCalls ConcTrees PropsConcTrees.
From Verif Require Import MPModel MPHist MPInv MPFixModel MPRefuted PropsMP ConcMPModel ConcMPAll ConcMPTrees PropsConcNS.
From Verif Require ConcMP.
Import ListNotations.
Local Open Scope list_scope.
Local Open Scope nat_scope.

(** Transactions that do not overlap do what the calls do, in that order, with the same
    exceptions, on any table; the others have not ended. *)
Theorem C72_serial cfg t (calls : list call) order : NoDup (map m_pk t) ->
  NoDup (flat_map new_ids calls) -> (forall i, In i (flat_map new_ids calls) -> ~ In i (map m_pk t)) ->
  NoDup order -> (forall i, In i order -> i < length calls) ->
  let exec t c := do db <- mp_exec cfg (mkDB t []) c; Ok (db_rows db) in
  exists schedule, let W := play m_pk mp_same (all_begin t (map (mp_tx cfg) calls)) schedule in
    (w_rows W, w_log W) = one_by_one exec calls t order /\
    forall i, i < length calls -> nth_error (w_txs W) i = Some None <-> In i order.
Proof. intros H1 H2 H3 H4 H5 exec. exact (mp_all_serial cfg t calls order H1 H2 H3 H4 H5). Qed.

Example C72_serial_example :
  let calls := [CMove 3 7 (Some "right"); CAddSibling 10 (Some "first-sibling") (nd 20 7); CMove 2 9 (Some "left"); CAddRoot (nd 21 4); CMove 7 20 (Some "last-child"); CDelete [5; 1]]%string in
  let exec t c := do db <- mp_exec c10 (mkDB t []) c; Ok (db_rows db) in
  let W := play m_pk mp_same (all_begin (db_rows ex_db) (map (mp_tx c10) calls)) (repeat 1 50 ++ repeat 4 50 ++ repeat 2 50 ++ repeat 0 50 ++ repeat 3 50 ++ repeat 5 50) in
  NoDup (flat_map new_ids calls) /\ one_by_one exec calls (db_rows ex_db) [1; 4; 2; 0; 3; 5] = (w_rows W, w_log W) /\
  w_log W = [(1, None); (4, None); (2, Some InvalidMoveToDescendant); (0, None); (3, None); (5, None)] /\ length (w_rows W) = 9.
Proof. split; [repeat constructor; cbn; intuition lia|]. split; [|split]; vm_compute; reflexivity. Qed.

(** add_child, add_sibling, move and delete in different trees, at any position that makes no
    root, with and without node_order_by, with the statements in any order: the outcome is that
    of the calls in the order in which they ended, with the same exceptions, even when key space
    runs out; the transactions can always finish. What is missing: calls that make roots
    ([C72_roots_refuted]). *)
Theorem C72_trees_partial cfg t F (calls : list call) schedule : 2 <= radix cfg -> 1 <= steplen cfg -> stores cfg t F ->
  no_roots_made F calls -> other_trees F calls ->
  NoDup (flat_map new_ids calls) -> (forall i, In i (flat_map new_ids calls) -> ~ In i (ids F)) ->
  let exec t c := do db <- mp_exec cfg (mkDB t []) c; Ok (db_rows db) in
  let W := play m_pk mp_same (all_begin t (map (mp_tx cfg) calls)) schedule in
  one_by_one exec calls t (map fst (w_log W)) = (w_rows W, w_log W) /\ NoDup (map fst (w_log W)) /\
  (finished W = true -> Permutation (map fst (w_log W)) (seq 0 (length calls))) /\
  exists schedule', finished (play m_pk mp_same W schedule') = true.
Proof.
  intros R S H1 H2 H3 H4 H5 exec W.
  apply (mp_all_different_trees cfg R S t F calls schedule H1 (fun c => no_roots_below F calls c H2) H4 H5).
  intros i j c d N Hc Hd a b. exact (H3 i j c d N Hc Hd a b).
Qed.

(** The table then stores the forest of the specification, in order. What is missing: as above;
    and the moves must find a roomy table, as in C28. *)
Theorem C72_forest_partial cfg t F (calls : list call) schedule : 2 <= radix cfg -> 1 <= steplen cfg ->
  stores cfg t F -> ordered (order_by cfg) F -> (order_by cfg <> [] -> Forall (call_values (order_by cfg)) calls) ->
  no_roots_made F calls -> other_trees F calls ->
  NoDup (flat_map new_ids calls) -> (forall i, In i (flat_map new_ids calls) -> ~ In i (ids F)) ->
  let W := play m_pk mp_same (all_begin t (map (mp_tx cfg) calls)) schedule in
  let G := fold_left (sp_call (order_by cfg)) (succeeded calls (w_log W)) F in
  roomy_calls cfg t (calls_of calls (map fst (w_log W))) ->
  stores cfg (w_rows W) G /\ ordered (order_by cfg) G.
Proof.
  intros R S H1 O V H2 H3 H4 H5 W G Rm.
  destruct (C72_trees_partial cfg t F calls schedule R S H1 H2 H3 H4 H5) as (A & B & _).
  assert (X := one_by_one_forest cfg R S calls H4 V (map fst (w_log W)) t F B H1 O).
  change (one_by_one (mp_exec_rows cfg) calls t (map fst (w_log W)) = (w_rows W, w_log W)) in A.
  rewrite A in X. apply X; auto.
  intros i c _ E j Hj H. apply nth_error_In in E. apply (H5 j); [apply in_flat_map; eauto|]. apply (ConcMP.ids_iff cfg t F j H1). auto.
Qed.

(** Decision procedures for the examples. *)
Definition roomyb cfg (t : mp_table) : bool :=
  forallb (fun r => NumConv.undigits (radix cfg) (last_step cfg (m_path r)) + 2 <? radix cfg ^ steplen cfg) t.
Fixpoint roomy_callsb cfg (t : mp_table) (cs : list call) : bool :=
  match cs with
  | [] => true
  | c :: cs =>
      (match c with CMove _ _ _ => roomyb cfg t | _ => true end) &&
      roomy_callsb cfg (match mp_exec_rows cfg t c with Ok t' => t' | Err _ => t end) cs
  end.
Lemma roomyb_ok cfg t : roomyb cfg t = true -> roomy cfg t.
Proof. unfold roomyb, roomy. rewrite forallb_forall. intros H r Hr. apply Nat.ltb_lt. auto. Qed.
Lemma roomy_callsb_ok cfg cs : forall t, roomy_callsb cfg t cs = true -> roomy_calls cfg t cs.
Proof.
  induction cs as [|c cs IH]; intros t H; cbn in *; auto. apply andb_true_iff in H. destruct H as [A B]. split; auto.
  destruct c; auto. apply roomyb_ok. auto.
Qed.

Example C72_trees_example :
  let W := play m_pk mp_same (all_begin (db_rows ex_db) (map (mp_tx c10) ex_moves)) zigzag in
  no_roots_made ex_F ex_moves /\ other_trees ex_F ex_moves /\ NoDup (flat_map new_ids ex_moves) /\
  finished W = true /\ w_log W = [(0, None); (1, None)] /\ roomy_calls c10 (db_rows ex_db) (calls_of ex_moves (map fst (w_log W))) /\
  map (fun r => (m_pk r, m_path r, m_nc r)) (order_path (w_rows W)) =
  [(7, [0;1], 0); (1, [0;2], 2); (5, [0;2;0;2], 0); (3, [0;2;0;3], 0); (2, [0;3], 2); (4, [0;3;0;1], 1); (6, [0;3;0;1;0;1], 1); (10, [0;3;0;1;0;1;0;1], 0); (9, [0;3;0;3], 0)].
Proof.
  split; [apply no_roots_madeb_ok; vm_compute; reflexivity|]. split; [apply other_treesb_ok; vm_compute; reflexivity|].
  split; [repeat constructor; cbn; intuition lia|]. split; [vm_compute; reflexivity|]. split; [vm_compute; reflexivity|].
  split; [apply roomy_callsb_ok; vm_compute; reflexivity|vm_compute; reflexivity].
Qed.

Example C72_trees_sorted_example :
  let W := play m_pk mp_same (all_begin (db_rows so_db) (map (mp_tx s10) so_moves)) (zigzag ++ zigzag) in
  no_roots_made so_F so_moves /\ other_trees so_F so_moves /\ NoDup (flat_map new_ids so_moves) /\ ordered (order_by s10) so_F /\
  finished W = true /\ w_log W = [(1, None); (0, None)] /\ roomy_calls s10 (db_rows so_db) (calls_of so_moves (map fst (w_log W))) /\
  map (fun r => (m_pk r, m_path r, m_nc r)) (order_path (w_rows W)) =
  [(2, [0;1], 1); (20, [0;1;0;1], 0); (6, [0;2], 3); (1, [0;2;0;1], 1); (5, [0;2;0;1;0;2], 0); (4, [0;2;0;2], 0); (3, [0;2;0;3], 0)].
Proof.
  split; [apply no_roots_madeb_ok; vm_compute; reflexivity|]. split; [apply other_treesb_ok; vm_compute; reflexivity|].
  split; [repeat constructor; cbn; intuition lia|]. split; [apply so_stores|]. split; [vm_compute; reflexivity|]. split; [vm_compute; reflexivity|].
  split; [apply roomy_callsb_ok; vm_compute; reflexivity|vm_compute; reflexivity].
Qed.

(** Two moves in one tree: both commit, the first has no effect on the node it should move (it
    writes by a path that the second has changed), and a count of children is wrong. *)
Theorem C72_one_tree_refuted : exists t F calls schedule, stores c10 t F /\ no_roots_made F calls /\ NoDup (flat_map new_ids calls) /\
  let W := play m_pk mp_same (all_begin t (map (mp_tx c10) calls)) schedule in
  finished W = true /\ w_log W = [(1, None); (0, None)] /\ NoDup (map m_path (w_rows W)) /\
  find_problems c10 (w_rows W) None = [(2, WrongNumchild)] /\ ~ exists F', stores c10 (w_rows W) F'.
Proof.
  exists (db_rows ex_db), ex_F, [CMove 6 9 (Some "left"); CMove 10 4 (Some "left")]%string, (repeat 0 7 ++ repeat 1 50 ++ repeat 0 50).
  split; [apply ex_stores|]. split; [apply no_roots_madeb_ok; vm_compute; reflexivity|]. split; [constructor|].
  split; [vm_compute; reflexivity|]. split; [vm_compute; reflexivity|].
  split; [vm_compute; repeat constructor; cbn; intuition discriminate|].
  split; [vm_compute; reflexivity|].
  apply not_stored; [cbn; lia|cbn; lia|]. vm_compute. discriminate.
Qed.

(** A move that makes a root renumbers the roots, so it disturbs a move in a tree it is not
    about: a node of a third subtree, which no call names, is moved below no node. *)
Theorem C72_roots_refuted : exists t F calls schedule, stores c10 t F /\ other_trees F calls /\ NoDup (flat_map new_ids calls) /\
  calls = [CMove 4 9 (Some "last-child"); CMove 5 7 (Some "left")]%string /\
  let W := play m_pk mp_same (all_begin t (map (mp_tx c10) calls)) schedule in
  finished W = true /\ w_log W = [(1, None); (0, None)] /\ NoDup (map m_path (w_rows W)) /\
  find_problems c10 (w_rows W) None = [(3, Orphan)] /\ ~ exists F', stores c10 (w_rows W) F'.
Proof.
  exists (db_rows ex_db), ex_F, [CMove 4 9 (Some "last-child"); CMove 5 7 (Some "left")]%string, (repeat 0 7 ++ repeat 1 50 ++ repeat 0 50).
  split; [apply ex_stores|]. split; [apply other_treesb_ok; vm_compute; reflexivity|]. split; [constructor|]. split; [reflexivity|].
  split; [vm_compute; reflexivity|]. split; [vm_compute; reflexivity|].
  split; [vm_compute; repeat constructor; cbn; intuition discriminate|].
  split; [vm_compute; reflexivity|].
  apply not_stored; [cbn; lia|cbn; lia|]. vm_compute. discriminate.
Qed.

Print Assumptions C72_serial.
Print Assumptions C72_trees_partial.
Print Assumptions C72_forest_partial.
Print Assumptions C72_one_tree_refuted.
Print Assumptions C72_roots_refuted.
