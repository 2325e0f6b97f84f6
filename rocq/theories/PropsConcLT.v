(** Theorems about the calls on ltree paths as transactions: all calls, all positions, with and
    without node_order_by (C73). *)
From Coq Require Import String List Arith Lia Bool ZArith Permutation.
From Verif Require Import Prelude Forest CommonModel Order History Fixture ConcModel ConcRun ConcAlone ConcCalls ConcTrees PropsConcTrees.
From Verif Require Import LTModel LTHist LTInv LTCheck PropsLT ConcLTModel ConcLTAll ConcLTTrees PropsConcNS.
Import ListNotations.
Local Open Scope list_scope.
Local Open Scope nat_scope.

(** Transactions that do not overlap do what the calls do, in that order, with the same
    exceptions, and the table stores the forest of the specification up to the order of siblings;
    the others have not ended. *)
Theorem C73_serial cfg t F (calls : list call) order : 2 <= label_max cfg -> stores_unordered cfg t F ->
  NoDup (flat_map new_ids calls) -> (forall i, In i (flat_map new_ids calls) -> ~ In i (ids F)) ->
  NoDup order -> (forall i, In i order -> i < length calls) ->
  let exec t c := do db <- lt_exec cfg (mkLTDB t []) c; Ok (lt_rows db) in
  exists schedule, let W := play l_pk lt_same (all_begin t (map (lt_tx cfg) calls)) schedule in
    (w_rows W, w_log W) = one_by_one exec calls t order /\
    (forall i, i < length calls -> nth_error (w_txs W) i = Some None <-> In i order) /\
    stores_unordered cfg (w_rows W) (fold_left (sp_call (lt_order cfg)) (succeeded calls (w_log W)) F).
Proof. intros L H1 H2 H3 H4 H5 exec. exact (lt_all_serial cfg L t F calls order H1 H2 H3 H4 H5). Qed.

Example C73_serial_example :
  let calls := [CMove 3 7 (Some "right"); CAddSibling 10 (Some "first-sibling") (nd 20 7); CMove 2 9 (Some "left"); CAddRoot (nd 21 4); CMove 7 20 (Some "last-child"); CDelete [5; 1]]%string in
  let exec t c := do db <- lt_exec c0 (mkLTDB t []) c; Ok (lt_rows db) in
  let W := play l_pk lt_same (all_begin (lt_rows ex_db) (map (lt_tx c0) calls)) (repeat 1 50 ++ repeat 4 50 ++ repeat 2 50 ++ repeat 0 50 ++ repeat 3 50 ++ repeat 5 50) in
  stores_unordered c0 (lt_rows ex_db) ex_F /\
  NoDup (flat_map new_ids calls) /\ one_by_one exec calls (lt_rows ex_db) [1; 4; 2; 0; 3; 5] = (w_rows W, w_log W) /\
  w_log W = [(1, None); (4, None); (2, Some InvalidMoveToDescendant); (0, None); (3, None); (5, None)] /\ length (w_rows W) = 9.
Proof. split; [apply stores_any, ex_stores|]. split; [repeat constructor; cbn; intuition lia|]. split; [|split]; vm_compute; reflexivity. Qed.

(** add_child, add_sibling, move and delete in different trees, at any position that makes no
    root, with and without node_order_by, with the statements in any order: the outcome is that
    of the calls in the order in which they ended, with the same exceptions, and the table stores
    the forest of the specification up to the order of siblings; the transactions can always
    finish. What is missing: calls that make roots ([C73_roots_refuted]). *)
Theorem C73_trees_partial cfg t F (calls : list call) schedule : 2 <= label_max cfg -> stores cfg t F ->
  no_roots_made F calls -> other_trees F calls ->
  NoDup (flat_map new_ids calls) -> (forall i, In i (flat_map new_ids calls) -> ~ In i (ids F)) ->
  let exec t c := do db <- lt_exec cfg (mkLTDB t []) c; Ok (lt_rows db) in
  let W := play l_pk lt_same (all_begin t (map (lt_tx cfg) calls)) schedule in
  one_by_one exec calls t (map fst (w_log W)) = (w_rows W, w_log W) /\ NoDup (map fst (w_log W)) /\
  stores_unordered cfg (w_rows W) (fold_left (sp_call (lt_order cfg)) (succeeded calls (w_log W)) F) /\
  (finished W = true -> Permutation (map fst (w_log W)) (seq 0 (length calls))) /\
  exists schedule', finished (play l_pk lt_same W schedule') = true.
Proof.
  intros L H1 H2 H3 H4 H5 exec W.
  apply (lt_all_different_trees cfg L t F calls schedule H1 (fun c => no_roots_below F calls c H2) H4 H5).
  intros i j c d N Hc Hd a b. exact (H3 i j c d N Hc Hd a b).
Qed.

Example C73_trees_example :
  let W := play l_pk lt_same (all_begin (lt_rows ex_db) (map (lt_tx c0) ex_moves)) zigzag in
  no_roots_made ex_F ex_moves /\ other_trees ex_F ex_moves /\ NoDup (flat_map new_ids ex_moves) /\
  finished W = true /\ w_log W = [(1, None); (0, None)] /\
  map (fun r => (l_pk r, l_path r)) (order_path (w_rows W)) =
  [(7, [[0]]); (1, [[10]]); (5, [[10]; [10; 0]]); (3, [[10]; [11]]); (2, [[11]]); (4, [[11]; [10]]); (6, [[11]; [10]; [10]]);
   (10, [[11]; [10]; [10]; [10]]); (9, [[11]; [12]])].
Proof.
  split; [apply no_roots_madeb_ok; vm_compute; reflexivity|]. split; [apply other_treesb_ok; vm_compute; reflexivity|].
  split; [constructor|]. split; [|split]; vm_compute; reflexivity.
Qed.

Example C73_trees_sorted_example :
  let W := play l_pk lt_same (all_begin (lt_rows so_db) (map (lt_tx cs) so_moves)) zigzag in
  stores cs (lt_rows so_db) so_F /\
  no_roots_made so_F so_moves /\ other_trees so_F so_moves /\ NoDup (flat_map new_ids so_moves) /\
  finished W = true /\ w_log W = [(1, None); (0, None)] /\
  map (fun r => (l_pk r, l_path r)) (order_path (w_rows W)) =
  [(2, [[0]]); (20, [[0]; [10]]); (6, [[1]]); (1, [[1]; [0]]); (5, [[1]; [0]; [1]]); (4, [[1]; [1]]); (3, [[1]; [10]])].
Proof.
  split; [apply so_stores|]. split; [apply no_roots_madeb_ok; vm_compute; reflexivity|]. split; [apply other_treesb_ok; vm_compute; reflexivity|].
  split; [repeat constructor; cbn; intuition lia|]. split; [|split]; vm_compute; reflexivity.
Qed.

(** In one tree there is no label between those of the neighbours, so the label of the right one
    is changed. *)
Example C73_right_example :
  let calls := [CAddSibling 5 (Some "left") (nd 20 5); CMove 10 6 (Some "left")]%string in
  let W := play l_pk lt_same (all_begin (lt_rows ex_db) (map (lt_tx c0) calls)) (zigzag ++ zigzag) in
  no_roots_made ex_F calls /\ other_trees ex_F calls /\ 
  finished W = true /\ w_log W = [(1, None); (0, None)] /\
  map (fun r => (l_pk r, l_path r)) (order_path (w_rows W)) =
  [(7, [[0]]); (1, [[10]]); (3, [[10]; [10]]); (20, [[10]; [10; 0]]); (5, [[10]; [10; 0; 10]]); (2, [[11]]); (4, [[11]; [10]]);
   (10, [[11]; [10]; [0]]); (6, [[11]; [10]; [10]]); (9, [[11]; [12]])].
Proof.
  split; [apply no_roots_madeb_ok; vm_compute; reflexivity|]. split; [apply other_treesb_ok; vm_compute; reflexivity|].
  split; [|split]; vm_compute; reflexivity.
Qed.

(** A row whose parent is missing. *)
Definition has_parent (t : lt_table) (r : ltrow) : bool :=
  (length (l_path r) =? 1) || existsb (fun r' => peq (l_path r') (removelast (l_path r))) t.
Lemma orphan_not_stored cfg t : forallb (has_parent t) t = false -> ~ exists F, stores cfg t F.
Proof.
  intros B H. apply stores_iff in H. destruct H as [H _]. apply not_true_iff_false in B. apply B. apply forallb_forall. intros r Hr. unfold has_parent.
  destruct (po_par _ _ H r Hr) as [E|(r' & s & Hr' & E)]; [rewrite E; auto|]. apply orb_true_iff. right. apply existsb_exists. exists r'. split; auto.
  apply peq_iff. rewrite E, removelast_last. auto.
Qed.

(** Two calls in one tree: add_child reads the path of its node, a move changes it, and the new
    node is written below the old path, where there is no node. Both calls commit. *)
Theorem C73_one_tree_refuted : exists t F calls schedule, stores c0 t F /\ no_roots_made F calls /\ NoDup (flat_map new_ids calls) /\
  (forall i, In i (flat_map new_ids calls) -> ~ In i (ids F)) /\
  let W := play l_pk lt_same (all_begin t (map (lt_tx c0) calls)) schedule in
  finished W = true /\ w_log W = [(0, None); (1, None)] /\ NoDup (map l_path (w_rows W)) /\
  map l_pk (filter (fun r => negb (has_parent (w_rows W) r)) (w_rows W)) = [20] /\ ~ exists F', stores c0 (w_rows W) F'.
Proof.
  exists (lt_rows ex_db), ex_F, [CMove 4 9 (Some "last-child"); CAddChild 6 (nd 20 5)]%string, (repeat 1 1 ++ repeat 0 50 ++ repeat 1 50).
  split; [apply ex_stores|]. split; [apply no_roots_madeb_ok; vm_compute; reflexivity|]. split; [repeat constructor; cbn; intuition lia|].
  split; [intros i [<-|[]]; vm_compute; intuition lia|].
  split; [vm_compute; reflexivity|]. split; [vm_compute; reflexivity|].
  split; [vm_compute; repeat constructor; cbn; intuition discriminate|].
  split; [vm_compute; reflexivity|]. apply orphan_not_stored. vm_compute. reflexivity.
Qed.

(** A move that makes a root renames the roots, so it disturbs a move in a tree it is not about:
    the moved node and a child of it lose their parents. *)
Theorem C73_roots_refuted : exists t F calls schedule, stores c0 t F /\ other_trees F calls /\ NoDup (flat_map new_ids calls) /\
  calls = [CMove 5 7 (Some "left"); CMove 4 9 (Some "last-child")]%string /\
  let W := play l_pk lt_same (all_begin t (map (lt_tx c0) calls)) schedule in
  finished W = true /\ w_log W = [(0, None); (1, None)] /\ NoDup (map l_path (w_rows W)) /\
  map l_pk (filter (fun r => negb (has_parent (w_rows W) r)) (w_rows W)) = [6; 4] /\ ~ exists F', stores c0 (w_rows W) F'.
Proof.
  exists (lt_rows ex_db), ex_F, [CMove 5 7 (Some "left"); CMove 4 9 (Some "last-child")]%string, (repeat 1 5 ++ repeat 0 50 ++ repeat 1 50).
  split; [apply ex_stores|]. split; [apply other_treesb_ok; vm_compute; reflexivity|]. split; [constructor|]. split; [reflexivity|].
  split; [vm_compute; reflexivity|]. split; [vm_compute; reflexivity|].
  split; [vm_compute; repeat constructor; cbn; intuition discriminate|].
  split; [vm_compute; reflexivity|]. apply orphan_not_stored. vm_compute. reflexivity.
Qed.

Print Assumptions C73_serial.
Print Assumptions C73_trees_partial.
Print Assumptions C73_one_tree_refuted.
Print Assumptions C73_roots_refuted.
