(** Theorems about the calls on nested sets as transactions: all calls, all positions, with and
    without node_order_by (C68). *)
From Coq Require Import String List Arith Lia Bool ZArith Permutation.
From Verif Require Import Prelude Forest CommonModel Order History Fixture ConcModel ConcRun ConcAlone ConcCalls ConcTrees PropsConcTrees.
From Verif Require Import NSModel NSHist NSInv PropsNS ConcNSModel ConcNSAll ConcNSTrees.
Import ListNotations.
Local Open Scope list_scope.
Local Open Scope nat_scope.

(** Transactions that do not overlap do what the calls do, in that order, with the same
    exceptions; the others have not ended. *)
Theorem C68_serial o t F (calls : list call) order : stores t F ->
  NoDup (flat_map new_ids calls) -> (forall i, In i (flat_map new_ids calls) -> ~ In i (ids F)) ->
  NoDup order -> (forall i, In i order -> i < length calls) ->
  let exec t c := do db <- ns_exec o (mkNSDB t []) c; Ok (ns_rows db) in
  exists schedule, let W := play n_pk ns_same (all_begin t (map (ns_tx o) calls)) schedule in
    (w_rows W, w_log W) = one_by_one exec calls t order /\
    forall i, i < length calls -> nth_error (w_txs W) i = Some None <-> In i order.
Proof. intros H1 H2 H3 H4 H5 exec. exact (ns_all_serial o t F calls order H1 H2 H3 H4 H5). Qed.

Example C68_serial_example :
  let calls := [CMove 3 7 (Some "right"); CAddSibling 10 (Some "first-sibling") (nd 20 7); CMove 2 9 (Some "left"); CAddRoot (nd 21 4); CMove 7 20 (Some "last-child"); CDelete [5; 1]]%string in
  let exec t c := do db <- ns_exec [] (mkNSDB t []) c; Ok (ns_rows db) in
  let W := play n_pk ns_same (all_begin (ns_rows ex_db) (map (ns_tx []) calls)) (repeat 1 30 ++ repeat 4 30 ++ repeat 2 30 ++ repeat 0 30 ++ repeat 3 30 ++ repeat 5 30) in
  NoDup (flat_map new_ids calls) /\ one_by_one exec calls (ns_rows ex_db) [1; 4; 2; 0; 3; 5] = (w_rows W, w_log W) /\
  w_log W = [(1, None); (4, None); (2, Some InvalidMoveToDescendant); (0, None); (3, None); (5, None)] /\ length (w_rows W) = 9.
Proof. split; [repeat constructor; cbn; intuition lia|]. split; [|split]; vm_compute; reflexivity. Qed.

(** The nodes that the calls name are in the forest, and no call makes a root. *)
Definition no_roots_made (F : forest node) (calls : list call) : Prop :=
  Forall (fun c => match c with
                   | CAddRoot _ => False
                   | CAddChild k _ => In k (ids F)
                   | CAddSibling k _ _ => In k (ids F) /\ ~ In k (map nid (roots F))
                   | CMove n q p => In n (ids F) /\ In q (ids F) /\
                       (p = Some "first-child" \/ p = Some "last-child" \/ p = Some "sorted-child" \/ ~ In q (map nid (roots F)))%string
                   | CDelete l => forall i, In i l -> In i (ids F)
                   end) calls.

Lemma no_roots_below F calls c : no_roots_made F calls -> In c calls -> below_roots F c.
Proof.
  unfold no_roots_made. rewrite Forall_forall. intros H Hc. specialize (H c Hc). destruct c as [x|k x|k p x|n q p|l]; try exact H.
  destruct H as (A & B & C). split; auto. split; auto. destruct C as [-> |[-> |[-> |C]]]; auto; left; cbn; auto.
Qed.

(** A decision procedure for the examples. *)
Definition no_roots_madeb (F : forest node) (calls : list call) : bool :=
  let isin i l := existsb (Nat.eqb i) l in
  forallb (fun c => match c with
                    | CAddRoot _ => false
                    | CAddChild k _ => isin k (ids F)
                    | CAddSibling k _ _ => isin k (ids F) && negb (isin k (map nid (roots F)))
                    | CMove n q p => isin n (ids F) && isin q (ids F) &&
                        match p with
                        | Some s => (s =? "first-child") || (s =? "last-child") || (s =? "sorted-child") || negb (isin q (map nid (roots F)))
                        | None => negb (isin q (map nid (roots F)))
                        end
                    | CDelete l => forallb (fun i => isin i (ids F)) l
                    end)%string calls.
Lemma no_roots_madeb_ok F calls : no_roots_madeb F calls = true -> no_roots_made F calls.
Proof.
  assert (I : forall i l, existsb (Nat.eqb i) l = true <-> In i l).
  { intros i l. rewrite existsb_exists. split; [intros (x & Hx & E); apply Nat.eqb_eq in E; subst; auto|]. intros H. exists i. rewrite Nat.eqb_refl. auto. }
  assert (N : forall i l, negb (existsb (Nat.eqb i) l) = true -> ~ In i l).
  { intros i l H X. apply I in X. rewrite X in H. discriminate. }
  unfold no_roots_madeb, no_roots_made. rewrite forallb_forall, Forall_forall. intros H c Hc. specialize (H c Hc).
  destruct c as [x|k x|k p x|n q p|l]; cbn beta iota in H |- *; [discriminate|apply I; auto| | |].
  - apply andb_true_iff in H. destruct H. split; [apply I|apply N]; auto.
  - rewrite !andb_true_iff in H. destruct H as [[A B] C]. split; [apply I; auto|]. split; [apply I; auto|]. destruct p as [s|]; [|auto].
    rewrite !orb_true_iff in C. destruct C as [[[C|C]|C]|C]; [apply String.eqb_eq in C; subst; auto|apply String.eqb_eq in C; subst; auto|apply String.eqb_eq in C; subst; auto|].
    do 3 right. apply N. auto.
  - rewrite forallb_forall in H. intros i Hi. apply I. auto.
Qed.

(** add_child, add_sibling, move and delete in different trees, at any position that makes no
    root, with and without node_order_by, with the statements in any order: the outcome is that
    of the calls in the order in which they ended, with the same exceptions; the table stores the
    forest of the specification; no root is made; the transactions can always finish. What is
    missing: calls that make roots ([C68_roots_refuted]). *)
Theorem C68_trees_partial o t F (calls : list call) schedule : stores t F ->
  no_roots_made F calls -> other_trees F calls ->
  NoDup (flat_map new_ids calls) -> (forall i, In i (flat_map new_ids calls) -> ~ In i (ids F)) ->
  let exec t c := do db <- ns_exec o (mkNSDB t []) c; Ok (ns_rows db) in
  let W := play n_pk ns_same (all_begin t (map (ns_tx o) calls)) schedule in
  let G := fold_left (sp_call o) (succeeded calls (w_log W)) F in
  one_by_one exec calls t (map fst (w_log W)) = (w_rows W, w_log W) /\ NoDup (map fst (w_log W)) /\
  stores (w_rows W) G /\ incl (map nid (roots G)) (map nid (roots F)) /\
  (finished W = true -> Permutation (map fst (w_log W)) (seq 0 (length calls))) /\
  exists schedule', finished (play n_pk ns_same W schedule') = true.
Proof.
  intros H1 H2 H3 H4 H5 exec W G.
  destruct (ns_all_different_trees o t F calls schedule H1 (fun c => no_roots_below F calls c H2) H4 H5) as (A & B & (C1 & C2) & E); [|split; [exact A|]; auto].
  intros i j c d N Hc Hd a b. exact (H3 i j c d N Hc Hd a b).
Qed.

Definition zigzag := [1;0;0;1;0;1;0;1;1;0;1;0;1;0;1;0;1;0;1;0;1;0;1;0;1;0;1;0;1;0;1;0;0;1;0;1].
Definition ex_moves : list call := [CMove 3 5 (Some "right"); CMove 10 6 (Some "first-child")]%string.
Example C68_trees_example :
  let W := play n_pk ns_same (all_begin (ns_rows ex_db) (map (ns_tx []) ex_moves)) zigzag in
  no_roots_made ex_F ex_moves /\ other_trees ex_F ex_moves /\ NoDup (flat_map new_ids ex_moves) /\
  finished W = true /\ w_log W = [(1, None); (0, None)] /\
  map (fun r => (Z.of_nat (n_pk r), (n_tree r, n_lft r, n_rgt r, n_depth r))) (get_tree (w_rows W) None None) =
  [(7, (1, 1, 2, 1)); (1, (2, 1, 6, 1)); (5, (2, 2, 3, 2)); (3, (2, 4, 5, 2)); (2, (3, 1, 10, 1)); (4, (3, 2, 7, 2)); (6, (3, 3, 6, 3)); (10, (3, 4, 5, 4)); (9, (3, 8, 9, 2))]%Z.
Proof.
  split; [apply no_roots_madeb_ok; vm_compute; reflexivity|]. split; [apply other_treesb_ok; vm_compute; reflexivity|].
  split; [repeat constructor; cbn; intuition lia|]. split; [|split]; vm_compute; reflexivity.
Qed.

Definition so_moves : list call := [CMove 4 6 (Some "sorted-child"); CAddChild 2 (nd 20 9)]%string.
Example C68_trees_sorted_example :
  let W := play n_pk ns_same (all_begin (ns_rows so_db) (map (ns_tx so) so_moves)) zigzag in
  no_roots_made so_F so_moves /\ other_trees so_F so_moves /\ NoDup (flat_map new_ids so_moves) /\
  finished W = true /\ w_log W = [(1, None); (0, None)] /\
  map (fun r => (Z.of_nat (n_pk r), (n_tree r, n_lft r, n_rgt r, n_depth r))) (get_tree (w_rows W) None None) =
  [(2, (1, 1, 4, 1)); (20, (1, 2, 3, 2)); (6, (2, 1, 10, 1)); (1, (2, 2, 5, 2)); (5, (2, 3, 4, 3)); (4, (2, 6, 7, 2)); (3, (2, 8, 9, 2))]%Z.
Proof.
  split; [apply no_roots_madeb_ok; vm_compute; reflexivity|]. split; [apply other_treesb_ok; vm_compute; reflexivity|].
  split; [repeat constructor; cbn; intuition lia|]. split; [|split]; vm_compute; reflexivity.
Qed.

(** Two moves in one tree: both commit, find_problems reports a node, the table stores no
    forest. The first has read the intervals before the second moves them. *)
Theorem C68_one_tree_refuted : exists t F calls schedule, stores t F /\ no_roots_made F calls /\ NoDup (flat_map new_ids calls) /\
  let W := play n_pk ns_same (all_begin t (map (ns_tx []) calls)) schedule in
  finished W = true /\ w_log W = [(1, None); (0, None)] /\ find_problems (w_rows W) None = ([], [4], [], []) /\ ~ exists F', stores (w_rows W) F'.
Proof.
  exists (ns_rows ex_db), ex_F, [CMove 6 9 (Some "left"); CMove 10 4 (Some "left")]%string, (repeat 0 7 ++ repeat 1 20 ++ repeat 0 20).
  split; [apply ex_stores|]. split; [apply no_roots_madeb_ok; vm_compute; reflexivity|]. split; [constructor|].
  split; [vm_compute; reflexivity|]. split; [vm_compute; reflexivity|]. split; [vm_compute; reflexivity|].
  intros [F' St]. apply C21_no_false_alarm in St. destruct St as [St _]. revert St. vm_compute. discriminate.
Qed.

(** A move that makes a root renumbers the trees, so it disturbs a move in a tree it is not
    about: a node ends in a tree in which it was never put. *)
Theorem C68_roots_refuted : exists t F calls schedule, stores t F /\ other_trees F calls /\ NoDup (flat_map new_ids calls) /\
  calls = [CMove 10 6 (Some "last-child"); CMove 5 7 (Some "left")]%string /\
  let W := play n_pk ns_same (all_begin t (map (ns_tx []) calls)) schedule in
  finished W = true /\ w_log W = [(1, None); (0, None)] /\
  (exists r s, In r (w_rows W) /\ In s (w_rows W) /\ n_pk r = 10 /\ n_pk s = 3 /\ n_tree r = n_tree s) /\ ~ exists F', stores (w_rows W) F'.
Proof.
  exists (ns_rows ex_db), ex_F, [CMove 10 6 (Some "last-child"); CMove 5 7 (Some "left")]%string, (repeat 0 7 ++ repeat 1 20 ++ repeat 0 20).
  split; [apply ex_stores|]. split; [apply other_treesb_ok; vm_compute; reflexivity|]. split; [constructor|]. split; [reflexivity|].
  split; [vm_compute; reflexivity|]. split; [vm_compute; reflexivity|]. split.
  - exists (mkNS 10 3 4 5 4 (ndata (nd 10 100))), (mkNS 3 3 2 3 2 (ndata (nd 3 30))). split; [vm_compute; tauto|]. split; [vm_compute; tauto|]. split; [|split]; reflexivity.
  - intros [F' St]. apply C21_no_false_alarm in St. destruct St as [St _]. revert St. vm_compute. discriminate.
Qed.

Print Assumptions C68_serial.
Print Assumptions C68_trees_partial.
Print Assumptions C68_one_tree_refuted.
Print Assumptions C68_roots_refuted.
