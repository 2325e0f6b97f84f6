(** Theorems about the calls on adjacency lists as transactions: all calls, all positions, with
    and without node_order_by (C74). *)
From Coq Require Import String List Arith Lia Bool ZArith Permutation Sorted.
From Verif Require Import Prelude Forest SpecFacts SpecKids CommonModel Order History Fixture ConcModel ConcRun ConcAlone ConcCalls ConcTrees PropsConcTrees.
From Verif Require Import ALModel ALHist ALInv PropsAL ConcALModel ConcALAll ConcALTrees PropsConcNS.
From Verif Require ALReads ConcNSTrees.
Import ListNotations.
Local Open Scope list_scope.
Local Open Scope nat_scope.

(** Transactions that do not overlap do what the calls do, in that order, with the same
    exceptions, and the table stores the forest of the specification; the others have not ended. *)
Theorem C74_serial o t F (calls : list call) order fuel : stores o t F -> (o <> [] -> Forall (call_values o) calls) ->
  NoDup (flat_map new_ids calls) -> (forall i, In i (flat_map new_ids calls) -> ~ In i (ids F)) ->
  length t + length (flat_map new_ids calls) + 2 <= fuel ->
  NoDup order -> (forall i, In i order -> i < length calls) ->
  exists schedule, let W := play a_pk al_same (all_begin t (map (al_tx fuel o) calls)) schedule in
    (w_rows W, w_log W) = one_by_one (al_exec o) calls t order /\
    (forall i, i < length calls -> nth_error (w_txs W) i = Some None <-> In i order) /\
    stores o (w_rows W) (fold_left (sp_call o) (succeeded calls (w_log W)) F).
Proof. intros H1 H2 H3 H4 H5 H6 H7. exact (al_all_serial fuel o t F calls order H1 H2 H3 H4 H5 H6 H7). Qed.

Example C74_serial_example :
  let calls := [CMove 3 7 (Some "right"); CAddSibling 10 (Some "first-sibling") (nd 20 7); CMove 2 9 (Some "left"); CAddRoot (nd 21 4); CMove 7 20 (Some "last-child"); CDelete [5; 1]]%string in
  let W := play a_pk al_same (all_begin ex_t (map (al_tx 13 []) calls)) (repeat 1 50 ++ repeat 4 50 ++ repeat 2 50 ++ repeat 0 50 ++ repeat 3 50 ++ repeat 5 50) in
  NoDup (flat_map new_ids calls) /\ length ex_t + length (flat_map new_ids calls) + 2 <= 13 /\ one_by_one (al_exec []) calls ex_t [1; 4; 2; 0; 3; 5] = (w_rows W, w_log W) /\
  w_log W = [(1, None); (4, None); (2, Some InvalidMoveToDescendant); (0, None); (3, None); (5, None)] /\ length (w_rows W) = 9.
Proof. split; [repeat constructor; cbn; intuition lia|]. split; [cbn; lia|]. split; [|split]; vm_compute; reflexivity. Qed.

(** add_child, add_sibling, move and delete in different trees, at any position that makes no
    root, with and without node_order_by, with the statements in any order: the outcome is that
    of the calls in the order in which they ended, with the same exceptions, and the table stores
    the forest of the specification; the transactions can always finish. What is missing: calls
    that make roots, without node_order_by ([C74_roots_refuted]); with it see [C74_sorted_trees]. *)
Theorem C74_trees_partial o t F (calls : list call) schedule fuel : stores o t F -> (o <> [] -> Forall (call_values o) calls) ->
  no_roots_made F calls -> other_trees F calls ->
  NoDup (flat_map new_ids calls) -> (forall i, In i (flat_map new_ids calls) -> ~ In i (ids F)) ->
  length t + length (flat_map new_ids calls) + 2 <= fuel ->
  let W := play a_pk al_same (all_begin t (map (al_tx fuel o) calls)) schedule in
  one_by_one (al_exec o) calls t (map fst (w_log W)) = (w_rows W, w_log W) /\ NoDup (map fst (w_log W)) /\
  stores o (w_rows W) (fold_left (sp_call o) (succeeded calls (w_log W)) F) /\
  (finished W = true -> Permutation (map fst (w_log W)) (seq 0 (length calls))) /\
  exists schedule', finished (play a_pk al_same W schedule') = true.
Proof.
  intros H1 H2 H3 H4 H5 H6 H7 W.
  apply (al_all_different_trees fuel o t F calls schedule H1 H2); try assumption.
  - intros c i Hc. apply ConcNSTrees.below_names. apply (no_roots_below F calls c H3 Hc).
  - intros _ c Hc. exact (no_roots_below F calls c H3 Hc).
Qed.

(** With node_order_by: all calls, also those that make roots. *)
Theorem C74_sorted_trees o t F (calls : list call) schedule fuel : o <> [] -> stores o t F -> Forall (call_values o) calls ->
  (forall c i, In c calls -> In i (match c with CAddRoot _ => [] | CAddChild k _ => [k] | CAddSibling k _ _ => [k] | CMove n q _ => [n; q] | CDelete l => l end) -> In i (ids F)) ->
  other_trees F calls ->
  NoDup (flat_map new_ids calls) -> (forall i, In i (flat_map new_ids calls) -> ~ In i (ids F)) ->
  length t + length (flat_map new_ids calls) + 2 <= fuel ->
  let W := play a_pk al_same (all_begin t (map (al_tx fuel o) calls)) schedule in
  one_by_one (al_exec o) calls t (map fst (w_log W)) = (w_rows W, w_log W) /\ NoDup (map fst (w_log W)) /\
  stores o (w_rows W) (fold_left (sp_call o) (succeeded calls (w_log W)) F) /\
  (finished W = true -> Permutation (map fst (w_log W)) (seq 0 (length calls))) /\
  exists schedule', finished (play a_pk al_same W schedule') = true.
Proof.
  intros No H1 H2 H3 H4 H5 H6 H7 W.
  apply (al_all_different_trees fuel o t F calls schedule H1 (fun _ => H2)); try assumption.
  intros X. congruence.
Qed.

Example C74_trees_example :
  let W := play a_pk al_same (all_begin ex_t (map (al_tx 12 []) ex_moves)) zigzag in
  no_roots_made ex_F ex_moves /\ other_trees ex_F ex_moves /\ NoDup (flat_map new_ids ex_moves) /\ length ex_t + length (flat_map new_ids ex_moves) + 2 <= 12 /\
  finished W = true /\ w_log W = [(1, None); (0, None)] /\
  map (fun r => (a_pk r, a_parent r, a_sib r)) (w_rows W) =
  [(10, Some 6, 1%Z); (9, Some 2, 3%Z); (7, None, 1%Z); (6, Some 4, 1%Z); (5, Some 1, 2%Z); (4, Some 2, 1%Z); (3, Some 1, 3%Z); (2, None, 3%Z); (1, None, 2%Z)].
Proof.
  split; [apply no_roots_madeb_ok; vm_compute; reflexivity|]. split; [apply other_treesb_ok; vm_compute; reflexivity|].
  split; [constructor|]. split; [cbn; lia|]. split; [|split]; vm_compute; reflexivity.
Qed.

Example C74_sorted_example :
  let calls := [CMove 3 6 (Some "sorted-sibling"); CAddSibling 2 None (nd 20 4); CAddRoot (nd 21 9)]%string in
  let W := play a_pk al_same (all_begin so_t (map (al_tx 12 so) calls)) (flat_map (fun _ => [0; 1; 2]) (seq 0 12)) in
  Forall (call_values so) calls /\ other_trees so_F calls /\ NoDup (flat_map new_ids calls) /\ length so_t + length (flat_map new_ids calls) + 2 <= 12 /\
  finished W = true /\ w_log W = [(2, None); (1, None); (0, None)] /\
  map (fun r => (a_pk r, a_parent r)) (w_rows W) = [(20, None); (21, None); (6, None); (5, Some 1); (4, Some 1); (3, None); (2, None); (1, Some 6)].
Proof.
  split; [repeat constructor; cbn; try exact Logic.I; intros f d [E|[]]; injection E as <- _; discriminate|]. split; [apply other_treesb_ok; vm_compute; reflexivity|].
  split; [repeat constructor; cbn; intuition lia|]. split; [cbn; lia|]. split; [|split]; vm_compute; reflexivity.
Qed.

(** Two siblings with the same sib_order. *)
Lemma tie_not_stored t r s : In r t -> In s t -> a_parent r = a_parent s -> a_sib r = a_sib s -> a_pk r <> a_pk s ->
  ~ exists F, stores [] t F.
Proof.
  intros Hr Hs Ep Es N (F & W & _ & so & Fit & Inc). specialize (Inc eq_refl (a_parent r)). destruct Inc as [Ss _].
  destruct (fits_pk so t F W Fit r Hr) as (_ & _ & Kr & Er), (fits_pk so t F W Fit s Hs) as (_ & _ & Ks & Es'). rewrite <- Ep in Ks.
  assert (E : so (nid (row_node r)) = so (nid (row_node s))) by (cbn; congruence).
  assert (N' : nid (row_node r) <> nid (row_node s)) by (cbn; auto).
  revert Kr Ks E N'. generalize (row_node r) (row_node s) (kl (a_parent r) F) Ss. clear. intros a b L Ss Ha Hb E N.
  induction Ss as [|x L Ss IH Hx]; [destruct Ha|]. rewrite Forall_forall in Hx.
  destruct Ha as [->|Ha], Hb as [->|Hb]; auto; [apply Hx in Hb|apply Hx in Ha]; lia.
Qed.

(** Without node_order_by two new roots can get the same sib_order: nothing says which comes first. *)
Theorem C74_roots_refuted : exists t F calls schedule, stores [] t F /\ other_trees F calls /\ NoDup (flat_map new_ids calls) /\
  (forall i, In i (flat_map new_ids calls) -> ~ In i (ids F)) /\
  calls = [CMove 5 7 (Some "right"); CAddSibling 2 (Some "last-sibling") (nd 20 4); CAddRoot (nd 21 4)]%string /\
  let W := play a_pk al_same (all_begin t (map (al_tx 12 []) calls)) schedule in
  finished W = true /\ w_log W = [(2, None); (1, None); (0, None)] /\
  map (fun r => (a_pk r, a_sib r)) (filter (fun r => par_eqb (a_parent r) None) (w_rows W)) = [(20, 5%Z); (21, 5%Z); (7, 1%Z); (5, 2%Z); (2, 4%Z); (1, 3%Z)] /\
  ~ exists F', stores [] (w_rows W) F'.
Proof.
  exists ex_t, ex_F, [CMove 5 7 (Some "right"); CAddSibling 2 (Some "last-sibling") (nd 20 4); CAddRoot (nd 21 4)]%string, (flat_map (fun _ => [0; 1; 2]) (seq 0 20)).
  split; [apply ex_stores|]. split; [apply other_treesb_ok; vm_compute; reflexivity|]. split; [repeat constructor; cbn; intuition lia|].
  split; [intros i [<-|[<-|[]]]; vm_compute; intuition lia|]. split; [reflexivity|].
  split; [vm_compute; reflexivity|]. split; [vm_compute; reflexivity|]. split; [vm_compute; reflexivity|].
  match goal with |- context [play ?a ?b ?c ?d] => set (W := play a b c d) end.
  apply (tie_not_stored (w_rows W) (row (w_rows W) 20) (row (w_rows W) 21)); vm_compute; auto 20; discriminate.
Qed.

(** In one tree two moves can make a cycle, and the reads of ancestors do not end. *)
Theorem C74_one_tree_refuted : exists t F calls schedule, stores [] t F /\ no_roots_made F calls /\
  let W := play a_pk al_same (all_begin t (map (al_tx 12 []) calls)) schedule in
  finished W = true /\ w_log W = [(0, None); (1, None)] /\
  (exists r s, In r (w_rows W) /\ In s (w_rows W) /\ a_parent r = Some (a_pk s) /\ a_parent s = Some (a_pk r)) /\
  ~ exists F', stores [] (w_rows W) F'.
Proof.
  exists ex_t, ex_F, [CMove 4 9 (Some "last-child"); CMove 9 4 (Some "first-child")]%string, (flat_map (fun _ => [0; 1]) (seq 0 20)).
  split; [apply ex_stores|]. split; [apply no_roots_madeb_ok; vm_compute; reflexivity|]. cbv zeta.
  match goal with |- context [play ?a ?b ?c ?d] => set (W := play a b c d) end.
  split; [vm_compute; reflexivity|]. split; [vm_compute; reflexivity|].
  assert (R2 : In (row (w_rows W) 4) (w_rows W) /\ a_pk (row (w_rows W) 4) = 4 /\ a_parent (row (w_rows W) 4) = Some 9 /\
    get_ancestors (w_rows W) (row (w_rows W) 4) = Err OutOfFuel) by (vm_compute; auto 20).
  assert (R3 : In (row (w_rows W) 9) (w_rows W) /\ a_pk (row (w_rows W) 9) = 9 /\ a_parent (row (w_rows W) 9) = Some 4) by (vm_compute; auto 20).
  clearbody W. destruct R2 as (Hr & Er & Pr & Ar), R3 as (Hs & Es & Ps). split.
  - exists (row (w_rows W) 4), (row (w_rows W) 9). rewrite Er, Es. auto.
  - intros [F' (Wf & _ & so' & Fit & _)].
    destruct (ALReads.read_ancestors so' (w_rows W) F' Wf Fit _ Hr) as (l & A & El & _). congruence.
Qed.

Print Assumptions C74_serial.
Print Assumptions C74_trees_partial.
Print Assumptions C74_sorted_trees.
Print Assumptions C74_roots_refuted.
Print Assumptions C74_one_tree_refuted.
