(** Theorems about overlapping calls in different trees (C67). *)
From Coq Require Import String List Arith Lia Bool ZArith Permutation.
From Verif Require Import Prelude Forest CommonModel Order History Fixture ConcModel ConcRun ConcAlone ConcCalls ConcTrees ConcTreesPath.
From Verif Require MPModel MPInv MPHist PropsMP NSModel NSHist NSInv PropsNS LTModel LTInv LTHist PropsLT.
Import ListNotations.
Local Open Scope list_scope.
Local Open Scope nat_scope.

(** The nodes that the calls name are in the forest. *)
Definition all_named (F : forest node) (calls : list call) : Prop :=
  Forall (fun c => match c with
                   | CAddChild k _ => In k (ids F)
                   | CDelete l => forall i, In i l -> In i (ids F)
                   | _ => False
                   end) calls.

(** No two calls name nodes of the same tree ([tree_of]: the root above a node). *)
Definition other_trees (F : forest node) (calls : list call) : Prop :=
  forall i j c d, i <> j -> nth_error calls i = Some c -> nth_error calls j = Some d ->
  let named c := match c with CAddRoot _ => [] | CAddChild k _ => [k] | CAddSibling k _ _ => [k] | CMove n q _ => [n; q] | CDelete l => l end in
  forall a b, In a (named c) -> In b (named d) -> tree_of a F <> tree_of b F.

(** What [tree_of] says. *)
Example tree_of_example : map (fun i => tree_of i ex_F) [7; 1; 3; 5; 2; 4; 6; 9; 10; 8] =
  [Some 7; Some 1; Some 1; Some 1; Some 2; Some 2; Some 2; Some 2; Some 2; None].
Proof. reflexivity. Qed.

Lemma all_in F calls c : all_named F calls -> In c calls -> in_tree F c.
Proof. unfold all_named. rewrite Forall_forall. intros H Hc. specialize (H c Hc). destruct c; exact H. Qed.

(** A decision procedure for the examples. *)
Definition other_treesb (F : forest node) (calls : list call) : bool :=
  forallb (fun i => forallb (fun j => (i =? j) ||
    match nth_error calls i, nth_error calls j with
    | Some c, Some d => forallb (fun a => forallb (fun b => match tree_of a F, tree_of b F with Some x, Some y => negb (x =? y) | _, _ => false end) (names d)) (names c)
    | _, _ => true
    end) (seq 0 (length calls))) (seq 0 (length calls)).
Lemma other_treesb_ok F calls : other_treesb F calls = true -> other_trees F calls.
Proof.
  unfold other_treesb. rewrite forallb_forall. intros H i j c d N Hc Hd named a b Ha Hb E. unfold named in *. clear named.
  assert (Li : In i (seq 0 (length calls))) by (apply in_seq; split; [lia|]; apply nth_error_Some; congruence).
  assert (Lj : In j (seq 0 (length calls))) by (apply in_seq; split; [lia|]; apply nth_error_Some; congruence).
  specialize (H i Li). rewrite forallb_forall in H. specialize (H j Lj). rewrite Hc, Hd in H. apply orb_true_iff in H.
  destruct H as [H|H]; [apply Nat.eqb_eq in H; contradiction|]. rewrite forallb_forall in H. specialize (H a Ha). rewrite forallb_forall in H. specialize (H b Hb).
  rewrite E in H. destruct (tree_of b F); [|discriminate]. rewrite Nat.eqb_refl in H. discriminate.
Qed.

(** ** Materialized paths *)
Section MP.
Import MPModel MPInv MPHist PropsMP.

(** add_child, with and without node_order_by, and delete in different trees, with the statements
    in any order: the outcome is that of the calls in the order in which they ended, with the same
    exceptions; the table stores the forest of the specification; the transactions can always
    finish. *)
Theorem C67_mp cfg t F (calls : list call) schedule :
  2 <= radix cfg -> 1 <= steplen cfg -> stores cfg t F -> ordered (order_by cfg) F ->
  (order_by cfg <> [] -> Forall (call_values (order_by cfg)) calls) ->
  all_named F calls -> other_trees F calls ->
  NoDup (flat_map new_ids calls) -> (forall i, In i (flat_map new_ids calls) -> ~ In i (ids F)) ->
  let tx c := match c with CAddChild k x => mp_add_child cfg k x | CDelete l => mp_delete cfg l | _ => Commit end in
  let exec t c := do db <- mp_exec cfg (mkDB t []) c; Ok (db_rows db) in
  let W := play m_pk mp_same (all_begin t (map tx calls)) schedule in
  let G := fold_left (sp_call (order_by cfg)) (succeeded calls (w_log W)) F in
  one_by_one exec calls t (map fst (w_log W)) = (w_rows W, w_log W) /\ NoDup (map fst (w_log W)) /\
  stores cfg (w_rows W) G /\ ordered (order_by cfg) G /\
  (finished W = true -> Permutation (map fst (w_log W)) (seq 0 (length calls))) /\
  exists schedule', finished (play m_pk mp_same W schedule') = true.
Proof.
  intros H1 H2 H3 H4 H5 H6 H7 H8 H9 tx exec W G.
  assert (Et : map tx calls = map (tx_of cfg) calls).
  { apply map_ext_in. intros c Hc. assert (I := all_in F calls c H6 Hc). destruct c; try (destruct I; fail); reflexivity. }
  destruct (mp_different_trees cfg H1 H2 t F calls schedule H3 H4 H5 (fun c => all_in F calls c H6) H8 H9 H7) as (A & B & (C1 & C2) & E).
  rewrite <- Et in A, B, C1, C2, E. fold W in A, B, C1, C2, E. fold G in C1, C2.
  split; [exact A|]. auto.
Qed.

Definition so_calls : list call := [CAddChild 6 (nd 20 9); CAddChild 2 (nd 21 0)].
Example C67_mp_example :
  let tx c := match c with CAddChild k x => mp_add_child s10 k x | CDelete l => mp_delete s10 l | _ => Commit end in
  let W := play m_pk mp_same (all_begin (db_rows so_db) (map tx so_calls)) [1;0;0;1;0;1;0;1;0;0;1;0;1;0;0;0;1;0;0;1;0;0;0;0;0] in
  Forall (call_values (order_by s10)) so_calls /\ all_named so_F so_calls /\ other_trees so_F so_calls /\ NoDup (flat_map new_ids so_calls) /\
  finished W = true /\ map (fun r => (m_pk r, m_path r, m_nc r)) (get_tree (w_rows W) None None) =
  [(2, [0; 1], 1); (21, [0; 1; 0; 1], 0); (6, [0; 2], 3); (1, [0; 2; 0; 1], 2); (4, [0; 2; 0; 1; 0; 1], 0); (5, [0; 2; 0; 1; 0; 2], 0); (20, [0; 2; 0; 2], 0); (3, [0; 2; 0; 3], 0)].
Proof.
  split; [repeat constructor; cbn; intros f d [E|[]]; injection E as <- _; discriminate|].
  split; [repeat constructor; vm_compute; tauto|]. split; [apply other_treesb_ok; vm_compute; reflexivity|].
  split; [repeat constructor; cbn; intuition lia|]. split; vm_compute; reflexivity.
Qed.

Definition ex_mix : list call := [CAddChild 7 (nd 20 4); CDelete [3; 1]; CAddChild 9 (nd 21 0)].
Example C67_mp_mixed_example :
  let tx c := match c with CAddChild k x => mp_add_child c10 k x | CDelete l => mp_delete c10 l | _ => Commit end in
  let W := play m_pk mp_same (all_begin (db_rows ex_db) (map tx ex_mix)) [2;1;0;2;0;1;0;2;1;0;2;1;0;1;2;1;2;0;0;1;2;0;1;2] in
  all_named ex_F ex_mix /\ other_trees ex_F ex_mix /\ NoDup (flat_map new_ids ex_mix) /\
  finished W = true /\ map (fun r => (m_pk r, m_path r, m_nc r)) (get_tree (w_rows W) None None) =
  [(7, [0; 1], 1); (20, [0; 1; 0; 1], 0); (2, [0; 3], 2); (4, [0; 3; 0; 1], 1); (6, [0; 3; 0; 1; 0; 1], 0); (9, [0; 3; 0; 3], 2); (10, [0; 3; 0; 3; 0; 1], 0); (21, [0; 3; 0; 3; 0; 2], 0)].
Proof.
  split; [repeat apply Forall_cons; try apply Forall_nil; vm_compute; intuition lia|]. split; [apply other_treesb_ok; vm_compute; reflexivity|].
  split; [repeat constructor; cbn; intuition lia|]. split; vm_compute; reflexivity.
Qed.
End MP.

(** ** Nested sets *)
Section NS.
Import NSModel NSInv NSHist PropsNS.

(** As [C67_mp], without node_order_by. *)
Theorem C67_ns t F (calls : list call) schedule : stores t F ->
  all_named F calls -> other_trees F calls ->
  NoDup (flat_map new_ids calls) -> (forall i, In i (flat_map new_ids calls) -> ~ In i (ids F)) ->
  let tx c := match c with CAddChild k x => ns_add_child k x | CDelete l => ns_delete l | _ => Commit end in
  let exec t c := do db <- ns_exec [] (mkNSDB t []) c; Ok (ns_rows db) in
  let W := play n_pk ns_same (all_begin t (map tx calls)) schedule in
  one_by_one exec calls t (map fst (w_log W)) = (w_rows W, w_log W) /\ NoDup (map fst (w_log W)) /\
  stores (w_rows W) (fold_left (sp_call []) (succeeded calls (w_log W)) F) /\
  (finished W = true -> Permutation (map fst (w_log W)) (seq 0 (length calls))) /\
  exists schedule', finished (play n_pk ns_same W schedule') = true.
Proof.
  intros H3 H6 H7 H8 H9 tx exec W.
  assert (Et : map tx calls = map ns_tx_of calls).
  { apply map_ext_in. intros c Hc. assert (I := all_in F calls c H6 Hc). destruct c; try (destruct I; fail); reflexivity. }
  unfold W. rewrite Et. exact (ns_different_trees t F calls schedule H3 (fun c => all_in F calls c H6) H8 H9 H7).
Qed.

Example C67_ns_example :
  let tx c := match c with CAddChild k x => ns_add_child k x | CDelete l => ns_delete l | _ => Commit end in
  let W := play n_pk ns_same (all_begin (ns_rows ex_db) (map tx ex_mix)) [2;1;0;2;0;1;0;2;1;0;2;1;0;1;2;1;2;0;0;1;2;0;1;2] in
  all_named ex_F ex_mix /\ other_trees ex_F ex_mix /\ NoDup (flat_map new_ids ex_mix) /\
  finished W = true /\ map (fun r => (n_pk r, n_tree r, n_lft r, n_rgt r)) (order_rows (w_rows W)) =
  [(7, 1%Z, 1%Z, 4%Z); (20, 1%Z, 2%Z, 3%Z); ( 2, 3%Z, 1%Z, 12%Z); (4, 3%Z, 2%Z, 5%Z); ( 6, 3%Z, 3%Z, 4%Z); (9, 3%Z, 6%Z, 11%Z); ( 10, 3%Z, 7%Z, 8%Z); (21, 3%Z, 9%Z, 10%Z)].
Proof.
  split; [repeat apply Forall_cons; try apply Forall_nil; vm_compute; intuition lia|]. split; [apply other_treesb_ok; vm_compute; reflexivity|].
  split; [repeat constructor; cbn; intuition lia|]. split; vm_compute; reflexivity.
Qed.
End NS.

(** ** Ltree *)
Section LT.
Import LTModel LTInv LTHist PropsLT.

(** As [C67_mp], without node_order_by. *)
Theorem C67_lt cfg t F (calls : list call) schedule :
  2 <= label_max cfg -> lt_order cfg = [] -> stores cfg t F ->
  all_named F calls -> other_trees F calls ->
  NoDup (flat_map new_ids calls) -> (forall i, In i (flat_map new_ids calls) -> ~ In i (ids F)) ->
  let tx c := match c with CAddChild k x => lt_add_child cfg k x | CDelete l => lt_delete l | _ => Commit end in
  let exec t c := do db <- lt_exec cfg (mkLTDB t []) c; Ok (lt_rows db) in
  let W := play l_pk lt_same (all_begin t (map tx calls)) schedule in
  one_by_one exec calls t (map fst (w_log W)) = (w_rows W, w_log W) /\ NoDup (map fst (w_log W)) /\
  stores cfg (w_rows W) (fold_left (sp_call []) (succeeded calls (w_log W)) F) /\
  (finished W = true -> Permutation (map fst (w_log W)) (seq 0 (length calls))) /\
  exists schedule', finished (play l_pk lt_same W schedule') = true.
Proof.
  intros H1 H2 H3 H6 H7 H8 H9 tx exec W.
  assert (Et : map tx calls = map (lt_tx_of cfg) calls).
  { apply map_ext_in. intros c Hc. assert (I := all_in F calls c H6 Hc). destruct c; try (destruct I; fail); reflexivity. }
  unfold W. rewrite Et. exact (lt_different_trees cfg H2 H1 t F calls schedule H3 (fun c => all_in F calls c H6) H8 H9 H7).
Qed.

Example C67_lt_example :
  let tx c := match c with CAddChild k x => lt_add_child c0 k x | CDelete l => lt_delete l | _ => Commit end in
  let W := play l_pk lt_same (all_begin (lt_rows ex_db) (map tx ex_mix)) [2;1;0;2;0;1;0;2;1;0;2;1;0;1;2;1;2;0;0;1;2;0;1;2] in
  all_named ex_F ex_mix /\ other_trees ex_F ex_mix /\ NoDup (flat_map new_ids ex_mix) /\
  finished W = true /\ map (fun r => (l_pk r, l_path r)) (order_path (w_rows W)) =
  [(7, [[0]]); (20, [[0]; [10]]); (2, [[11]]); ( 4, [[11]; [10]]); (6, [[11]; [10]; [10]]); ( 9, [[11]; [12]]); (10, [[11]; [12]; [10]]); ( 21, [[11]; [12]; [11]])].
Proof.
  split; [repeat apply Forall_cons; try apply Forall_nil; vm_compute; intuition lia|]. split; [apply other_treesb_ok; vm_compute; reflexivity|].
  split; [repeat constructor; cbn; intuition lia|]. split; vm_compute; reflexivity.
Qed.
End LT.

Print Assumptions C67_mp.
Print Assumptions C67_ns.
Print Assumptions C67_lt.
