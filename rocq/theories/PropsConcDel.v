(** Theorems about deletions that overlap (C66). *)
From Coq Require Import String List Arith Lia Bool ZArith Permutation.
From Verif Require Import Prelude Forest CommonModel Order History Fixture ConcModel ConcRun ConcAlone ConcCalls ConcDelMP ConcDelAL ConcTrees.
From Verif Require MPModel MPInv MPHist PropsMP NSModel NSHist NSInv PropsNS ALModel ALInv ALHist PropsAL LTModel LTInv LTHist PropsLT.
Import ListNotations.
Local Open Scope list_scope.
Local Open Scope nat_scope.

(** When every transaction waits, nothing happens any more. *)
Lemma all_wait R (pk : R -> nat) same (W : world R) : (forall i, step pk same W i = W) -> forall schedule, play pk same W schedule = W.
Proof. intros H. induction schedule as [|i s IH]; auto. cbn. unfold play in IH. rewrite H. exact IH. Qed.

(** ** Materialized paths *)
Section MP.
Import MPModel MPInv MPHist PropsMP.

(** Deletions of lists that have no node in common, whatever the statements of the others that come
    between: all succeed, the table is what the calls in the order of the commits leave, and it stores the
    forest without the named nodes and what is below them. One list may name nodes below those of
    another. What is missing: lists that have a node in common ([C66_mp_twice_refuted]), and that the
    transactions finish ([C66_mp_stuck_refuted]). *)
Theorem C66_mp_partial cfg t F (lists : list (list nat)) schedule :
  2 <= radix cfg -> 1 <= steplen cfg -> stores cfg t F ->
  (forall i j c d, i <> j -> nth_error lists i = Some c -> nth_error lists j = Some d -> forall k, In k c -> ~ In k d) ->
  let exec t l := do db <- mp_exec cfg (mkDB t []) (CDelete l); Ok (db_rows db) in
  let W := play m_pk mp_same (all_begin t (map (mp_delete cfg) lists)) schedule in
  one_by_one exec lists t (map fst (w_log W)) = (w_rows W, w_log W) /\ NoDup (map fst (w_log W)) /\
  Forall (fun e => snd e = None) (w_log W) /\
  stores cfg (w_rows W) (fold_left (fun F l => remove_all (fun i => existsb (Nat.eqb i) l) F) (succeeded lists (w_log W)) F) /\
  (finished W = true -> Permutation (map fst (w_log W)) (seq 0 (length lists))).
Proof. intros H1 H2 H3 H4. exact (mp_deletes cfg H1 H2 t F lists schedule H3 H4). Qed.

(** The node 3 goes before the second transaction looks for the descendants of 1; the counter of 1 is
    lowered and then the row goes. *)
Example C66_mp_example :
  let lists := [[3; 6]; [1]; [9]] in
  let W := play m_pk mp_same (all_begin (db_rows ex_db) (map (mp_delete c10) lists)) [1; 2; 0; 0; 2; 0; 1; 0; 0; 0; 0; 0; 2; 2; 2; 2; 1; 1; 1; 1; 2; 2; 1; 1; 1] in
  (forall i j c d, i <> j -> nth_error lists i = Some c -> nth_error lists j = Some d -> forall k, In k c -> ~ In k d) /\
  finished W = true /\ map (fun r => (m_pk r, m_path r, m_nc r)) (w_rows W) = [(7, [0; 1], 0); (4, [0; 3; 0; 1], 0); (2, [0; 3], 1)].
Proof.
  split; [|vm_compute; auto].
  intros [|[|[|i]]] [|[|[|j]]] c d N Hc Hd k; cbn in Hc, Hd; try (destruct i; discriminate); try (destruct j; discriminate);
    try lia; injection Hc as <-; injection Hd as <-; cbn; intuition lia.
Qed.

(** The same node deleted by two transactions, the second of which read it before the first one
    committed: both succeed and lower the counter of the parent, node 1, which then has a child and
    the counter of a leaf. *)
Theorem C66_mp_twice_refuted : exists cfg t F lists schedule,
  2 <= radix cfg /\ 1 <= steplen cfg /\ stores cfg t F /\
  let W := play m_pk mp_same (all_begin t (map (mp_delete cfg) lists)) schedule in
  finished W = true /\ Forall (fun e => snd e = None) (w_log W) /\
  exists p c, In p (w_rows W) /\ In c (w_rows W) /\ m_nc p = 0 /\ m_depth c = m_depth p + 1 /\ firstn (length (m_path p)) (m_path c) = m_path p.
Proof.
  exists c10, (db_rows ex_db), ex_F, [[3]; [3]], [0;1;0;0;0;0;0;0;1;1;1;1;1;1].
  split; [cbn; lia|]. split; [cbn; lia|]. split; [apply ex_stores|]. split; [vm_compute; auto|]. split; [vm_compute; auto|].
  exists (mkMP 1 [0; 2] 1 0 (m_data (row ex_db 1))), (mkMP 5 [0; 2; 0; 2] 2 0 (m_data (row ex_db 5))).
  vm_compute. intuition auto 20.
Qed.

(** Two deletions of lists that wait for each other: whatever runs next, neither commits. *)
Theorem C66_mp_stuck_refuted : exists cfg t F lists schedule,
  2 <= radix cfg /\ 1 <= steplen cfg /\ stores cfg t F /\
  let W := play m_pk mp_same (all_begin t (map (mp_delete cfg) lists)) schedule in
  finished W = false /\ forall schedule', w_log (play m_pk mp_same W schedule') = [].
Proof.
  exists c10, (db_rows ex_db), ex_F, [[1; 4]; [2; 3]], [0;1;0;0;1;1;0;0;1;1;0;0;1;1].
  split; [cbn; lia|]. split; [cbn; lia|]. split; [apply ex_stores|]. intros W. split; [vm_compute; reflexivity|].
  intros s. rewrite all_wait; [vm_compute; reflexivity|].
  intros [|[|i]]; [vm_compute; reflexivity|vm_compute; reflexivity|].
  unfold step. replace (nth_error (w_txs W) (S (S i))) with (@None (option (tx mprow))); auto. vm_compute. destruct i; reflexivity.
Qed.
End MP.

(** ** Nested sets *)
Section NS.
Import NSModel NSInv NSHist PropsNS.

(** The deletions read the numbers of the rows without locking them. One is done when the numbers that
    the other one has read are out of date: the table is not that of any forest any more. *)
Theorem C66_ns_refuted : exists t F lists schedule, stores t F /\
  let W := play n_pk ns_same (all_begin t (map ns_delete lists)) schedule in
  finished W = true /\ Forall (fun e => snd e = None) (w_log W) /\ (forall F', ~ stores (w_rows W) F') /\
  forall i j c d, i <> j -> nth_error lists i = Some c -> nth_error lists j = Some d -> forall k, In k c -> ~ In k d.
Proof.
  exists (ns_rows ex_db), ex_F, [[4]; [9]], [0;1;0;0;0;0;0;0;0;1;1;1;1;1;1;1]. split; [apply ex_stores|].
  split; [vm_compute; reflexivity|]. split; [vm_compute; auto|]. split.
  - intros F' St. apply C21_no_false_alarm in St. destruct St as [St _]. revert St. vm_compute. discriminate.
  - intros [|[|i]] [|[|j]] c d N Hc Hd k; cbn in Hc, Hd; try (destruct i; discriminate); try (destruct j; discriminate);
      try lia; injection Hc as <-; injection Hd as <-; cbn; intuition lia.
Qed.

(** Deleting the nodes 4 and 6, below 4, at once deletes the node 10 as well, which is below neither. *)
Theorem C66_ns_other_refuted : exists t F lists schedule i, stores t F /\
  let W := play n_pk ns_same (all_begin t (map ns_delete lists)) schedule in
  finished W = true /\ Forall (fun e => snd e = None) (w_log W) /\
  In i (ids (fold_left (fun F l => remove_all (fun i => existsb (Nat.eqb i) l) F) lists F)) /\ ~ In i (map n_pk (w_rows W)).
Proof.
  exists (ns_rows ex_db), ex_F, [[4]; [6]], [0;1;0;0;0;0;0;0;0;1;1;1;1;1;1;1], 10. split; [apply ex_stores|].
  split; [vm_compute; reflexivity|]. split; [vm_compute; auto|]. split; [vm_compute; auto 10|]. vm_compute. intuition lia.
Qed.

(** Deletions in different trees: as [C66_mp_partial], and the transactions can always finish. What is
    missing: deletions in the same tree. *)
Theorem C66_ns_partial t F (lists : list (list nat)) schedule : stores t F ->
  (forall l i, In l lists -> In i l -> In i (ids F)) ->
  (forall i j c d, i <> j -> nth_error lists i = Some c -> nth_error lists j = Some d ->
     forall a b, In a c -> In b d -> tree_of a F <> tree_of b F) ->
  let exec t l := do db <- ns_exec [] (mkNSDB t []) (CDelete l); Ok (ns_rows db) in
  let W := play n_pk ns_same (all_begin t (map ns_delete lists)) schedule in
  one_by_one exec lists t (map fst (w_log W)) = (w_rows W, w_log W) /\ NoDup (map fst (w_log W)) /\
  stores (w_rows W) (fold_left (fun F l => remove_all (fun i => existsb (Nat.eqb i) l) F) (succeeded lists (w_log W)) F) /\
  (finished W = true -> Permutation (map fst (w_log W)) (seq 0 (length lists))) /\
  exists schedule', finished (play n_pk ns_same W schedule') = true.
Proof.
  intros St Hi Ap exec W.
  destruct (ns_different_trees t F (map CDelete lists) schedule St) as (H1 & H2 & H3 & H4 & H5).
  - intros c Hc. apply in_map_iff in Hc. destruct Hc as (l & <- & Hl). cbn. eauto.
  - replace (flat_map new_ids (map CDelete lists)) with (@nil nat) by (clear; induction lists; auto). constructor.
  - replace (flat_map new_ids (map CDelete lists)) with (@nil nat) by (clear; induction lists; auto). intros i [].
  - intros i j c d N Hc Hd. rewrite nth_error_map in Hc, Hd.
    destruct (nth_error lists i) as [l1|] eqn:E1; [|discriminate]. destruct (nth_error lists j) as [l2|] eqn:E2; [|discriminate].
    injection Hc as <-. injection Hd as <-. exact (Ap i j l1 l2 N E1 E2).
  - rewrite map_map in H1, H2, H3, H4, H5. change (map (fun x => ns_tx_of (CDelete x)) lists) with (map ns_delete lists) in *. fold W in H1, H2, H3, H4, H5.
    assert (O : forall order t, one_by_one ns_call_exec (map CDelete lists) t order = one_by_one exec lists t order).
    { induction order as [|i order IH]; intros t'; auto. cbn [one_by_one]. rewrite nth_error_map. destruct (nth_error lists i); cbn [option_map]; auto.
      unfold ns_call_exec at 1. fold (exec t' l). destruct (exec t' l); rewrite IH; auto. }
    split; [rewrite <- O; exact H1|]. split; auto. split; [|split; [rewrite map_length in H4; exact H4|exact H5]].
    revert H3. replace (succeeded (map CDelete lists) (w_log W)) with (map CDelete (succeeded lists (w_log W))).
    + generalize (succeeded lists (w_log W)). intros ls. generalize F. induction ls as [|l ls IH]; intros F0; [exact (fun x => x)|]. exact (IH (sp_call [] F0 (CDelete l))).
    + unfold succeeded. clear. induction (w_log W) as [|[i [e|]] lg IH]; cbn [flat_map fst snd app]; [auto|exact IH|].
      rewrite nth_error_map. destruct (nth_error lists i); cbn [option_map app map]; [|auto]. rewrite <- IH. auto.
Qed.

Example C66_ns_example :
  let lists := [[3]; [9; 6]; [7]] in
  let W := play n_pk ns_same (all_begin (ns_rows ex_db) (map ns_delete lists)) [1; 2; 0; 0; 2; 0; 1; 0; 0; 0; 1; 1; 1; 2; 2; 1; 2; 2; 1; 1; 1; 1; 2; 2; 1; 1; 1] in
  (forall i j c d, i <> j -> nth_error lists i = Some c -> nth_error lists j = Some d ->
     forall a b, In a c -> In b d -> tree_of a ex_F <> tree_of b ex_F) /\
  finished W = true /\ map (fun r => (n_pk r, n_tree r, n_lft r, n_rgt r)) (w_rows W) = [(5, 2%Z, 2%Z, 3%Z); (4, 3%Z, 2%Z, 3%Z); (2, 3%Z, 1%Z, 4%Z); (1, 2%Z, 1%Z, 4%Z)].
Proof.
  split; [|vm_compute; auto].
  intros [|[|[|i]]] [|[|[|j]]] c d N Hc Hd a b; cbn in Hc, Hd; try (destruct i; discriminate); try (destruct j; discriminate);
    try lia; injection Hc as <-; injection Hd as <-; cbn [In]; intros Ha Hb;
    repeat match goal with H : _ \/ _ |- _ => destruct H as [<-|H] | H : False |- _ => destruct H end; vm_compute; discriminate.
Qed.
End NS.

(** ** Adjacency lists *)
Section AL.
Import ALModel ALInv ALHist PropsAL.

(** Deletions of any lists, also with nodes in common: they all succeed, the table is what the calls in the
    order of the commits leave, and the transactions can always finish. *)
Theorem C66_al o t F (lists : list (list nat)) schedule : stores o t F ->
  let exec t l := al_exec o t (CDelete l) in
  let W := play a_pk al_same (all_begin t (map al_delete lists)) schedule in
  one_by_one exec lists t (map fst (w_log W)) = (w_rows W, w_log W) /\ NoDup (map fst (w_log W)) /\
  Forall (fun e => snd e = None) (w_log W) /\
  stores o (w_rows W) (fold_left (fun F l => remove_all (fun i => existsb (Nat.eqb i) l) F) (succeeded lists (w_log W)) F) /\
  (finished W = true -> Permutation (map fst (w_log W)) (seq 0 (length lists))) /\
  exists schedule', finished (play a_pk al_same W schedule') = true.
Proof. intros St. exact (al_deletes o t F lists schedule St). Qed.

Example C66_al_example :
  let lists := [[2]; [4; 3]; [3; 2]] in
  let W := play a_pk al_same (all_begin ex_t (map al_delete lists)) [0;1;2;0;0;2;1;1;0;0;0;1;0;2;0;1;0;0;2;0;0;0;1;1;1;1;1;1;1;2;2;2;2;2;2] in
  stores [] ex_t ex_F /\ finished W = true /\ w_log W = [(0, None); (1, None); (2, None)] /\ map a_pk (w_rows W) = [7; 5; 1].
Proof. split; [apply ex_stores|]. vm_compute. auto. Qed.

(** One transaction after the other: the calls of al_tree.py. *)
Example C66_al_alone_example :
  forallb (fun l =>
    let W := play a_pk al_same (all_begin ex_t [al_delete l]) (repeat 0 20) in
    match al_exec [] ex_t (CDelete l) with
    | Ok t => MPModel.peq (map a_pk t) (map a_pk (w_rows W)) && finished W
    | Err _ => false
    end) [[7]; [2]; [4; 1]; [6; 2]; [99]; []; [1; 7; 2]] = true.
Proof. vm_compute. reflexivity. Qed.
End AL.

(** ** Ltree *)
Section LT.
Import LTModel LTInv LTHist PropsLT.

(** As [C66_al]. *)
Theorem C66_lt cfg t F (lists : list (list nat)) schedule : stores cfg t F ->
  let exec t l := do db <- lt_exec cfg (mkLTDB t []) (CDelete l); Ok (lt_rows db) in
  let W := play l_pk lt_same (all_begin t (map lt_delete lists)) schedule in
  one_by_one exec lists t (map fst (w_log W)) = (w_rows W, w_log W) /\ NoDup (map fst (w_log W)) /\
  Forall (fun e => snd e = None) (w_log W) /\
  stores cfg (w_rows W) (fold_left (fun F l => remove_all (fun i => existsb (Nat.eqb i) l) F) (succeeded lists (w_log W)) F) /\
  (finished W = true -> Permutation (map fst (w_log W)) (seq 0 (length lists))) /\
  exists schedule', finished (play l_pk lt_same W schedule') = true.
Proof. intros St. exact (lt_deletes cfg t F lists schedule St). Qed.

Example C66_lt_example :
  let lists := [[2]; [4; 3]; [3; 2]] in
  let W := play l_pk lt_same (all_begin (lt_rows ex_db) (map lt_delete lists)) [0;1;2;0;2;1;1;0;2;0;0;1;1;2;2;1;1;2;2;0;0;0;0] in
  stores c0 (lt_rows ex_db) ex_F /\ finished W = true /\ w_log W = [(1, None); (2, None); (0, None)] /\ map l_pk (w_rows W) = [7; 5; 1].
Proof. split; [apply ex_stores|]. vm_compute. auto. Qed.
End LT.

Print Assumptions C66_mp_partial.
Print Assumptions C66_mp_twice_refuted.
Print Assumptions C66_mp_stuck_refuted.
Print Assumptions C66_ns_refuted.
Print Assumptions C66_ns_other_refuted.
Print Assumptions C66_ns_partial.
Print Assumptions C66_al.
Print Assumptions C66_lt.
