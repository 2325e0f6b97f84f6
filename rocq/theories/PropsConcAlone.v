(** Theorems about transactions that run one after the other (C65). *)
From Coq Require Import String List Arith Lia Bool ZArith Permutation.
From Verif Require Import Prelude Forest CommonModel Order History Fixture ConcModel ConcRun ConcAlone ConcCalls.
From Verif Require MPModel MPInv MPHist PropsMP NSModel NSHist NSInv PropsNS ALModel ALInv ALHist PropsAL LTModel LTInv LTHist PropsLT.
Import ListNotations.
Local Open Scope list_scope.
Local Open Scope nat_scope.

(** ** Materialized paths *)
Section MP.
Import MPModel MPInv MPHist PropsMP.

(** The transactions of add_root, add_child (with and without node_order_by) and delete: the
    outcome of the calls one after the other, in any order and for any part of them, is the
    outcome of a schedule, with the same exceptions. *)
Theorem C65_mp cfg t F (calls : list call) order :
  2 <= radix cfg -> 1 <= steplen cfg -> stores cfg t F -> ordered (order_by cfg) F ->
  (order_by cfg <> [] -> Forall (call_values (order_by cfg)) calls) ->
  Forall (fun c => match c with CAddRoot _ | CAddChild _ _ | CDelete _ => True | _ => False end) calls ->
  NoDup (flat_map new_ids calls) -> (forall i, In i (flat_map new_ids calls) -> ~ In i (ids F)) ->
  NoDup order -> (forall i, In i order -> i < length calls) ->
  let tx c := match c with
              | CAddRoot x => mp_add_root cfg x
              | CAddChild k x => mp_add_child cfg k x
              | CDelete l => mp_delete cfg l
              | _ => Commit
              end in
  let exec t c := do db <- mp_exec cfg (mkDB t []) c; Ok (db_rows db) in
  exists schedule, let W := play m_pk mp_same (all_begin t (map tx calls)) schedule in
    (w_rows W, w_log W) = one_by_one exec calls t order /\
    forall i, i < length calls -> nth_error (w_txs W) i = Some None <-> In i order.
Proof.
  intros H1 H2 H3 H4 H5 H6 H7 H8 H9 H10 tx exec.
  assert (P : Forall (fun c => mp_prog cfg c <> None) calls).
  { eapply Forall_impl; [|exact H6]. intros c Hc. destruct c; cbn; try discriminate; destruct Hc. }
  replace (map tx calls) with (map (tx_of cfg) calls) by (apply map_ext; intros []; reflexivity).
  exact (mp_serial cfg H1 H2 t F calls order H3 H4 H5 P H7 H8 H9 H10).
Qed.

Definition mp_mix : list call := [CAddChild 6 (nd 20 7); CDelete [1]; CAddRoot (nd 21 4); CAddChild 99 (nd 22 0); CAddChild 3 (nd 23 1)].
Example C65_mp_example :
  let exec t c := do db <- mp_exec s10 (mkDB t []) c; Ok (db_rows db) in
  Forall (call_values (order_by s10)) mp_mix /\ NoDup (flat_map new_ids mp_mix) /\
  snd (one_by_one exec mp_mix (db_rows so_db) [2; 0; 3; 1]) = [(2, None); (0, None); (3, Some DoesNotExist); (1, None)] /\
  map (fun r => (m_pk r, m_path r, m_nc r)) (get_tree (fst (one_by_one exec mp_mix (db_rows so_db) [2; 0; 3; 1])) None None) =
  map (fun r => (m_pk r, m_path r, m_nc r)) (get_tree (w_rows (play m_pk mp_same (all_begin (db_rows so_db) (map (tx_of s10) mp_mix))
    (repeat 2 14 ++ repeat 0 14 ++ repeat 3 9 ++ repeat 1 9))) None None) /\
  length (fst (one_by_one exec mp_mix (db_rows so_db) [2; 0; 3; 1])) = 5.
Proof.
  split; [repeat constructor; cbn; try exact Logic.I; intros f d [E|[]]; injection E as <- _; discriminate|]. split; [repeat constructor; cbn; intuition lia|].
  split; [vm_compute; reflexivity|]. split; vm_compute; reflexivity.
Qed.
End MP.

(** ** Nested sets *)
Section NS.
Import NSModel NSInv NSHist PropsNS.

(** As [C65_mp], for add_root, add_child and delete without node_order_by. *)
Theorem C65_ns t F (calls : list call) order : stores t F ->
  Forall (fun c => match c with CAddRoot _ | CAddChild _ _ | CDelete _ => True | _ => False end) calls ->
  NoDup (flat_map new_ids calls) -> (forall i, In i (flat_map new_ids calls) -> ~ In i (ids F)) ->
  NoDup order -> (forall i, In i order -> i < length calls) ->
  let tx c := match c with CAddRoot x => ns_add_root x | CAddChild k x => ns_add_child k x | CDelete l => ns_delete l | _ => Commit end in
  let exec t c := do db <- ns_exec [] (mkNSDB t []) c; Ok (ns_rows db) in
  exists schedule, let W := play n_pk ns_same (all_begin t (map tx calls)) schedule in
    (w_rows W, w_log W) = one_by_one exec calls t order /\
    forall i, i < length calls -> nth_error (w_txs W) i = Some None <-> In i order.
Proof.
  intros H3 H6 H7 H8 H9 H10 tx exec.
  assert (P : Forall (fun c => ns_prog c <> None) calls).
  { eapply Forall_impl; [|exact H6]. intros c Hc. destruct c; cbn; try discriminate; destruct Hc. }
  replace (map tx calls) with (map ns_tx_of calls) by (apply map_ext; intros []; reflexivity).
  exact (ns_serial t F calls order H3 P H7 H8 H9 H10).
Qed.

Example C65_ns_example :
  let calls := [CAddChild 1 (nd 20 7); CAddRoot (nd 21 4); CAddChild 20 (nd 22 0); CDelete [3; 4; 6]] in
  let exec t c := do db <- ns_exec [] (mkNSDB t []) c; Ok (ns_rows db) in
  let W := play n_pk ns_same (all_begin (ns_rows ex_db) (map ns_tx_of calls)) (repeat 2 9 ++ repeat 1 9 ++ repeat 3 9 ++ repeat 0 9) in
  NoDup (flat_map new_ids calls) /\ one_by_one exec calls (ns_rows ex_db) [2; 1; 3; 0] = (w_rows W, w_log W) /\
  w_log W = [(2, Some DoesNotExist); (1, None); (3, None); (0, None)] /\ length (w_rows W) = 8.
Proof. split; [repeat constructor; cbn; intuition lia|]. split; [|split]; vm_compute; reflexivity. Qed.
End NS.

(** ** Adjacency lists *)
Section AL.
Import ALModel ALInv ALHist PropsAL.

(** As [C65_mp], for add_child and the move to sorted-child with node_order_by; the parents are
    there at the beginning. *)
Theorem C65_al o t F (calls : list call) order : stores o t F ->
  Forall (fun c => match c with
                   | CAddChild k _ => In k (ids F)
                   | CMove _ _ p => o <> [] /\ p = Some "sorted-child"%string
                   | _ => False
                   end) calls ->
  (o <> [] -> Forall (call_values o) calls) ->
  NoDup (flat_map new_ids calls) -> (forall i, In i (flat_map new_ids calls) -> ~ In i (ids F)) ->
  NoDup order -> (forall i, In i order -> i < length calls) ->
  let tx c := match c with CAddChild k x => al_add_child o k x | CMove n q _ => al_move_sorted o n q | _ => Commit end in
  exists schedule, let W := play a_pk al_same (all_begin t (map tx calls)) schedule in
    (w_rows W, w_log W) = one_by_one (al_exec o) calls t order /\
    forall i, i < length calls -> nth_error (w_txs W) i = Some None <-> In i order.
Proof.
  intros H3 H6 V H7 H8 H9 H10 tx.
  assert (So : o <> [] -> is_sorted o = true) by (destruct o; [congruence|reflexivity]).
  assert (P : Forall (fun c => al_prog o c <> None) calls).
  { eapply Forall_impl; [|exact H6]. intros c Hc. destruct c as [|k x| |n q p|]; cbn; try discriminate; try (destruct Hc; fail).
    destruct Hc as [No ->]. rewrite (So No). cbn. discriminate. }
  assert (K : forall k x, In (CAddChild k x) calls -> In k (ids F)).
  { intros k x Hk. rewrite Forall_forall in H6. apply (H6 _ Hk). }
  replace (map tx calls) with (map (al_tx_of o) calls).
  - exact (al_serial o t F calls order H3 P V K H7 H8 H9 H10).
  - apply map_ext_in. intros c Hc. rewrite Forall_forall in H6. specialize (H6 c Hc). destruct c as [|k x| |n q p|]; try reflexivity.
    destruct H6 as [No ->]. unfold al_tx_of, al_prog. rewrite (So No). reflexivity.
Qed.

Definition al_mix : list call :=
  [CMove 1 2 (Some "sorted-child"%string); CAddChild 1 (nd 20 7); CMove 6 4 (Some "sorted-child"%string); CMove 2 4 (Some "sorted-child"%string)].
Example C65_al_example :
  let W l := play a_pk al_same (all_begin so_t (map (al_tx_of so) al_mix)) l in
  Forall (call_values so) al_mix /\
  one_by_one (al_exec so) al_mix so_t [0; 3; 2; 1] =
    (w_rows (W (repeat 0 9 ++ repeat 3 9 ++ repeat 2 9 ++ repeat 1 9)), [(0, None); (3, Some InvalidMoveToDescendant); (2, None); (1, None)]) /\
  snd (one_by_one (al_exec so) al_mix so_t [3; 2; 0; 1]) = [(3, None); (2, Some InvalidMoveToDescendant); (0, Some InvalidMoveToDescendant); (1, None)].
Proof.
  split; [repeat constructor; cbn; try exact Logic.I; intros f d [E|[]]; injection E as <- _; discriminate|].
  split; vm_compute; reflexivity.
Qed.
End AL.

(** ** Ltree *)
Section LT.
Import LTModel LTInv LTHist PropsLT.

(** As [C65_mp], for add_child and delete without node_order_by. *)
Theorem C65_lt cfg t F (calls : list call) order :
  2 <= label_max cfg -> lt_order cfg = [] -> stores cfg t F ->
  Forall (fun c => match c with CAddChild _ _ | CDelete _ => True | _ => False end) calls ->
  NoDup (flat_map new_ids calls) -> (forall i, In i (flat_map new_ids calls) -> ~ In i (ids F)) ->
  NoDup order -> (forall i, In i order -> i < length calls) ->
  let tx c := match c with CAddChild k x => lt_add_child cfg k x | CDelete l => lt_delete l | _ => Commit end in
  let exec t c := do db <- lt_exec cfg (mkLTDB t []) c; Ok (lt_rows db) in
  exists schedule, let W := play l_pk lt_same (all_begin t (map tx calls)) schedule in
    (w_rows W, w_log W) = one_by_one exec calls t order /\
    forall i, i < length calls -> nth_error (w_txs W) i = Some None <-> In i order.
Proof.
  intros H1 H2 H3 H4 H5 H6 H7 H8 tx exec.
  assert (P : Forall (fun c => lt_prog cfg c <> None) calls).
  { eapply Forall_impl; [|exact H4]. intros c Hc. destruct c; cbn; try discriminate; destruct Hc. }
  replace (map tx calls) with (map (lt_tx_of cfg) calls) by (apply map_ext; intros []; reflexivity).
  exact (lt_serial cfg H2 H1 t F calls order H3 P H5 H6 H7 H8).
Qed.

Example C65_lt_example :
  let calls := [CAddChild 1 (nd 21 0); CAddChild 21 (nd 22 0); CAddChild 9 (nd 23 0); CDelete [2; 5; 6]] in
  let exec t c := do db <- lt_exec c0 (mkLTDB t []) c; Ok (lt_rows db) in
  let W := play l_pk lt_same (all_begin (lt_rows ex_db) (map (lt_tx_of c0) calls)) (repeat 2 9 ++ repeat 0 9 ++ repeat 3 9 ++ repeat 1 9) in
  NoDup (flat_map new_ids calls) /\ one_by_one exec calls (lt_rows ex_db) [2; 0; 3; 1] = (w_rows W, w_log W) /\
  w_log W = [(2, None); (0, None); (3, None); (1, None)] /\ map l_pk (w_rows W) = [22; 21; 7; 3; 1].
Proof. split; [repeat constructor; cbn; intuition lia|]. split; [|split]; vm_compute; reflexivity. Qed.
End LT.

(** ** The database *)

(** A step of a transaction leaves a row that it sees as it is, unless the statement is an UPDATE or
    DELETE whose condition the row satisfies at that moment: a row found earlier and changed by
    another transaction meanwhile is looked at again. *)
Theorem C65_untouched R (pk : R -> nat) same t x x' a : solo pk same t x = Go x' -> In a (visible pk t x) ->
  NoDup (map pk (visible pk t x)) ->
  match x_prog x with
  | Update sel f _ => (forall r, sel r = true -> pk (f r) = pk r) /\ sel a = false
  | Delete sel _ => sel a = false
  | _ => True
  end -> In a (visible pk t x').
Proof. apply kept_row. Qed.

(** A DELETE that found row 1 waits for an UPDATE of it; afterwards the row does not satisfy the
    condition any more. *)
Example C65_untouched_example :
  let pk (r : nat * nat) := fst r in
  let same (a b : nat * nat) := fst a =? fst b in
  let del := Delete (fun r => snd r =? 5) Commit in
  let upd := Update (fun r => fst r =? 1) (fun r => (fst r, 6)) Commit in
  let W l := play pk same (all_begin [(1, 5); (2, 5)] [del; upd]) l in
  w_txs (W [1; 1; 0; 0; 0]) = w_txs (W [1; 1; 0]) /\
  w_rows (W [1; 1; 0; 1; 0; 0]) = [(1, 6)] /\ w_rows (W [0; 0; 1; 0; 1; 1]) = [] /\
  w_log (W [0; 0; 1; 0; 1; 1]) = [(0, None); (1, None)].
Proof. vm_compute. auto. Qed.

Print Assumptions C65_mp.
Print Assumptions C65_ns.
Print Assumptions C65_al.
Print Assumptions C65_lt.
Print Assumptions C65_untouched.
