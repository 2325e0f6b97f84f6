(** Claims that are false of the materialized path model, with computed witnesses. *)
From Coq Require Import String List Arith Lia Bool ZArith.
From Verif Require Import Prelude Forest SpecFacts NumConv CommonModel Order History MPModel MPStep MPInv MPAdd MPMove MPMoveOk
  MPReads MPHist MPFixModel MPCheck MPRoom Fixture PropsMP.
Import ListNotations.
Local Open Scope string_scope.
Local Open Scope list_scope.
Local Open Scope nat_scope.

Lemma not_stored cfg t : 2 <= radix cfg -> 1 <= steplen cfg -> find_problems cfg t None <> [] -> ~ exists F, stores cfg t F.
Proof. intros R S H (F & St). apply H. apply (find_problems_clean cfg R S _ F None St). Qed.

(** ** The temporary path of move, /repo/treebeard/mp_tree.py:791-800
    Moving within a list of siblings parks the branch two steps after the last sibling.
    Nothing checks that this step exists.  With a three letter alphabet and two letters
    per step the seventh root moved to the front is parked at "100" instead of a two
    letter path, is shifted together with the sibling "10", and is lost there: the call
    succeeds and the table is corrupt. *)
Definition room_cfg : mp_cfg := mkCfg 3 2 40 [].
Definition room_calls : list call :=
  map (fun i => CAddRoot (nd i 0)) (seq 1 7) ++ [CMove 7 1 (Some "first-sibling")].

Theorem C03_room_refuted : exists cfg cs,
  2 <= radix cfg /\ 1 <= steplen cfg /\ order_by cfg = [] /\ NoDup (flat_map new_ids cs) /\
  snd (run (mp_exec cfg) mp_empty cs) = cs /\
  ~ exists F, stores cfg (db_rows (fst (run (mp_exec cfg) mp_empty cs))) F.
Proof.
  exists room_cfg, room_calls. split; [apply le_b; reflexivity|]. split; [apply le_b; reflexivity|]. split; [reflexivity|].
  split; [apply nodup_b; vm_compute; reflexivity|]. split; [vm_compute; reflexivity|].
  apply not_stored; [apply le_b; reflexivity|apply le_b; reflexivity|]. vm_compute. discriminate.
Qed.

(** The same table: before the move everything is in order and two steps are not free. *)
Theorem C05_room_refuted : exists cfg db F n target db' n' target',
  2 <= radix cfg /\ 1 <= steplen cfg /\ stores cfg (db_rows db) F /\ In n (db_rows db) /\ In target (db_rows db) /\
  prepare_pos_move (is_sorted cfg) (Some "first-sibling") = Ok FirstSibling /\
  ~ inside F (m_pk n) (m_pk target) FirstSibling /\
  move cfg db n target (Some "first-sibling") = Ok (db', n', target') /\
  ~ exists G, stores cfg (db_rows db') G.
Proof.
  set (cs := map (fun i => CAddRoot (nd i 0)) (seq 1 7)).
  set (db := fst (run (mp_exec room_cfg) mp_empty cs)).
  destruct (move room_cfg db (row db 7) (row db 1) (Some "first-sibling")) as [[[db' n'] t']|] eqn:E; [|vm_compute in E; discriminate].
  exists room_cfg, db, (fst (run (sp_exec []) Nil cs)), (row db 7), (row db 1), db', n', t'.
  split; [apply le_b; reflexivity|]. split; [apply le_b; reflexivity|]. split.
  { assert (H := mp_history_room room_cfg (le_b 2 3 eq_refl) (le_b 1 2 eq_refl) cs (lt_b 8 9 eq_refl) (le_b 14 40 eq_refl)).
    fold mp_empty in H. unfold db. change (order_by room_cfg) with (@nil (nat * bool)) in H.
    destruct (run (mp_exec room_cfg) mp_empty cs) as [d done], (run (sp_exec []) Nil cs) as [G done'].
    apply H; [apply nodup_b; vm_compute; reflexivity|congruence]. }
  split; [vm_compute; tauto|]. split; [vm_compute; tauto|]. split; [reflexivity|].
  split; [apply insideb_false; vm_compute; reflexivity|]. split; [exact E|].
  vm_compute in E. injection E as <- <- <-.
  apply not_stored; [apply le_b; reflexivity|apply le_b; reflexivity|]. vm_compute. discriminate.
Qed.

(** ** A possible move fails
    Roots 1, 2, 3, 9 and a child "11" of 1 with one digit per step: 3 cannot be moved to
    the front although steps 4 to 8 are free, because it is parked at "11". *)
Definition digit_cfg : mp_cfg := mkCfg 10 1 40 [].
Definition park_calls : list call :=
  map (fun i => CAddRoot (nd i 0)) (seq 1 9) ++ [CDelete [4;5;6;7;8]; CAddChild 1 (nd 20 0)].
Theorem C05_integrity_refuted : exists db,
  snd (run (mp_exec digit_cfg) mp_empty park_calls) = park_calls /\
  fst (run (mp_exec digit_cfg) mp_empty park_calls) = db /\
  map m_path (get_root_nodes (db_rows db)) = [[1]; [2]; [3]; [9]] /\
  move digit_cfg db (row db 3) (row db 1) (Some "first-sibling") = Err IntegrityError.
Proof. eexists. split; [vm_compute; reflexivity|]. split; [vm_compute; reflexivity|]. split; vm_compute; reflexivity. Qed.

(** ** A move that changes nothing overflows
    All nine roots present; 2 is moved to the right of 1, where it already is. *)
Theorem C08_needless_overflow_refuted : exists db,
  fst (run (mp_exec digit_cfg) mp_empty (map (fun i => CAddRoot (nd i 0)) (seq 1 9))) = db /\
  map m_pk (get_root_nodes (db_rows db)) = [1; 2; 3; 4; 5; 6; 7; 8; 9] /\
  move digit_cfg db (row db 2) (row db 1) (Some "right") = Err PathOverflow.
Proof. eexists. split; [vm_compute; reflexivity|]. split; vm_compute; reflexivity. Qed.

(** ** move stores paths longer than the column
    path has max_length 4 (two levels); the moved node gets six characters. *)
Theorem C08_max_length_refuted : exists cfg cs,
  snd (run (mp_exec cfg) mp_empty cs) = cs /\
  exists r, In r (db_rows (fst (run (mp_exec cfg) mp_empty cs))) /\ maxlen cfg < length (m_path r).
Proof.
  exists (mkCfg 10 2 4 []), [CAddRoot (nd 1 5); CAddRoot (nd 2 3); CAddChild 1 (nd 3 9); CAddChild 2 (nd 4 9);
    CMove 4 3 (Some "last-child")].
  split; [vm_compute; reflexivity|]. eexists. split; [vm_compute; left; reflexivity|]. apply lt_b. reflexivity.
Qed.

(** ** find_problems misses steps of zero and empty paths *)
Theorem C09_exact_refuted : exists cfg t1 t2,
  2 <= radix cfg /\ 1 <= steplen cfg /\
  find_problems cfg t1 None = [] /\ (~ exists F, stores cfg t1 F) /\
  find_problems cfg t2 None = [] /\ (~ exists F, stores cfg t2 F).
Proof.
  exists c10, [mkMP 1 [0;0] 1 0 []], [mkMP 1 [] 0 1 []; mkMP 2 [0;1] 1 0 []].
  assert (R : 2 <= radix c10) by (apply le_b; reflexivity). assert (S : 1 <= steplen c10) by (apply le_b; reflexivity).
  split; auto. split; auto. split; [vm_compute; reflexivity|]. split; [|split; [vm_compute; reflexivity|]].
  - intros H. apply (proj1 (stores_iff c10 R S _)) in H. destruct H as (P & _).
    assert (H := po_step _ _ P _ (or_introl eq_refl)). vm_compute in H. lia.
  - intros H. apply (proj1 (stores_iff c10 R S _)) in H. destruct H as (P & _).
    destruct (po_len _ _ P _ (or_introl eq_refl)) as (n & H). cbn in H. lia.
Qed.

(** ** Sorted insertion into siblings that are out of order fails
    node_order_by was added to a model with rows 5, 3, 9: adding 4 collides. *)
Theorem C04_unsorted_siblings_refuted : exists cfg db F x,
  2 <= radix cfg /\ 1 <= steplen cfg /\ stores cfg (db_rows db) F /\ ~ In (new_pk x) (ids F) /\ new_nc x = 0 /\
  add_root cfg db x = Err IntegrityError.
Proof.
  set (cs := [CAddRoot (nd 1 5); CAddRoot (nd 2 3); CAddRoot (nd 3 9)]).
  set (db := fst (run (mp_exec c10) mp_empty cs)).
  exists (mkCfg 10 2 40 [(0, false)]), db, (fst (run (sp_exec []) Nil cs)), (nobj 4 4).
  split; [apply le_b; reflexivity|]. split; [apply le_b; reflexivity|]. split.
  { assert (H := mp_history_room c10 (le_b 2 10 eq_refl) (le_b 1 2 eq_refl) cs (lt_b 4 100 eq_refl) (le_b 6 40 eq_refl)).
    fold mp_empty in H. unfold db. change (order_by c10) with (@nil (nat * bool)) in H.
    destruct (run (mp_exec c10) mp_empty cs) as [d done], (run (sp_exec []) Nil cs) as [G done'].
    assert (Hs : stores c10 (db_rows d) G) by (apply H; [apply nodup_b; vm_compute; reflexivity|congruence]). exact Hs. }
  split; [apply no_b; vm_compute; reflexivity|]. split; [reflexivity|]. vm_compute. reflexivity.
Qed.

(** ** The caller's target after a move below it
    The node already is the last child of the target, nothing is changed, but
    [target.numchild] is incremented. *)
Theorem C24_mp_move_refuted : exists cfg db F n target db' n' target',
  2 <= radix cfg /\ 1 <= steplen cfg /\ stores cfg (db_rows db) F /\ In n (db_rows db) /\ In target (db_rows db) /\
  move cfg db n target (Some "last-child") = Ok (db', n', target') /\ ~ In target' (db_rows db').
Proof.
  set (cs := [CAddRoot (nd 1 5); CAddChild 1 (nd 3 9)]).
  set (db := fst (run (mp_exec c10) mp_empty cs)).
  destruct (move c10 db (row db 3) (row db 1) (Some "last-child")) as [[[db' n'] t']|] eqn:E; [|vm_compute in E; discriminate].
  exists c10, db, (fst (run (sp_exec []) Nil cs)), (row db 3), (row db 1), db', n', t'.
  split; [apply le_b; reflexivity|]. split; [apply le_b; reflexivity|]. split.
  { assert (H := mp_history_room c10 (le_b 2 10 eq_refl) (le_b 1 2 eq_refl) cs (lt_b 3 100 eq_refl) (le_b 4 40 eq_refl)).
    fold mp_empty in H. unfold db. change (order_by c10) with (@nil (nat * bool)) in H.
    destruct (run (mp_exec c10) mp_empty cs) as [d done], (run (sp_exec []) Nil cs) as [G done'].
    apply H; [apply nodup_b; vm_compute; reflexivity|congruence]. }
  split; [vm_compute; tauto|]. split; [vm_compute; tauto|]. split; [exact E|].
  vm_compute in E. injection E as <- <- <-. vm_compute. intros [H|[H|[]]]; discriminate.
Qed.

(** ** fix_tree(fix_paths=True) overflows on a full list of siblings
    One digit per step, all nine roots present, sorted by a column that orders them the
    other way round: swapping needs a tenth step. *)
Theorem C11_overflow_refuted : exists cfg db F,
  2 <= radix cfg /\ 1 <= steplen cfg /\ stores cfg (db_rows db) F /\
  fix_tree cfg db true None = Err PathOverflow.
Proof.
  set (cs := map (fun i => CAddRoot (nd i (Z.of_nat (20 - i)))) (seq 1 9)).
  set (db := fst (run (mp_exec digit_cfg) mp_empty cs)).
  exists (mkCfg 10 1 40 [(0, false)]), db, (fold_left (sp_call []) (snd (run (mp_exec digit_cfg) mp_empty cs)) Nil).
  split; [apply le_b; reflexivity|]. split; [apply le_b; reflexivity|]. split.
  { assert (H := mp_history digit_cfg (le_b 2 10 eq_refl) (le_b 1 1 eq_refl) cs).
    fold mp_empty in H. unfold db. change (order_by digit_cfg) with (@nil (nat * bool)) in H.
    assert (Rm : roomy_run digit_cfg mp_empty cs) by (unfold cs; cbn [map seq roomy_run]; tauto).
    destruct (run (mp_exec digit_cfg) mp_empty cs) as [d done].
    assert (Hs : stores digit_cfg (db_rows d) (fold_left (sp_call []) done Nil)).
    { apply H; [apply nodup_b; vm_compute; reflexivity|congruence|exact Rm]. }
    exact Hs. }
  vm_compute. reflexivity.
Qed.

Print Assumptions C03_room_refuted.
Print Assumptions C05_room_refuted.
Print Assumptions C05_integrity_refuted.
Print Assumptions C08_needless_overflow_refuted.
Print Assumptions C08_max_length_refuted.
Print Assumptions C09_exact_refuted.
Print Assumptions C04_unsorted_siblings_refuted.
Print Assumptions C24_mp_move_refuted.
Print Assumptions C11_overflow_refuted.
