(** Theorems about fix_tree(fix_paths=True) of mp_tree.py (C11). *)
From Coq Require Import String List Arith Lia Bool ZArith Sorted Permutation.
From Verif Require Import Prelude Forest SpecFacts SpecSane SpecPerm NumConv PathTab CommonModel Order
  MPModel MPStep MPInv MPFixModel MPCheck MPFixPaths Fixture PropsMP.
Import ListNotations.
Local Open Scope nat_scope.

Section Fix.
Variable cfg : mp_cfg.
Hypothesis radix2 : 2 <= radix cfg.
Hypothesis step1 : 1 <= steplen cfg.
Notation stores := (stores cfg).

(** Whatever depth and numchild were: afterwards the table stores a tree [G] that differs
    from the tree [F] of the paths only in the order of siblings.  The siblings are in the
    order of node_order_by, or as before without it, and their steps are 1, 2, 3, ...
    It fails only with PathOverflow, only with node_order_by, and never when there is room
    beyond the last siblings. *)
Theorem C11_fix_paths db : paths_ok cfg (db_rows db) -> NoDup (map m_pk (db_rows db)) ->
  exists db1 F, fix_tree cfg db false None = Ok db1 /\ stores (db_rows db1) F /\
  match fix_tree cfg db true None with
  | Ok db' => map m_pk (db_rows db') = map m_pk (db_rows db) /\
      exists G, stores (db_rows db') G /\ rearranged (order_by cfg) F G /\ consecutive cfg (db_rows db') G
  | Err e => e = PathOverflow /\ order_by cfg <> [] /\ ~ has_room cfg (db_rows db1)
  end.
Proof.
  intros P N. destruct (fix_tree_ok cfg radix2 step1 db P N) as (db1 & E1 & E2 & E3 & F & St).
  exists db1, F. split; auto. split; auto.
  assert (H := fix_paths_ok cfg radix2 step1 db1 F St).
  assert (E : fix_tree cfg db true None = fix_loop cfg (S (length (db_rows db1))) db1 [([], 1)]).
  { unfold fix_tree in *. injection E1 as <-. auto. }
  rewrite E. destruct (fix_loop cfg (S (length (db_rows db1))) db1 [([], 1)]) as [db'|e]; auto.
  destruct H as [H1 H2]. split; auto. rewrite H1.
  apply (f_equal (map (fun x => fst (fst x)))) in E3. rewrite !map_map in E3. exact E3.
Qed.

(** With a parent the same holds for the nodes below it; its own row and all rows that
    are not below it are not changed. *)
Theorem C11_fix_branch db F p : stores (db_rows db) F -> In p (db_rows db) ->
  match fix_tree cfg db true (Some p) with
  | Ok db' => exists G c c', stores (db_rows db') G /\ Ctx (Some (m_pk p)) c c' F G /\
      rearranged (order_by cfg) c c' /\
      (forall j, j = m_pk p \/ In j (ids c') -> kids_consecutive cfg (db_rows db') G j) /\
      (forall r, ppre (m_path p) (m_path r) = false \/ r = p -> In r (db_rows db') <-> In r (db_rows db))
  | Err e => e = PathOverflow /\ order_by cfg <> [] /\ ~ has_room cfg (db_rows db)
  end.
Proof.
  intros St Hp. assert (H := fix_paths_branch cfg radix2 step1 db F p St Hp).
  assert (E := fix_tree_id cfg radix2 step1 db F (Some p) St). unfold fix_tree in *. injection E as E.
  rewrite E. destruct db as [t sig]. cbn [db_rows db_sig] in *.
  assert (Et : fix_numchild cfg (Some p) (fix_depth cfg (Some p) t) = t) by (injection E; auto).
  rewrite Et. exact H.
Qed.

(** A check that implies [has_room]. *)
Definition room_b (t : mp_table) : bool :=
  forallb (fun r => undigits (radix cfg) (last_step cfg (m_path r)) +
     count_children cfg t (get_parent_path cfg (m_path r)) <? radix cfg ^ steplen cfg) t.
Lemma room_b_ok t : room_b t = true -> has_room cfg t.
Proof.
  intros H r p k Hr E Hk. unfold room_b in H. rewrite forallb_forall in H. specialize (H r Hr). apply Nat.ltb_lt in H.
  assert (Hs : length (seg cfg k) = steplen cfg) by (apply (seg_len cfg radix2 step1); auto).
  unfold last_step, get_parent_path in H. rewrite E, app_length, Hs in H.
  replace (length p + steplen cfg - steplen cfg) with (length p) in H by lia.
  rewrite skipn_app, skipn_all, Nat.sub_diag, firstn_app, firstn_all, Nat.sub_diag in H. simpl in H.
  rewrite app_nil_r, seg_val in H by auto. exact H.
Qed.
End Fix.

(** ** Examples
    The table of C10_example: depth and numchild are wrong.  The paths are right, with a
    hole after 0301.  Without node_order_by only 9 and its child move to 0302; with it (first
    column, descending) all lists are reversed. *)
Definition path_of (x : res mp_db) : option (list (nat * path)) :=
  match x with Ok db => Some (map (fun r => (m_pk r, m_path r)) (order_path (db_rows db))) | Err _ => None end.

Example C11_fix_paths_example :
  path_of (fix_tree c10 broken true None) =
    Some [(7, [0;1]); (1, [0;2]); (3, [0;2;0;1]); (5, [0;2;0;2]); (2, [0;3]);
          (4, [0;3;0;1]); (6, [0;3;0;1;0;1]); (9, [0;3;0;2]); (10, [0;3;0;2;0;1])] /\
  path_of (fix_tree s10 broken true None) =
    Some [(7, [0;1]); (2, [0;2]); (9, [0;2;0;1]); (10, [0;2;0;1;0;1]); (4, [0;2;0;2]); (6, [0;2;0;2;0;1]);
          (1, [0;3]); (5, [0;3;0;1]); (3, [0;3;0;2])] /\
  has_room s10 (db_rows ex_db).
Proof.
  split; [vm_compute; reflexivity|]. split; [vm_compute; reflexivity|].
  apply (room_b_ok s10 (le_b 2 10 eq_refl) (le_b 1 2 eq_refl)). vm_compute. reflexivity.
Qed.

(** The branch of node 2 of the tree of C10_example. *)
Example C11_fix_branch_example :
  stores s10 (db_rows ex_db) ex_F /\ In (row ex_db 2) (db_rows ex_db) /\
  path_of (fix_tree s10 ex_db true (Some (row ex_db 2))) =
    Some [(7, [0;1]); (1, [0;2]); (3, [0;2;0;1]); (5, [0;2;0;2]); (2, [0;3]);
          (9, [0;3;0;1]); (10, [0;3;0;1;0;1]); (4, [0;3;0;2]); (6, [0;3;0;2;0;1])].
Proof. split; [exact ex_stores|]. split; [vm_compute; tauto|vm_compute; reflexivity]. Qed.

Print Assumptions C11_fix_paths.
Print Assumptions C11_fix_branch.
