(** Theorems about the signals of ltree trees (C46). *)
From Coq Require Import String List Arith ZArith Bool.
From Verif Require Import Prelude Forest CommonModel Fixture LTModel LTInv LTAdd LTSignals PropsLT.
Import ListNotations.
Local Open Scope string_scope.
Local Open Scope list_scope.

(** A listener with a copy of the primary keys and paths that applies the signals as
    documented, and post_save of the new or moved node, has the paths of the table again
    after each call. *)
Theorem C46_add_root cfg db F x db' r : stores cfg (lt_rows db) F -> add_root cfg db x = Ok (db', r) ->
  exists new, lt_sig db' = lt_sig db ++ new /\
    fold_left hear (map Sent new ++ [Saved (l_pk r) (l_path r)]) (copy_of (lt_rows db)) = copy_of (lt_rows db').
Proof. exact (add_root_ev cfg db F x db' r). Qed.

Theorem C46_add_child cfg db F target x db' r : stores cfg (lt_rows db) F -> In target (lt_rows db) ->
  add_child cfg db target x = Ok (db', r) ->
  exists new, lt_sig db' = lt_sig db ++ new /\
    fold_left hear (map Sent new ++ [Saved (l_pk r) (l_path r)]) (copy_of (lt_rows db)) = copy_of (lt_rows db').
Proof. exact (add_child_ev cfg db F target x db' r). Qed.

Theorem C46_add_sibling cfg db F target p x db' r : stores cfg (lt_rows db) F -> In target (lt_rows db) ->
  add_sibling cfg db target p x = Ok (db', r) ->
  exists new, lt_sig db' = lt_sig db ++ new /\
    fold_left hear (map Sent new ++ [Saved (l_pk r) (l_path r)]) (copy_of (lt_rows db)) = copy_of (lt_rows db').
Proof. exact (add_sibling_ev cfg db F target p x db' r). Qed.

(** post_save of the moved node is sent before subtree_moved; ignoring it makes no difference. *)
Theorem C46_move cfg db F n target p db' n' : stores cfg (lt_rows db) F -> In n (lt_rows db) -> In target (lt_rows db) ->
  move cfg db n target p = Ok (db', n') ->
  exists new old, lt_sig db' = lt_sig db ++ new ++ [Moved old (l_path n')] /\
    fold_left hear (map Sent new ++ [Saved (l_pk n') (l_path n'); Sent (Moved old (l_path n'))]) (copy_of (lt_rows db)) =
      copy_of (lt_rows db') /\
    fold_left hear (map Sent (new ++ [Moved old (l_path n')])) (copy_of (lt_rows db)) = copy_of (lt_rows db').
Proof. exact (move_ev cfg db F n target p db' n'). Qed.

Theorem C46_delete db sel : exists new, lt_sig (delete_queryset db sel) = lt_sig db ++ new /\
  fold_left hear (map Sent new) (copy_of (lt_rows db)) = copy_of (lt_rows (delete_queryset db sel)).
Proof. exact (delete_ev db sel). Qed.

(** Adding a node before 5 appends a letter to the label of 5 first; moving 9 before 5 sends
    two signals; deleting 2, 6 and 5 sends the topmost paths. *)
Example C46_example :
  stores c0 (lt_rows ex_db) ex_F /\ In (row ex_db 5) (lt_rows ex_db) /\ In (row ex_db 9) (lt_rows ex_db) /\
  (exists db' r, add_sibling c0 ex_db (row ex_db 5) (Some "left") (new_of (nd 11 1)) = Ok (db', r) /\
     lt_sig db' = lt_sig ex_db ++ [MovedRight [[10]; [10; 0]]] /\
     copy_of (lt_rows db') <> copy_of (lt_rows ex_db)) /\
  (exists db' n', move c0 ex_db (row ex_db 9) (row ex_db 5) (Some "left") = Ok (db', n') /\
     lt_sig db' = lt_sig ex_db ++ [MovedRight [[10]; [10; 0]]; Moved [[11]; [12]] [[10]; [10; 0]]] /\
     map l_pk (get_tree (lt_rows db') None None) = [7; 1; 3; 9; 10; 5; 2; 4; 6]) /\
  lt_sig (delete_queryset ex_db (fun r => existsb (Nat.eqb (l_pk r)) [2; 6; 5])) =
    lt_sig ex_db ++ [Deleted [[[10]; [10; 0]]; [[11]]]].
Proof.
  split; [apply ex_stores|]. split; [vm_compute; tauto|]. split; [vm_compute; tauto|].
  split; [do 2 eexists; split; [vm_compute; reflexivity|]; split; [vm_compute; reflexivity|vm_compute; discriminate]|].
  split; [do 2 eexists; split; [vm_compute; reflexivity|]; split; vm_compute; reflexivity|].
  vm_compute; reflexivity.
Qed.

Print Assumptions C46_add_root.
Print Assumptions C46_add_child.
Print Assumptions C46_add_sibling.
Print Assumptions C46_move.
Print Assumptions C46_delete.
