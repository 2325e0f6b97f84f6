(** What is in the database if the process dies in the middle of a call.

    A call sends SQL statements.  The statements of one transaction are committed
    together, a statement outside of a transaction is committed by itself (Django's
    default autocommit mode, with no transaction opened by the caller).  A call is a list
    of transactions; after a crash the database is in the state before the call or in
    that after one of the commits.  Statements are functions of the state; a statement
    that fails ends the call, and rolls its transaction back. *)
From Coq Require Import List Arith Bool ZArith.
From Verif Require Import Prelude Forest CommonModel Order History.
From Verif Require MPModel MPFixModel MPHist NSModel NSHist ALModel ALHist LTModel LTHist.
Import ListNotations.

(** The states after each commit, starting with the one before the first. transaction.atomic
    and autocommit, e.g. /repo/treebeard/mp_tree.py:383, /repo/treebeard/ns_tree.py:30-73 *)
Fixpoint commits {A} (s : A) (transactions : list (list (A -> A))) : list A :=
  s :: match transactions with
       | [] => []
       | g :: gs => commits (fold_left (fun s f => f s) g s) gs
       end.

(** A call in one transaction: the state before, and that after if it succeeds.
    @transaction.atomic decorates add_root, add_child, add_sibling and move of all
    managers: /repo/treebeard/mp_tree.py:339, 383, 436, 480; ns_tree.py:112, 141, 181, 257;
    al_tree.py:64, 76, 95, 108; ltree/__init__.py:162, 191, 229, 266. *)
Definition one_transaction {A} (s : A) (r : res A) : list A := s :: match r with Ok s' => [s'] | Err _ => [] end.

(** ** Materialized paths *)

(** /repo/treebeard/mp_tree.py:32-86 delete: not in a transaction; one UPDATE for each
    parent (75-76), then the DELETE with its cascades (78-81), which Django runs in a
    transaction of its own. *)
Definition mp_delete_commits (cfg : MPModel.mp_cfg) (t : MPModel.mp_table) (sel : MPModel.mprow -> bool) : list MPModel.mp_table :=
  commits t (map (fun s => [s]) (MPModel.delete_statements cfg t sel)).

(** /repo/treebeard/mp_tree.py:32-86, 341-534 *)
Definition mp_commits (cfg : MPModel.mp_cfg) (db : MPModel.mp_db) (c : call) : list MPModel.mp_db :=
  match c with
  | CDelete l =>
      map (fun t => MPModel.mkDB t (MPModel.db_sig db))
          (mp_delete_commits cfg (MPModel.db_rows db) (fun r => existsb (Nat.eqb (MPModel.m_pk r)) l))
  | _ => one_transaction db (MPHist.mp_exec cfg db c)
  end.

(** /repo/treebeard/mp_tree.py:125-165 fix_tree without fix_paths: the UPDATE of the
    depths (162) and that of numchild (165, 246-269) are not in a transaction. *)
Definition mp_fix_commits (cfg : MPModel.mp_cfg) (t : MPModel.mp_table) (parent : option MPModel.mprow) : list MPModel.mp_table :=
  commits t [[MPFixModel.fix_depth cfg parent]; [MPFixModel.fix_numchild cfg parent]].

(** The UPDATE of numchild and the INSERT of /repo/treebeard/mp_tree.py:423-432 add_child
    (a parent that is a leaf), with the row to be inserted.  @transaction.atomic without
    an argument (383) opens the transaction in the database "default"; if a router sends
    the model to another database, [other] below, both statements run in autocommit mode
    there.  (With a database that supports it, SELECT FOR UPDATE (400) then raises
    TransactionManagementError before these statements; SQLite ignores it.) *)
Definition mp_first_child_commits (cfg : MPModel.mp_cfg) (other : bool) (t : MPModel.mp_table) (node : MPModel.mprow) (x : MPModel.newobj)
  : list MPModel.mp_table :=
  let r := MPModel.mkMP (MPModel.new_pk x) (MPModel.get_path cfg (MPModel.m_path node) (MPModel.m_depth node + 1) 1)
                        (MPModel.m_depth node + 1) (MPModel.new_nc x) (MPModel.new_data x) in
  let update := map (MPModel.upd_nc_pk (MPModel.m_pk node) S) in
  let insert := cons r in
  commits t (if other then [[update]; [insert]] else [[update; insert]]).

(** ** Nested sets *)

(** /repo/treebeard/ns_tree.py:30-73 delete: not in a transaction; the DELETE with its
    cascades and the signal (62-63), then one UPDATE for each range (71-72, 588-590). *)
Definition ns_delete_transactions (db : NSModel.ns_db) (sel : NSModel.nsrow -> bool) : list (list (NSModel.ns_db -> NSModel.ns_db)) :=
  let ranges := NSModel.delete_ranges None (NSModel.order_rows (filter sel (NSModel.ns_rows db))) in
  match ranges with
  | [] => []
  | _ =>
      [fun d => NSModel.mkNSDB (filter (fun r => negb (existsb (NSModel.in_del_range r) ranges)) (NSModel.ns_rows d))
                               (NSModel.ns_sigs d ++ [NSModel.NodesDeleted ranges])]
      :: map (fun x => [fun d => let '(tree, lft, rgt) := x in NSModel.close_gap d lft rgt tree]) (NSModel.sort_ranges ranges)
  end.
(** The statements of /repo/treebeard/ns_tree.py:30-73, each committed on its own *)
Definition ns_delete_commits (db : NSModel.ns_db) (sel : NSModel.nsrow -> bool) : list NSModel.ns_db :=
  commits db (ns_delete_transactions db sel).

(** /repo/treebeard/ns_tree.py:30-73, 114-379 *)
Definition ns_commits (o : ordering) (db : NSModel.ns_db) (c : call) : list NSModel.ns_db :=
  match c with
  | CDelete l => ns_delete_commits db (fun r => existsb (Nat.eqb (NSModel.n_pk r)) l)
  | _ => one_transaction db (NSHist.ns_exec o db c)
  end.

(** ** Adjacency lists and ltree: a delete is one QuerySet.delete() of Django
    (/repo/treebeard/al_tree.py has no delete of its own; ltree/__init__.py:127), which
    runs in a transaction. *)
Definition al_commits (o : ordering) (t : ALModel.al_table) (c : call) : list ALModel.al_table :=
  one_transaction t (ALHist.al_exec o t c).
(** /repo/treebeard/ltree/__init__.py:99-131, 164-334 *)
Definition lt_commits (cfg : LTModel.lt_cfg) (db : LTModel.lt_db) (c : call) : list LTModel.lt_db :=
  one_transaction db (LTHist.lt_exec cfg db c).
