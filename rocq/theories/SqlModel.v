(** The UPDATE statements of materialized paths and nested sets as databases run them: whether a
    later assignment sees the values of an earlier one (MySQL) or not (standard SQL), and
    whether "/" of integers is a whole number (PostgreSQL, SQLite) or a decimal one (MySQL).
    mp_tree.py, ns_tree.py. *)
From Coq Require Import List Arith Bool ZArith.
From Verif Require Import Prelude Forest PathTab CommonModel MPModel MPFixModel.
From Verif Require NSModel.
Import ListNotations.
Local Open Scope list_scope.

(** "column = expression": reads from the first row and writes to the second.
    /repo/treebeard/mp_tree.py:848-859 *)
Definition assign (row : Type) : Type := row -> row -> row.

(** Standard SQL: all expressions are about the old row. /repo/treebeard/mp_tree.py:848-855 *)
Definition set_standard {row : Type} (l : list (assign row)) (r : row) : row := fold_left (fun acc a => a r acc) l r.
(** MySQL: from left to right, about the row so far. /repo/treebeard/mp_tree.py:848-855 *)
Definition set_mysql {row : Type} (l : list (assign row)) (r : row) : row := fold_left (fun acc a => a acc acc) l r.

(** The two ways of "/". /repo/treebeard/mp_tree.py:161, 329, 858 *)
Inductive division := Whole | Decimal.
(** a / b, stored in a column of integers; decimal numbers are rounded.
    /repo/treebeard/mp_tree.py:161, 858 *)
Definition div_store (d : division) (a b : nat) : nat :=
  match d with Whole => a / b | Decimal => (2 * a + b) / (2 * b) end.
(** a / b = n in a condition. /repo/treebeard/mp_tree.py:161, 329-330 *)
Definition div_equal (d : division) (a b n : nat) : bool :=
  match d with Whole => a / b =? n | Decimal => a =? n * b end.

Section MP.
Variable cfg : mp_cfg.
Notation steplen := (steplen cfg).

(** Concat(Value(newpath), Substr("path", pos)); positions begin with 1.
    /repo/treebeard/mp_tree.py:242, 845 *)
Definition concat_substr (new : path) (pos : nat) (p : path) : path := new ++ skipn (pos - 1) p.

(** /repo/treebeard/mp_tree.py:858 *)
Definition set_depth (d : division) (old new : path) : assign mprow := fun src dst =>
  mkMP (m_pk dst) (m_path dst) (div_store d (length (concat_substr new (length old + 1) (m_path src))) steplen) (m_nc dst) (m_data dst).
(** /repo/treebeard/mp_tree.py:859 *)
Definition set_path (old new : path) : assign mprow := fun src dst =>
  mkMP (m_pk dst) (concat_substr new (length old + 1) (m_path src)) (m_depth dst) (m_nc dst) (m_data dst).
(** update_kwargs. /repo/treebeard/mp_tree.py:846-859 *)
Definition newpath_kwargs (d : division) (old new : path) : list (assign mprow) :=
  (if length old =? length new then [] else [set_depth d old new]) ++ [set_path old new].
(** The UPDATE of _set_newpath_in_branches; [sem] is [set_standard] or [set_mysql].
    /repo/treebeard/mp_tree.py:861-863 *)
Definition sql_newpath (sem : list (assign mprow) -> mprow -> mprow) (d : division) (old new : path) (t : mp_table) : mp_table :=
  map (fun r => if ppre old (m_path r) then sem (newpath_kwargs d old new) r else r) t.
(** The UPDATE of _rewrite_node_path. /repo/treebeard/mp_tree.py:240-242 *)
Definition sql_rewrite (sem : list (assign mprow) -> mprow -> mprow) (old new : path) (t : mp_table) : mp_table :=
  map (fun r => if ppre old (m_path r) then sem [set_path old new] r else r) t.

(** The UPDATE of the depths in fix_tree. /repo/treebeard/mp_tree.py:158-161 *)
Definition sql_fix_depth (d : division) (parent : option mprow) (t : mp_table) : mp_table :=
  map (fun r => if below parent r && negb (div_equal d (length (m_path r)) steplen (m_depth r))
                then mkMP (m_pk r) (m_path r) (div_store d (length (m_path r)) steplen) (m_nc r) (m_data r) else r) t.

(** The rows whose number of children is wrong, with the right number.
    /repo/treebeard/mp_tree.py:248-257 *)
Definition wrong_nc (parent : option mprow) (t : mp_table) (r : mprow) : bool :=
  below parent r && negb (m_nc r =? count_children cfg t (m_path r)).
(** One UPDATE with a subquery. /repo/treebeard/mp_tree.py:259-260 *)
Definition sql_fix_numchild (parent : option mprow) (t : mp_table) : mp_table :=
  map (fun r => if wrong_nc parent t r then set_nc r (count_children cfg t (m_path r)) else r) t.
(** bulk_update of one object. /repo/treebeard/mp_tree.py:269 *)
Definition write_nc (t : mp_table) (x : nat * nat) : mp_table :=
  map (fun r => if m_pk r =? fst x then set_nc r (snd x) else r) t.
(** With MySQL: the objects are fetched and written one by one. /repo/treebeard/mp_tree.py:261-269 *)
Definition mysql_fix_numchild (parent : option mprow) (t : mp_table) : mp_table :=
  fold_left write_nc (map (fun r => (m_pk r, count_children cfg t (m_path r))) (filter (wrong_nc parent t) t)) t.

(** The count in find_problems. /repo/treebeard/mp_tree.py:328-332 *)
Definition sql_real_numchild (d : division) (t : mp_table) (n : mprow) : nat :=
  length (filter (fun r => in_range (children_interval cfg (m_path n)) (m_path r) &&
                           div_equal d (length (m_path r)) steplen (m_depth n + 1)) t).
End MP.

(** The assignments of nested sets. /repo/treebeard/ns_tree.py:359-362, 574-575 *)
Definition set_tree (v : Z) : assign NSModel.nsrow := fun src dst =>
  NSModel.mkNS (NSModel.n_pk dst) v (NSModel.n_lft dst) (NSModel.n_rgt dst) (NSModel.n_depth dst) (NSModel.n_data dst).
(** /repo/treebeard/ns_tree.py:360, 574 *)
Definition set_lft (f : Z -> Z) : assign NSModel.nsrow := fun src dst =>
  NSModel.mkNS (NSModel.n_pk dst) (NSModel.n_tree dst) (f (NSModel.n_lft src)) (NSModel.n_rgt dst) (NSModel.n_depth dst) (NSModel.n_data dst).
(** /repo/treebeard/ns_tree.py:361, 575 *)
Definition set_rgt (f : Z -> Z) : assign NSModel.nsrow := fun src dst =>
  NSModel.mkNS (NSModel.n_pk dst) (NSModel.n_tree dst) (NSModel.n_lft dst) (f (NSModel.n_rgt src)) (NSModel.n_depth dst) (NSModel.n_data dst).
(** /repo/treebeard/ns_tree.py:362 *)
Definition set_ndepth (f : Z -> Z) : assign NSModel.nsrow := fun src dst =>
  NSModel.mkNS (NSModel.n_pk dst) (NSModel.n_tree dst) (NSModel.n_lft dst) (NSModel.n_rgt dst) (f (NSModel.n_depth src)) (NSModel.n_data dst).

(** The SET of _alter_gap. /repo/treebeard/ns_tree.py:573-576 *)
Definition gap_kwargs (start offset : Z) : list (assign NSModel.nsrow) :=
  [set_lft (fun v => if start <=? v then v + offset else v)%Z; set_rgt (fun v => v + offset)%Z].
(** The SET of move. /repo/treebeard/ns_tree.py:358-363 *)
Definition jump_kwargs (tree jump depthdiff : Z) : list (assign NSModel.nsrow) :=
  [set_tree tree; set_lft (fun v => v + jump)%Z; set_rgt (fun v => v + jump)%Z; set_ndepth (fun v => v + depthdiff)%Z].
(** The UPDATEs. /repo/treebeard/ns_tree.py:357-363, 572-576 *)
Definition sql_set (sem : list (assign NSModel.nsrow) -> NSModel.nsrow -> NSModel.nsrow) (cond : NSModel.nsrow -> bool) (l : list (assign NSModel.nsrow))
  (t : NSModel.ns_table) : NSModel.ns_table := map (fun r => if cond r then sem l r else r) t.
