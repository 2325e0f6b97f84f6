(** Model of the tree views of the admin, /repo/treebeard/admin.py:33-158 and
    /repo/treebeard/templatetags/admin_tree.py:24-69, for the four kinds of trees.

    Not modelled here: permissions (see AdminViewModel.v), search, filters and an ordering of
    the list chosen in the admin (see SearchModel.v; here the list is the queryset in its own
    order), pages (see PagesModel.v), models that inherit from a concrete tree model (see
    InheritModel.v), messages and HTML. *)
From Coq Require Import String List Arith Bool ZArith.
From Verif Require Import Prelude Forest CommonModel.
From Verif Require MPModel NSModel ALModel LTModel.
Import ListNotations.

(** One entry of the list that templatetags/admin_tree.py:56-69 returns for the frontend;
    "parent-id" is 0 for roots. *)
Record entry := mkEntry { e_node : nat; e_parent : nat; e_level : Z; e_kids : bool }.

(** The answer of move_node, /repo/treebeard/admin.py:109-158: 200, 400, or an exception that is not caught (500). *)
Inductive reply A := Done (a : A) | Refused | Failed (e : exn).
Arguments Done {A} _. Arguments Refused {A}. Arguments Failed {A} _.

(** /repo/treebeard/admin.py:143 the exceptions that are caught *)
Definition caught (e : exn) : bool :=
  match e with MissingNodeOrderBy | PathOverflow | InvalidMoveToDescendant | InvalidPosition => true | _ => false end.

(** /repo/treebeard/admin.py:137-147 *)
Definition reply_of {A} (r : res A) : reply A :=
  match r with Ok a => Done a | Err e => if caught e then Refused else Failed e end.

(** /repo/treebeard/admin.py:130-135; [below] is the relation "child", otherwise it is "sibling". *)
Definition drag_pos (below sorted : bool) : string :=
  match below, sorted with
  | true, true => "sorted-child"
  | true, false => "last-child"
  | false, true => "sorted-sibling"
  | false, false => "left"
  end%string.

(** ** Materialized paths *)
Section MP.
Import MPModel.
Variable cfg : mp_cfg.

(** /repo/treebeard/admin.py:33-46: the rows of the list and the parent node; an unknown parent is a 404 *)
Definition mp_list (t : mp_table) (parent : option nat) : res (option mprow * mp_table) :=
  match parent with
  | Some k => do p <- get_by_pk t k; Ok (Some p, get_children cfg t p)
  | None => Ok (None, get_root_nodes t)
  end.

(** /repo/treebeard/templatetags/admin_tree.py:31-32 *)
Definition mp_has_children (r : mprow) : bool := 0 <? m_nc r.

(** /repo/treebeard/templatetags/admin_tree.py:49-69 *)
Definition mp_context (t : mp_table) (parent : option nat) : res (list entry) :=
  do '(p, rows) <- mp_list t parent;
  let level := match p with Some p => Z.of_nat (m_depth p) + 1 | None => 1 end%Z in
  Ok (map (fun r => mkEntry (m_pk r) match p with Some p => m_pk p | None => 0 end level (mp_has_children r)) rows).

(** /repo/treebeard/admin.py:109-158, with the reload and the save after the move *)
Definition mp_drag (db : mp_db) (node target : mprow) (below : bool) : reply mp_db :=
  reply_of (
    do '(db1, _, _) <- move cfg db node target (Some (drag_pos below (is_sorted cfg)));
    do r <- get_by_pk (db_rows db1) (m_pk node);
    save_row db1 r).
End MP.

(** ** Nested sets *)
Section NS.
Import NSModel.
Variable o : ordering.

(** /repo/treebeard/admin.py:33-46 *)
Definition ns_list (t : ns_table) (parent : option nat) : res (option nsrow * ns_table) :=
  match parent with
  | Some k => do p <- get_by_pk t k; Ok (Some p, get_children t p)
  | None => Ok (None, get_root_nodes t)
  end.

(** /repo/treebeard/templatetags/admin_tree.py:33-36 *)
Definition ns_has_children (r : nsrow) : bool := (1 <? n_rgt r - n_lft r)%Z.

(** /repo/treebeard/templatetags/admin_tree.py:49-69 *)
Definition ns_context (t : ns_table) (parent : option nat) : res (list entry) :=
  do '(p, rows) <- ns_list t parent;
  let level := match p with Some p => n_depth p + 1 | None => 1 end%Z in
  Ok (map (fun r => mkEntry (n_pk r) match p with Some p => n_pk p | None => 0 end level (ns_has_children r)) rows).

(** /repo/treebeard/admin.py:109-158 *)
Definition ns_drag (db : ns_db) (node target : nsrow) (below : bool) : reply ns_db :=
  reply_of (
    do '(db1, _, _) <- move o db (fresh node) (fresh target) (Some (drag_pos below (is_sorted o)));
    do r <- get_by_pk (ns_rows db1) (n_pk node);
    Ok (save_row db1 r)).
End NS.

(** ** Adjacency lists *)
Section AL.
Import ALModel.
Variable o : ordering.

(** /repo/treebeard/admin.py:33-46 *)
Definition al_list (t : al_table) (parent : option nat) : res (option alrow * al_table) :=
  match parent with
  | Some k => do p <- get_by_pk t k; Ok (Some p, get_children o t p)
  | None => Ok (None, get_root_nodes o t)
  end.

(** /repo/treebeard/templatetags/admin_tree.py:37-38 *)
Definition al_has_children (t : al_table) (r : alrow) : bool := existsb (fun x => par_eqb (a_parent x) (Some (a_pk r))) t.

(** /repo/treebeard/templatetags/admin_tree.py:49-69 *)
Definition al_context (t : al_table) (parent : option nat) : res (list entry) :=
  do '(p, rows) <- al_list t parent;
  do level <- match p with Some p => do '(d, _) <- get_depth t (fresh p) false; Ok (d + 1)%Z | None => Ok 1%Z end;
  Ok (map (fun r => mkEntry (a_pk r) match p with Some p => a_pk p | None => 0 end level (al_has_children t r)) rows).

(** /repo/treebeard/admin.py:109-158 *)
Definition al_drag (t : al_table) (node target : alrow) (below : bool) : reply al_table :=
  reply_of (
    do '(t1, _) <- move o t (fresh node) target (Some (drag_pos below (is_sorted o)));
    do r <- get_by_pk t1 (a_pk node);
    Ok (save_row t1 r)).
End AL.

(** ** Ltree *)
Section LT.
Import LTModel.
Variable cfg : lt_cfg.

(** /repo/treebeard/admin.py:33-46 *)
Definition lt_list (t : lt_table) (parent : option nat) : res (option ltrow * lt_table) :=
  match parent with
  | Some k => do p <- get_by_pk t k; Ok (Some p, get_children t p)
  | None => Ok (None, get_root_nodes t)
  end.

(** /repo/treebeard/templatetags/admin_tree.py:39-44 *)
Definition lt_has_children (t : lt_table) (r : ltrow) : bool :=
  existsb (fun x => ppre (l_path r) (l_path x) && negb (l_pk x =? l_pk r)) t.

(** /repo/treebeard/templatetags/admin_tree.py:49-69 *)
Definition lt_context (t : lt_table) (parent : option nat) : res (list entry) :=
  do '(p, rows) <- lt_list t parent;
  let level := match p with Some p => Z.of_nat (get_depth p) + 1 | None => 1 end%Z in
  Ok (map (fun r => mkEntry (l_pk r) match p with Some p => l_pk p | None => 0 end level (lt_has_children t r)) rows).

(** /repo/treebeard/admin.py:109-158 *)
Definition lt_drag (db : lt_db) (node target : ltrow) (below : bool) : reply lt_db :=
  reply_of (
    do '(db1, _) <- move cfg db node target (Some (drag_pos below (is_sorted cfg)));
    do r <- get_by_pk (lt_rows db1) (l_pk node);
    do t1 <- save_row cfg (lt_rows db1) r;
    Ok (mkLTDB t1 (lt_sig db1))).
End LT.
