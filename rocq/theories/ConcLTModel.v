(** The calls on ltree paths as transactions, statement by statement (see ConcModel.v): all of
    them, at all positions, with and without node_order_by.

    Simplifications: the queries that one test sends to read nodes are one SELECT here. The
    objects given to a call are fetched at its begin. The deferred UNIQUE(path) is checked for
    INSERTs, at the INSERT, and not for UPDATEs. The type check of ltree values that an UPDATE
    computes is a SELECT before it. *)
From Coq Require Import String List Arith Bool.
From Verif Require Import Prelude Forest CommonModel Order History ConcModel.
From Verif Require Import LTModel.
Import ListNotations.

(** A method that reads nodes, e.g. /repo/treebeard/models.py:545-577 *)
Definition reads {A} (f : lt_table -> res A) (c : A -> prog ltrow) : prog ltrow :=
  Select (fun t => or_raise (f t) c).

Section LT.
Variable cfg : lt_cfg.

(** queryset.update(path=...), /repo/treebeard/ltree/__init__.py:318-324, 443-469 *)
Definition lt_update (cond : ltrow -> bool) (g : lpath -> lpath) (c : prog ltrow) : prog ltrow :=
  Select (fun t =>
    if forallb (fun r => negb (cond r) || fits_ltree cfg (g (l_path r))) t
    then Update cond (fun r => mkLT (l_pk r) (g (l_path r)) (l_data r)) c
    else Raise DataError).

(** save() of a node that was read before: UPDATE, and INSERT if there is no such row.
    /repo/treebeard/ltree/__init__.py:327 *)
Definition lt_save (row : ltrow) (c : prog ltrow) : prog ltrow :=
  if fits_ltree cfg (l_path row) then
    Select (fun t => if existsb (fun r => l_pk r =? l_pk row) t
                     then Update (fun r => l_pk r =? l_pk row) (fun _ => row) c
                     else Insert row c)
  else Raise DataError.

(** /repo/treebeard/ltree/__init__.py:434-475 _move_subtree_right *)
Definition lt_right (start : ltrow) (c : prog ltrow) : prog ltrow :=
  let p := l_path start in
  let d := length p in
  let cond r := ppre (parent_path p) (l_path r) && negb (plt (l_path r) p) in
  lt_update (fun r => cond r && (length (l_path r) =? d)) (append_A d)
  (lt_update (fun r => cond r && (d <? length (l_path r))) (append_A d) c).

(** /repo/treebeard/ltree/__init__.py:404-432 _get_new_path; [n] = 2 - num_iters; [c] gets the
    path and nodes_moved *)
Fixpoint lt_new_path (n : nat) (prefix : lpath) (insert_before insert_after : option ltrow) (nodes_moved : bool)
  (c : lpath -> bool -> prog ltrow) : prog ltrow :=
  let b := label_of insert_before in
  let a := label_of insert_after in
  if match falsy b, falsy a with Some b, Some a => lblt b a | _, _ => false end then Raise ValueError
  else
    Select (fun t =>
      let siblings := order_path (filter (fun r => ppre prefix (l_path r) && (length (l_path r) =? length prefix + 1)) t) in
      match generate_path prefix b a (map l_path siblings) with
      | Ok p => c p nodes_moved
      | Err InvalidLabelConstraints =>
          else_raise insert_before AttributeError (fun start =>
          lt_right start
          (reads (fun t => get_by_pk t (l_pk start)) (fun start' =>
          match n with
          | O => Raise PathOverflow
          | S n => lt_new_path n prefix (Some start') insert_after true c
          end)))
      | Err e => Raise e
      end).

(** /repo/treebeard/ltree/__init__.py:229-264 add_sibling *)
Definition lt_sibling (target : ltrow) (p : option string) (x : node) : prog ltrow :=
  or_raise (prepare_pos_add (is_sorted cfg) p) (fun p =>
  reads (fun t => Ok (neighbours cfg t target p (ndata x))) (fun '(b, a) =>
  lt_new_path 2 (parent_path (l_path target)) b a false (fun np _ => lt_insert cfg x np))).

(** add_sibling of a node fetched before. /repo/treebeard/ltree/__init__.py:229-264 *)
Definition lt_add_sibling (k : nat) (p : option string) (x : node) : prog ltrow :=
  reads (fun t => get_by_pk t k) (fun r => lt_sibling r p x).

(** /repo/treebeard/ltree/__init__.py:162-189 add_root *)
Definition lt_add_root_by (x : node) : prog ltrow :=
  reads (fun t => Ok (get_last_root_node t)) (fun last =>
  match last with
  | Some last => if is_sorted cfg then lt_sibling last (Some "sorted-sibling"%string) x
                 else reads (fun t => generate_path [] None None (map l_path (get_root_nodes t))) (lt_insert cfg x)
  | None => or_raise (generate_path [] None None []) (lt_insert cfg x)
  end).

(** /repo/treebeard/ltree/__init__.py:191-227 add_child of a node fetched before. Its row is
    locked, but the path is that of the caller's object. *)
Definition lt_add_child_by (k : nat) (x : node) : prog ltrow :=
  reads (fun t => get_by_pk t k) (fun nd =>
  SelectForUpdate k (fun r => else_raise r DoesNotExist (fun _ =>
  reads (fun t => Ok (is_leaf t nd)) (fun leaf =>
  if is_sorted cfg && negb leaf
  then reads (fun t => opt_res (get_last_child t nd) AttributeError) (fun last => lt_sibling last (Some "sorted-sibling"%string) x)
  else reads (fun t => Ok (is_leaf t nd)) (fun leaf =>
       if leaf : bool then or_raise (generate_path (l_path nd) None None []) (lt_insert cfg x)
       else reads (fun t => opt_res (get_last_child t nd) AttributeError) (fun last =>
            reads (fun t => generate_path (l_path nd) None (Some (last_label (l_path last))) (map l_path (get_children t nd)))
              (lt_insert cfg x))))))).

(** The end of move, /repo/treebeard/ltree/__init__.py:315-327 *)
Definition lt_rewrite (node : ltrow) (np : lpath) : prog ltrow :=
  let old := l_path node in
  lt_update (fun r => ppre old (l_path r) && (length old <? length (l_path r))) (fun q => np ++ skipn (length old) q)
  (lt_save (mkLT (l_pk node) np (l_data node)) Commit).

(** /repo/treebeard/ltree/__init__.py:266-334 move *)
Definition lt_move (n q : nat) (p : option string) : prog ltrow :=
  reads (fun t => get_by_pk t n) (fun nd =>
  reads (fun t => get_by_pk t q) (fun target =>
  or_raise (prepare_pos_move (is_sorted cfg) p) (fun p =>
  let child := match p with FirstChild | LastChild | SortedChild => true | _ => false end in
  if child && (l_pk target =? l_pk nd) then Raise InvalidMoveToDescendant
  else if is_descendant_of target nd then Raise InvalidMoveToDescendant
  else
  reads (fun t => Ok (neighbours cfg t target p (l_data nd))) (fun '(b, a) =>
  lt_new_path 2 (if child then l_path target else parent_path (l_path target)) b a false (fun np moved =>
  if moved : bool then reads (fun t => get_by_pk t n) (fun nd => lt_rewrite nd np)
  else lt_rewrite nd np))))).

(** All calls: /repo/treebeard/ltree/__init__.py:99-128, 162-334 *)
Definition lt_tx (c : call) : prog ltrow :=
  match c with
  | CAddRoot x => lt_add_root_by x
  | CAddChild k x => lt_add_child_by k x
  | CAddSibling k p x => lt_add_sibling k p x
  | CMove n q p => lt_move n q p
  | CDelete l => lt_delete l
  end.
End LT.
