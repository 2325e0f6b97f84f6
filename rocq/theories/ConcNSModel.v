(** The calls on nested sets as transactions, statement by statement (see ConcModel.v): all
    of them, at all positions, with and without node_order_by.

    Simplification: the queries that one method sends to read nodes (the parent and the
    siblings in get_siblings, exists() and first(), ...) are one SELECT here.  The objects
    given to a call are fetched at its begin. *)
From Coq Require Import String List Arith Bool ZArith.
From Verif Require Import Prelude Forest CommonModel Order History ConcModel.
From Verif Require Import NSModel.
Import ListNotations.
Local Open Scope Z_scope.

(** A method that reads nodes, e.g. /repo/treebeard/ns_tree.py:498-505 *)
Definition reads {A} (f : ns_table -> res A) (c : A -> prog nsrow) : prog nsrow :=
  Select (fun t => or_raise (f t) c).

(** The UPDATE of /repo/treebeard/ns_tree.py:566-580 *)
Definition ns_alter (tree start offset : Z) (c : prog nsrow) : prog nsrow :=
  Update (alter_sel tree start) (alter_row start offset) c.
(** The UPDATE of /repo/treebeard/ns_tree.py:582-586 *)
Definition ns_right (tree : Z) (c : prog nsrow) : prog nsrow :=
  Update (fun r => tree <=? n_tree r) inc_tree c.

Section NS.
Variable o : ordering.

(** The sorted case of /repo/treebeard/ns_tree.py:192-198, 213-219, 297-303 *)
Definition read_sorted (p : pos) (tg : nsobj) (data : fields) (t : ns_table) : res (pos * nsobj) :=
  match p with
  | SortedSibling => do sibs <- get_siblings t (o_row tg); Ok (sorted_target o sibs data tg)
  | _ => Ok (p, tg)
  end.

(** newobj.save() of /repo/treebeard/ns_tree.py:138, 177, 253 *)
Definition ns_save (x : node) (tree lft rgt depth : Z) : prog nsrow :=
  Insert (mkNS (nid x) tree lft rgt depth (ndata x)) Commit.

(** /repo/treebeard/ns_tree.py:181-255 add_sibling *)
Definition ns_sibling (target : nsobj) (p : option string) (x : node) : prog nsrow :=
  or_raise (prepare_pos_add (is_sorted o) p) (fun p =>
  let depth := n_depth (o_row target) in
  if is_root (o_row target) then
    reads (read_sorted p target (ndata x)) (fun '(p, target) =>
    reads (fun t => Ok (get_last_root_node t)) (fun last_root =>
    if match p with LastSibling => true | Right => same_pk (o_row target) last_root | _ => false end
    then else_raise last_root AttributeError (fun lr => ns_save x (n_tree lr + 1) 1 2 depth)
    else
      match p with
      | FirstSibling => ns_right 1 (ns_save x 1 1 2 depth)
      | Left => ns_right (n_tree (o_row target)) (ns_save x (n_tree (o_row target)) 1 2 depth)
      | Right => ns_right (n_tree (o_row target) + 1) (ns_save x (n_tree (o_row target) + 1) 1 2 depth)
      | _ => Raise KeyError
      end))
  else
    let tree := n_tree (o_row target) in
    reads (read_sorted p target (ndata x)) (fun '(p, target) =>
    reads (fun t => normalize t p target) (fun '(p, target) =>
    reads (fun t => match p with
                    | LastSibling => parent_rgt t target
                    | FirstSibling | Left => Ok (n_lft (o_row target))
                    | _ => Err KeyError
                    end) (fun newpos =>
    ns_alter (n_tree (o_row target)) newpos 2 (ns_save x tree newpos (newpos + 1) depth))))).

(** add_sibling of a node fetched before. /repo/treebeard/ns_tree.py:181-255 *)
Definition ns_add_sibling (k : nat) (p : option string) (x : node) : prog nsrow :=
  reads (fun t => get_by_pk t k) (fun r => ns_sibling (fresh r) p x).

(** /repo/treebeard/ns_tree.py:112-139 add_root *)
Definition ns_add_root_by (x : node) : prog nsrow :=
  reads (fun t => Ok (get_last_root_node t)) (fun last =>
  match last with
  | Some lr => if is_sorted o then ns_sibling (fresh lr) (Some "sorted-sibling"%string) x
               else ns_save x (n_tree lr + 1) 1 2 1
  | None => ns_save x 1 1 2 1
  end).

(** /repo/treebeard/ns_tree.py:141-179 add_child; the parent is locked (150) *)
Definition ns_add_child_by (k : nat) (x : node) : prog nsrow :=
  SelectForUpdate k (fun r => else_raise r DoesNotExist (fun nd =>
    if is_leaf nd then ns_alter (n_tree nd) (n_rgt nd) 2 (ns_save x (n_tree nd) (n_lft nd + 1) (n_lft nd + 2) (n_depth nd + 1))
    else reads (fun t => Ok (get_last_child t nd)) (fun last => else_raise last AttributeError (fun last =>
           ns_sibling (mkObj last (Some nd)) (Some (if is_sorted o then "sorted-sibling" else "last-sibling"))%string x)))).

(** Making the hole, /repo/treebeard/ns_tree.py:328-350; [c] gets the tree and the place *)
Definition ns_hole (gap : Z) (parent : option nsrow) (tg : nsobj) (p : pos) (c : Z -> Z -> prog nsrow) : prog nsrow :=
  let tr := o_row tg in
  match p with
  | LastChild => else_raise parent AttributeError (fun q => ns_alter (n_tree tr) (n_rgt q) gap (c (n_tree tr) (n_rgt q)))
  | _ =>
      if is_root tr then
        match p with
        | LastSibling => reads (fun t => do l <- get_siblings t tr; match last_opt l with Some l => Ok (n_tree l) | None => Err IndexError end)
                           (fun tree => c (tree + 1) 1)
        | FirstSibling => ns_right 1 (c 1 1)
        | Left => ns_right (n_tree tr) (c (n_tree tr) 1)
        | _ => c (n_tree tr) 1
        end
      else
        match p with
        | LastSibling => reads (fun t => parent_rgt t tg) (fun np => ns_alter (n_tree tr) np gap (c (n_tree tr) np))
        | FirstSibling | Left => ns_alter (n_tree tr) (n_lft tr) gap (c (n_tree tr) (n_lft tr))
        | _ => Raise KeyError
        end
  end.

(** The end of move, /repo/treebeard/ns_tree.py:352-379 *)
Definition ns_jump (n q : nat) (depth : Z) (down : Z) (tree newpos : Z) : prog nsrow :=
  reads (fun t => get_by_pk t n) (fun nd =>
  Update (jump_sel nd) (jump_row tree (newpos - n_lft nd) (depth - n_depth nd + down))
  (ns_alter (n_tree nd) (n_lft nd) (- (n_rgt nd - n_lft nd + 1))
  (reads (fun t => get_by_pk t n) (fun _ => reads (fun t => get_by_pk t q) (fun _ => Commit))))).

(** /repo/treebeard/ns_tree.py:257-379 move *)
Definition ns_move (n q : nat) (p : option string) : prog nsrow :=
  reads (fun t => get_by_pk t n) (fun nd =>
  reads (fun t => get_by_pk t q) (fun target =>
  or_raise (prepare_pos_move (is_sorted o) p) (fun p =>
  reads (fun t => move_target t nd (fresh target) p) (fun '(parent, tg, p) =>
  if is_descendant_of (o_row tg) nd then Raise InvalidMoveToDescendant
  else
  reads (fun t => move_is_noop t nd tg p) (fun noop =>
  if noop : bool then Commit
  else
  let tg := noop_cache nd tg in
  reads (read_sorted p tg (n_data nd)) (fun '(p, tg) =>
  reads (fun t => normalize t p tg) (fun '(p, tg) =>
  ns_hole (n_rgt nd - n_lft nd + 1) parent tg p
    (ns_jump n q (n_depth (o_row tg)) (match parent with Some _ => 1 | None => 0 end))))))))).

(** All calls: /repo/treebeard/ns_tree.py:30-73, 112-379 *)
Definition ns_tx (c : call) : prog nsrow :=
  match c with
  | CAddRoot x => ns_add_root_by x
  | CAddChild k x => ns_add_child_by k x
  | CAddSibling k p x => ns_add_sibling k p x
  | CMove n q p => ns_move n q p
  | CDelete l => ns_delete l
  end.
End NS.
