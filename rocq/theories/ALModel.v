(** Model of /repo/treebeard/al_tree.py: adjacency lists.

    A row has the foreign key [parent] and the integer column [sib_order] (a
    PositiveIntegerField in the documentation; here [Z]).  A model with node_order_by need
    not have a [sib_order] column (/repo/docs/source/al_tree.rst:70-79); then [a_sib] is a
    dummy that no modelled function reads.

    Simplifications: following [node.parent] always queries the database (Django caches
    the related object on the instance, see ALCacheModel.v); a primary key is truthy, so [if node.parent_id]
    tests for NULL; the proxy model branch of get_parent is left out; recursion in Python
    is not limited. *)
From Coq Require Import String List Arith Bool ZArith.
From Verif Require Import Prelude Forest CommonModel.
Import ListNotations.
Local Open Scope Z_scope.

(** /repo/docs/source/al_tree.rst:59-92 *)
Record alrow := mkAL { a_pk : nat; a_parent : option nat; a_sib : Z; a_data : fields }.

Notation al_table := (list alrow).

(** An instance held by the caller and its [_cached_depth], if any:
    /repo/treebeard/al_tree.py:300-303. *)
Record alobj := mkAObj { o_row : alrow; o_depth : option Z }.

(** An instance just read from the database has no cached depth:
    /repo/treebeard/al_tree.py:300-303, 316-319 *)
Definition fresh (r : alrow) : alobj := mkAObj r None.

(** Equality of parent_id values: /repo/treebeard/al_tree.py:335-339 *)
Definition par_eqb (a b : option nat) : bool :=
  match a, b with
  | None, None => true
  | Some x, Some y => (x =? y)%nat
  | _, _ => false
  end.

(** Model.objects.get(pk=...). Done by Django for [node.parent],
    /repo/treebeard/al_tree.py:248-250 *)
Definition get_by_pk (t : al_table) (k : nat) : res alrow :=
  match filter (fun r => (a_pk r =? k)%nat) t with
  | r :: _ => Ok r
  | [] => Err DoesNotExist
  end.

(** ORDER BY on one column; NULL sorts lowest (SQLite, MySQL). The order_by of
    /repo/treebeard/al_tree.py:16-22 *)
Definition val_lt (u v : option Z) : bool :=
  match u, v with
  | None, Some _ => true
  | Some a, Some b => a <? b
  | _, None => false
  end.
(** Equality of one column, NULLs together: /repo/treebeard/al_tree.py:16-22 *)
Definition val_eq (u v : option Z) : bool :=
  match u, v with
  | None, None => true
  | Some a, Some b => a =? b
  | _, _ => false
  end.

(** ORDER BY on the columns of node_order_by ("-" is DESC). /repo/treebeard/al_tree.py:16-22 *)
Fixpoint sql_before (o : ordering) (x y : fields) : bool :=
  match o with
  | [] => false
  | (i, desc) :: o' =>
      (if desc then val_lt (fval y i) (fval x i) else val_lt (fval x i) (fval y i))
      || (val_eq (fval x i) (fval y i) && sql_before o' x y)
  end.

(** aggregate(Max("sib_order")) / aggregate(Min("sib_order")): None for no rows.
    /repo/treebeard/al_tree.py:71, 87-88, 276 *)
Definition agg (f : Z -> Z -> Z) (l : list Z) : option Z :=
  match l with [] => None | x :: l => Some (fold_left f l x) end.
(** [... or 0]. /repo/treebeard/al_tree.py:71, 88, 276 *)
Definition or0 (x : option Z) : Z := match x with Some v => v | None => 0 end.

(** Model.save(): updates the row with this primary key, otherwise inserts.
    /repo/treebeard/al_tree.py:73, 92, 105, 153 *)
Definition save_row (t : al_table) (r : alrow) : al_table :=
  if existsb (fun x => (a_pk x =? a_pk r)%nat) t
  then map (fun x => if (a_pk x =? a_pk r)%nat then r else x) t
  else r :: t.

(** ** Ancestors and depth *)

(** The while loop of /repo/treebeard/al_tree.py:257-263 *)
Fixpoint up_chain (fuel : nat) (t : al_table) (r : alrow) : res al_table :=
  match fuel with
  | O => Err OutOfFuel
  | S k =>
      match a_parent r with
      | None => Ok []
      | Some p => do q <- get_by_pk t p; do l <- up_chain k t q; Ok (l ++ [q])
      end
  end.

(** /repo/treebeard/al_tree.py:252-263 *)
Definition get_ancestors (t : al_table) (n : alrow) : res al_table := up_chain (S (length t)) t n.

(** /repo/treebeard/al_tree.py:238-250 *)
Definition get_parent (t : al_table) (n : alrow) : res (option alrow) :=
  match a_parent n with None => Ok None | Some p => do q <- get_by_pk t p; Ok (Some q) end.

(** /repo/treebeard/al_tree.py:232-236 *)
Definition get_root (t : al_table) (n : alrow) : res alrow :=
  do l <- get_ancestors t n; Ok (match l with [] => n | r :: _ => r end).

(** The counting loop of /repo/treebeard/al_tree.py:323-328: the node and its ancestors *)
Definition count_depth (t : al_table) (n : alrow) : res Z :=
  do l <- get_ancestors t n; Ok (1 + Z.of_nat (length l)).

(** /repo/treebeard/al_tree.py:305-330 get_depth; also returns the object with its new
    cache.  [update] deletes the cached value first. *)
Definition get_depth (t : al_table) (n : alobj) (update : bool) : res (Z * alobj) :=
  match a_parent (o_row n) with
  | None => Ok (1, n)
  | Some _ =>
      match update, o_depth n with
      | false, Some d => Ok (d, n)
      | _, _ => do d <- count_depth t (o_row n); Ok (d, mkAObj (o_row n) (Some d))
      end
  end.

(** /repo/treebeard/al_tree.py:332-339 *)
Definition is_root (r : alrow) : bool := par_eqb (a_parent r) None.
(** /repo/treebeard/al_tree.py:335-336 *)
Definition is_sibling_of (r n : alrow) : bool := par_eqb (a_parent r) (a_parent n).
(** /repo/treebeard/al_tree.py:338-339 *)
Definition is_child_of (r n : alrow) : bool := par_eqb (a_parent r) (Some (a_pk n)).

(** [if max_depth and depth > max_depth], /repo/treebeard/al_tree.py:48 *)
Definition too_deep (max_depth : option Z) (depth : Z) : bool :=
  match max_depth with Some m => negb (m =? 0) && (m <? depth) | None => false end.

(** A for loop collecting results. /repo/treebeard/al_tree.py:52-62 *)
Fixpoint collect {A B} (f : A -> res (list B)) (l : list A) : res (list B) :=
  match l with
  | [] => Ok []
  | x :: l => do a <- f x; do b <- collect f l; Ok (a ++ b)
  end.

(** The query of is_leaf, /repo/treebeard/models.py:36-38 *)
Definition has_children (t : al_table) (k : nat) : bool :=
  existsb (fun r => par_eqb (a_parent r) (Some k)) t.

Section AL.
Variable order_by : ordering.

(** bool(node_order_by). /repo/treebeard/al_tree.py:18-21 *)
Definition is_sorted : bool := match order_by with [] => false | _ => true end.

(** The ordering of the manager, /repo/treebeard/al_tree.py:15-22.  Its first column,
    [parent], is left out because every modelled query fixes the parent. *)
Definition row_before (a b : alrow) : bool :=
  if is_sorted then sql_before order_by (a_data a) (a_data b) else a_sib a <? a_sib b.
(** order_by(...) of /repo/treebeard/al_tree.py:16-22 on a list of rows *)
Definition order_rows (l : al_table) : al_table := isort (fun a b => negb (row_before b a)) l.

(** The rows with a given parent: /repo/treebeard/al_tree.py:155-157 (None) and 194-196 *)
Definition kids (t : al_table) (p : option nat) : al_table :=
  order_rows (filter (fun r => par_eqb (a_parent r) p) t).
(** /repo/treebeard/al_tree.py:155-157 *)
Definition get_root_nodes (t : al_table) : al_table := kids t None.
(** /repo/treebeard/al_tree.py:194-196 *)
Definition get_children (t : al_table) (n : alrow) : al_table := kids t (Some (a_pk n)).

(** /repo/treebeard/al_tree.py:198-205 *)
Definition get_siblings (t : al_table) (n : alrow) : al_table :=
  match a_parent n with Some p => kids t (Some p) | None => get_root_nodes t end.

(** /repo/treebeard/models.py:349-363, 545-577 *)
Definition get_first_root_node t := hd_error (get_root_nodes t).
(** /repo/treebeard/models.py:357-363 *)
Definition get_last_root_node t := last_opt (get_root_nodes t).
(** /repo/treebeard/models.py:545-551 *)
Definition get_first_child t n := hd_error (get_children t n).
(** /repo/treebeard/models.py:553-559 *)
Definition get_last_child t n := last_opt (get_children t n).
(** /repo/treebeard/models.py:561-568 *)
Definition get_first_sibling t n := hd_error (get_siblings t n).
(** /repo/treebeard/models.py:570-577 *)
Definition get_last_sibling t n := last_opt (get_siblings t n).

(** /repo/treebeard/models.py:516-518 and 38-40 *)
Definition get_children_count t n : nat := length (get_children t n).
(** /repo/treebeard/models.py:36-38 *)
Definition is_leaf (t : al_table) (n : alrow) : bool :=
  match get_children t n with [] => true | _ => false end.

(** /repo/treebeard/al_tree.py:226-230.  Without a [sib_order] column ([is_sorted])
    [node.sib_order] is an AttributeError. *)
Definition get_prev_sibling (t : al_table) (n : alrow) : res (option alrow) :=
  if is_sorted then Err AttributeError
  else Ok (last_opt (filter (fun r => a_sib r <? a_sib n) (get_siblings t n))).
(** /repo/treebeard/models.py:591-601 by way of /repo/treebeard/al_tree.py:229-230 *)
Definition get_next_sibling (t : al_table) (n : alrow) : res (option alrow) :=
  if is_sorted then Err AttributeError
  else Ok (hd_error (filter (fun r => a_sib n <? a_sib r) (get_siblings t n))).

(** /repo/treebeard/al_tree.py:47-62 _get_tree_recursively.  [parent] is the node whose
    children are listed and [nhc] its node_has_children; the results carry the
    _cached_depth that the loop assigns. *)
Fixpoint tree_rec (fuel : nat) (t : al_table) (parent : option nat) (nhc : bool) (depth : Z)
  (max_depth : option Z) : res (list alobj) :=
  match fuel with
  | O => Err OutOfFuel
  | S k =>
      if too_deep max_depth depth then Ok []
      else
        let qs := match parent with
                  | Some _ => if nhc then kids t parent else []
                  | None => get_root_nodes t
                  end in
        collect (fun n => do sub <- tree_rec k t (Some (a_pk n)) (has_children t (a_pk n)) (depth + 1) max_depth;
                          Ok (mkAObj n (Some depth) :: sub)) qs
  end.

(** /repo/treebeard/al_tree.py:24-45.  The first result is the parent object itself; its
    depth is cached by get_depth. *)
Definition get_tree (t : al_table) (parent : option alobj) (max_depth : option Z) : res (list alobj) :=
  match parent with
  | Some p =>
      do '(d, p) <- get_depth t p false;
      let m := match max_depth with
               | Some v => if v =? 0 then Some v else Some (v + d)
               | None => None
               end in
      do l <- tree_rec (S (S (length t))) t (Some (a_pk (o_row p))) (negb (is_leaf t (o_row p))) (d + 1) m;
      Ok (p :: l)
  | None => tree_rec (S (S (length t))) t None true 1 max_depth
  end.

(** /repo/treebeard/al_tree.py:207-224 *)
Definition get_descendants (t : al_table) (n : alobj) (include_self : bool) (max_depth : option Z)
  : res (list alobj) :=
  do l <- get_tree t (Some n) max_depth;
  Ok (if include_self then l else tl l).
(** /repo/treebeard/al_tree.py:218-224 *)
Definition get_descendant_count (t : al_table) (n : alobj) (max_depth : option Z) : res nat :=
  do l <- get_descendants t n false max_depth; Ok (length l).

(** /repo/treebeard/al_tree.py:341-346 *)
Definition is_descendant_of (t : al_table) (r : alrow) (n : alobj) : res bool :=
  do l <- get_descendants t n false None;
  Ok (existsb (fun x => (a_pk (o_row x) =? a_pk r)%nat) l).

(** /repo/treebeard/models.py:365-387 *)
Definition get_descendants_group_count (t : al_table) (parent : option alrow) : res (list (alrow * nat)) :=
  collect (fun n => do c <- get_descendant_count t (fresh n) None; Ok [(n, c)])
          (match parent with Some p => get_children t p | None => get_root_nodes t end).

(** ** Adding *)

(** max + 1 among the rows with this parent: /repo/treebeard/al_tree.py:71-72, 87-90 *)
Definition next_sib (t : al_table) (p : option nat) : Z :=
  or0 (agg Z.max (map a_sib (filter (fun r => par_eqb (a_parent r) p) t))) + 1.

(** /repo/treebeard/al_tree.py:64-74 add_root *)
Definition add_root (t : al_table) (x : node) : res (al_table * alobj) :=
  let r := mkAL (nid x) None (if is_sorted then 0 else next_sib t None) (ndata x) in
  Ok (save_row t r, mkAObj r (Some 1)).

(** /repo/treebeard/al_tree.py:76-93 add_child *)
Definition add_child (t : al_table) (target : alobj) (x : node) : res (al_table * alobj) :=
  let p := Some (a_pk (o_row target)) in
  let r := mkAL (nid x) p (if is_sorted then 0 else next_sib t p) (ndata x) in
  Ok (save_row t r, mkAObj r (option_map (fun d => d + 1) (o_depth target))).

(** /repo/treebeard/al_tree.py:265-266 *)
Definition is_target_pos_the_last_sibling (t : al_table) (p : pos) (target : alrow) : bool :=
  match p with
  | LastSibling => true
  | Right => match get_last_sibling t target with
             | Some l => (a_pk target =? a_pk l)%nat
             | None => false
             end
  | _ => false
  end.

(** [F("sib_order") + 1], /repo/treebeard/al_tree.py:278-280 *)
Definition inc_sib (r : alrow) : alrow := mkAL (a_pk r) (a_parent r) (a_sib r + 1) (a_data r).

(** /repo/treebeard/al_tree.py:268-281 *)
Definition make_hole_and_get_sibling_order (t : al_table) (p : pos) (target : alrow) : res (al_table * Z) :=
  do '(siblings, sib_order) <-
    match p with
    | Left => Ok (filter (fun r => a_sib target <=? a_sib r) (get_siblings t target), a_sib target)
    | Right => Ok (filter (fun r => a_sib target <? a_sib r) (get_siblings t target), a_sib target + 1)
    | FirstSibling => Ok (get_siblings t target, 1)
    | _ => Err KeyError
    end;
  let m := or0 (agg Z.min (map a_sib siblings)) in
  if m =? 0 then Ok (t, sib_order)
  else Ok (map (fun r => if (m <=? a_sib r) && par_eqb (a_parent r) (a_parent target) then inc_sib r else r) t,
           sib_order).

(** /repo/treebeard/al_tree.py:283-287 *)
Definition get_new_sibling_order (t : al_table) (p : pos) (target : alrow) : res (al_table * Z) :=
  if is_target_pos_the_last_sibling t p target then
    match get_last_sibling t target with
    | Some l => Ok (t, a_sib l + 1)
    | None => Err AttributeError
    end
  else make_hole_and_get_sibling_order t p target.

(** /repo/treebeard/al_tree.py:95-106 add_sibling *)
Definition add_sibling (t : al_table) (target : alrow) (p : option string) (x : node) : res (al_table * alobj) :=
  do p <- prepare_pos_add is_sorted p;
  do '(t, s) <- (if is_sorted then Ok (t, 0) else get_new_sibling_order t p target);
  let r := mkAL (nid x) (a_parent target) s (ndata x) in
  Ok (save_row t r, fresh r).

(** ** Moving *)

(** Child positions, /repo/treebeard/al_tree.py:120-136: the target, the parent (if the
    target is a leaf), the position and the sib_order (if fixed already). *)
Definition move_target (t : al_table) (node target : alrow) (p : pos)
  : res (alrow * option alrow * pos * option Z) :=
  match p with
  | FirstChild | LastChild | SortedChild =>
      if (a_pk node =? a_pk target)%nat then Err InvalidMoveToDescendant
      else if negb (is_leaf t target) then
        match get_last_child t target with
        | None => Err AttributeError
        | Some c => Ok (c, None, match p with
                                 | FirstChild => FirstSibling
                                 | LastChild => LastSibling
                                 | _ => SortedSibling
                                 end, None)
        end
      else match p with
           | SortedChild => Ok (target, Some target, SortedSibling, None)
           | _ => Ok (target, Some target, FirstSibling, Some 1)
           end
  | _ => Ok (target, None, p, None)
  end.

(** [==] of model instances, which compares primary keys, in /repo/treebeard/al_tree.py:265-266 *)
Definition same_row (a : alrow) (b : option alrow) : bool :=
  match b with Some b => (a_pk a =? a_pk b)%nat | None => false end.

(** /repo/treebeard/al_tree.py:141-147 *)
Definition move_is_noop (t : al_table) (node target : alrow) (p : pos) : bool :=
  (a_pk node =? a_pk target)%nat &&
  match p with
  | Left => true
  | Right | LastSibling => same_row target (get_last_sibling t target)
  | FirstSibling => same_row target (get_first_sibling t target)
  | _ => false
  end.

(** /repo/treebeard/al_tree.py:108-153 move.  Returns the table and the caller's node
    object: is_descendant_of has called get_depth on it (via get_tree), which caches the
    depth; move assigns parent and sib_order but leaves the cache. *)
Definition move (t : al_table) (node : alobj) (target : alrow) (p : option string) : res (al_table * alobj) :=
  do p <- prepare_pos_move is_sorted p;
  do '(tg, parent, p, sib_order) <- move_target t (o_row node) target p;
  do d <- is_descendant_of t tg node;
  if d then Err InvalidMoveToDescendant
  else
  do '(_, node) <- get_depth t node false;
  if move_is_noop t (o_row node) tg p then Ok (t, node)
  else
  let up := match parent with Some q => Some (a_pk q) | None => a_parent tg end in
  do '(t1, s) <-
    match p with
    | SortedSibling => Ok (t, a_sib (o_row node))
    | _ => match sib_order with
           | Some s => Ok (t, s)
           | None => get_new_sibling_order t p tg
           end
    end;
  let r := mkAL (a_pk (o_row node)) up s (a_data (o_row node)) in
  Ok (save_row t1 r, mkAObj r (o_depth node)).
End AL.

(** ** Deletion: QuerySet.delete() of Django with ON DELETE CASCADE on [parent] (the
    documentation's model, /repo/docs/source/al_tree.rst:76-78); reached through
    /repo/treebeard/models.py:97-100.  The collector adds the rows that refer to collected
    rows until there are no new ones. *)
Definition in_pks (l : list nat) (k : nat) : bool := existsb (Nat.eqb k) l.
(** One round of Django's collector for on_delete=CASCADE, /repo/docs/source/al_tree.rst:59-92 *)
Definition cascade_step (t : al_table) (s : list nat) : list nat :=
  map a_pk (filter (fun r => in_pks s (a_pk r) ||
                             match a_parent r with Some p => in_pks s p | None => false end) t).
(** All rounds of the collector, /repo/docs/source/al_tree.rst:59-92 *)
Fixpoint cascade (fuel : nat) (t : al_table) (s : list nat) : list nat :=
  match fuel with O => s | S k => cascade k t (cascade_step t s) end.
(** QuerySet.delete() of Django, which /repo/treebeard/al_tree.py does not override *)
Definition delete_queryset (t : al_table) (sel : alrow -> bool) : al_table :=
  let s := cascade (length t) t (map a_pk (filter sel t)) in
  filter (fun r => negb (in_pks s (a_pk r))) t.
(** /repo/treebeard/models.py:97-103 *)
Definition delete_node (t : al_table) (n : alrow) : al_table :=
  delete_queryset t (fun r => (a_pk r =? a_pk n)%nat).
