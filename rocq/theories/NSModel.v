(** Model of /repo/treebeard/ns_tree.py: nested sets.

    The integer columns are [Z] (PositiveIntegerField in the source; a negative
    value is not modelled as an error).  The table is a list of rows in no
    particular order.  [ns_db] also records the signals sent. *)
From Coq Require Import String List Arith Bool ZArith.
From Verif Require Import Prelude Forest CommonModel.
Import ListNotations.
Local Open Scope Z_scope.

(** A row / a model instance: /repo/treebeard/ns_tree.py:598-601 and the user's columns. *)
Record nsrow := mkNS { n_pk : nat; n_tree : Z; n_lft : Z; n_rgt : Z; n_depth : Z; n_data : fields }.

Notation ns_table := (list nsrow).

(** An instance held by the caller together with its [_cached_parent_obj], if any:
    /repo/treebeard/ns_tree.py:609-612. *)
Record nsobj := mkObj { o_row : nsrow; o_up : option nsrow }.

(** An instance just read from the database has no cached parent:
    /repo/treebeard/ns_tree.py:524-540 *)
Definition fresh (r : nsrow) : nsobj := mkObj r None.

(** The signals of /repo/treebeard/ns_tree.py:17-20 with their arguments. *)
Inductive ns_sig :=
| GapAltered (tree start offset : Z)
| TreeIdsIncremented (min_tree : Z)
| SubtreeMoved (tree lft rgt target_tree index_offset depth_offset : Z)
| NodesDeleted (ranges : list (Z * Z * Z)).

(** The table and the signals of /repo/treebeard/ns_tree.py:17-20 *)
Record ns_db := mkNSDB { ns_rows : ns_table; ns_sigs : list ns_sig }.

(** ** Predicates on instances *)

(** /repo/treebeard/ns_tree.py:618-620 *)
Definition is_leaf (r : nsrow) : bool := n_rgt r - n_lft r =? 1.
(** /repo/treebeard/ns_tree.py:622-624 *)
Definition is_root (r : nsrow) : bool := n_lft r =? 1.
(** /repo/treebeard/ns_tree.py:626-631 *)
Definition is_descendant_of (r n : nsrow) : bool :=
  (n_tree r =? n_tree n) && (n_lft n <? n_lft r) && (n_rgt r <? n_rgt n).

(** ** Queries *)

(** ORDER BY tree_id, lft: /repo/treebeard/ns_tree.py:82-84 *)
Definition row_key (r : nsrow) : Z * Z := (n_tree r, n_lft r).
(** order_by("tree_id", "lft"), /repo/treebeard/ns_tree.py:82-84 *)
Definition pair_lt (x y : Z * Z) : bool :=
  (fst x <? fst y) || ((fst x =? fst y) && (snd x <? snd y)).
(** order_by("tree_id", "lft"), /repo/treebeard/ns_tree.py:82-84 *)
Definition order_rows (l : ns_table) : ns_table := isort (le_key row_key pair_lt) l.

(** Model.objects.get(pk=...). /repo/treebeard/models.py:110-112 *)
Definition get_by_pk (t : ns_table) (k : nat) : res nsrow :=
  match filter (fun r => (n_pk r =? k)%nat) t with
  | r :: _ => Ok r
  | [] => Err DoesNotExist
  end.

(** [if max_depth: filters["depth__lte"] = ...], /repo/treebeard/ns_tree.py:107-108:
    0 counts as absent. *)
Definition depth_ok (max_depth : option Z) (base : Z) (r : nsrow) : bool :=
  match max_depth with
  | None => true
  | Some d => if d =? 0 then true else n_depth r <=? d + base
  end.

(** /repo/treebeard/ns_tree.py:86-110 *)
Definition get_tree (t : ns_table) (parent : option nsrow) (max_depth : option Z) : ns_table :=
  match parent with
  | Some p =>
      if is_leaf p then order_rows (filter (fun r => (n_pk r =? n_pk p)%nat) t)
      else order_rows (filter (fun r => (n_tree r =? n_tree p) &&
             ((n_lft p <=? n_lft r) && (n_lft r <=? n_rgt p - 1)) && depth_ok max_depth (n_depth p) r) t)
  | None => order_rows (filter (depth_ok max_depth 0) t)
  end.

(** /repo/treebeard/ns_tree.py:551-564 *)
Definition get_descendants (t : ns_table) (n : nsrow) (include_self : bool) (max_depth : option Z)
  : ns_table :=
  if include_self then get_tree t (Some n) max_depth
  else if is_leaf n then []
  else filter (fun r => negb (n_pk r =? n_pk n)%nat) (get_tree t (Some n) max_depth).

(** /repo/treebeard/ns_tree.py:494-496 *)
Definition get_children (t : ns_table) (n : nsrow) : ns_table :=
  filter (fun r => n_depth r =? n_depth n + 1) (get_descendants t n false None).

(** /repo/treebeard/ns_tree.py:381-383 *)
Definition get_root_nodes (t : ns_table) : ns_table := order_rows (filter is_root t).

(** /repo/treebeard/ns_tree.py:542-549 *)
Definition get_ancestors (t : ns_table) (n : nsrow) : ns_table :=
  if is_root n then []
  else order_rows (filter (fun r => (n_tree r =? n_tree n) &&
                                    (n_lft r <? n_lft n) && (n_rgt n <? n_rgt r)) t).

(** The query of /repo/treebeard/ns_tree.py:539: [reverse()[0]] of the ancestors. *)
Definition query_parent (t : ns_table) (n : nsrow) : res nsrow :=
  match last_opt (get_ancestors t n) with Some p => Ok p | None => Err IndexError end.

(** /repo/treebeard/ns_tree.py:524-540 with update=False: the cached object wins. *)
Definition get_parent (t : ns_table) (n : nsobj) : res (option nsrow) :=
  if is_root (o_row n) then Ok None
  else match o_up n with
       | Some p => Ok (Some p)
       | None => do p <- query_parent t (o_row n); Ok (Some p)
       end.

(** /repo/treebeard/ns_tree.py:498-505; uses get_parent with update=True. *)
Definition get_siblings (t : ns_table) (n : nsrow) : res ns_table :=
  if n_lft n =? 1 then Ok (get_root_nodes t)
  else do p <- query_parent t n; Ok (get_children t p).

(** /repo/treebeard/ns_tree.py:518-522 *)
Definition get_root (t : ns_table) (n : nsrow) : res nsrow :=
  if n_lft n =? 1 then Ok n
  else match filter (fun r => (n_tree r =? n_tree n) && (n_lft r =? 1)) t with
       | [r] => Ok r
       | [] => Err DoesNotExist
       | _ => Err ValueError (* MultipleObjectsReturned *)
       end.

(** /repo/treebeard/ns_tree.py:507-516.  Without max_depth the source returns the
    float (rgt - lft - 1) / 2; here the quotient of integers, which is that number
    whenever rgt - lft is odd. *)
Definition get_descendant_count (t : ns_table) (n : nsrow) (max_depth : option Z) : Z :=
  match max_depth with
  | None => (n_rgt n - n_lft n - 1) / 2
  | Some d => if d =? 0 then (n_rgt n - n_lft n - 1) / 2
              else Z.of_nat (length (get_descendants t n false max_depth))
  end.

(** /repo/treebeard/models.py:365-387 *)
Definition get_descendants_group_count (t : ns_table) (parent : option nsrow) : list (nsrow * Z) :=
  map (fun n => (n, get_descendant_count t n None))
      (match parent with Some p => get_children t p | None => get_root_nodes t end).

(** /repo/treebeard/models.py:349-363, 545-577 *)
Definition get_first_root_node t := hd_error (get_root_nodes t).
(** /repo/treebeard/models.py:357-363 *)
Definition get_last_root_node t := last_opt (get_root_nodes t).
(** /repo/treebeard/models.py:545-551 *)
Definition get_first_child t n := hd_error (get_children t n).
(** /repo/treebeard/models.py:553-559 *)
Definition get_last_child t n := last_opt (get_children t n).
(** /repo/treebeard/models.py:561-568 *)
Definition get_first_sibling t n : res (option nsrow) := do l <- get_siblings t n; Ok (hd_error l).
(** /repo/treebeard/models.py:570-577 *)
Definition get_last_sibling t n : res (option nsrow) := do l <- get_siblings t n; Ok (last_opt l).

(** /repo/treebeard/models.py:516-518, 42-52: get_children_count, is_sibling_of, is_child_of *)
Definition get_children_count t n : nat := length (get_children t n).
(** [.filter(pk=node.pk).exists()], /repo/treebeard/models.py:40-50 *)
Definition has_pk (l : ns_table) (n : nsrow) : bool := existsb (fun r => (n_pk r =? n_pk n)%nat) l.
(** /repo/treebeard/models.py:40-44 *)
Definition is_sibling_of t (r n : nsrow) : res bool := do l <- get_siblings t r; Ok (has_pk l n).
(** /repo/treebeard/models.py:46-50 *)
Definition is_child_of t (r n : nsrow) : bool := has_pk (get_children t n) r.

(** list.index on the primary keys. /repo/treebeard/models.py:579-601 *)
Fixpoint pk_index (k : nat) (l : list nat) : option nat :=
  match l with
  | [] => None
  | x :: l => if (x =? k)%nat then Some O else option_map S (pk_index k l)
  end.

(** /repo/treebeard/models.py:579-601: index of the node among the primary keys of its
    siblings, then [get(pk=ids[idx -+ 1])]. *)
Definition get_prev_sibling (t : ns_table) (n : nsrow) : res (option nsrow) :=
  do l <- get_siblings t n;
  match pk_index (n_pk n) (map n_pk l) with
  | None => Err ValueError
  | Some O => Ok None
  | Some (S i) => do r <- get_by_pk l (nth i (map n_pk l) O); Ok (Some r)
  end.
(** /repo/treebeard/models.py:591-601 *)
Definition get_next_sibling (t : ns_table) (n : nsrow) : res (option nsrow) :=
  do l <- get_siblings t n;
  match pk_index (n_pk n) (map n_pk l) with
  | None => Err ValueError
  | Some i => if (i <? length l - 1)%nat then do r <- get_by_pk l (nth (S i) (map n_pk l) O); Ok (Some r)
              else Ok None
  end.

(** ** Updates *)

(** The new values of one row in /repo/treebeard/ns_tree.py:573-576 *)
Definition alter_row (start offset : Z) (r : nsrow) : nsrow :=
  mkNS (n_pk r) (n_tree r)
       (if start <=? n_lft r then n_lft r + offset else n_lft r)
       (n_rgt r + offset) (n_depth r) (n_data r).

(** The filter of /repo/treebeard/ns_tree.py:566-580 *)
Definition alter_sel (tree start : Z) (r : nsrow) : bool := (start <=? n_rgt r) && (n_tree r =? tree).

(** /repo/treebeard/ns_tree.py:566-580 _alter_gap *)
Definition alter_gap (db : ns_db) (tree start offset : Z) : ns_db :=
  mkNSDB (map (fun r => if alter_sel tree start r then alter_row start offset r else r) (ns_rows db))
         (ns_sigs db ++ if existsb (alter_sel tree start) (ns_rows db) then [GapAltered tree start offset] else []).

(** /repo/treebeard/ns_tree.py:582-586 _move_tree_right *)
Definition inc_tree (r : nsrow) : nsrow :=
  mkNS (n_pk r) (n_tree r + 1) (n_lft r) (n_rgt r) (n_depth r) (n_data r).
(** /repo/treebeard/ns_tree.py:582-586 *)
Definition move_tree_right (db : ns_db) (tree : Z) : ns_db :=
  mkNSDB (map (fun r => if tree <=? n_tree r then inc_tree r else r) (ns_rows db))
         (ns_sigs db ++ if existsb (fun r => tree <=? n_tree r) (ns_rows db) then [TreeIdsIncremented tree] else []).

(** /repo/treebeard/ns_tree.py:588-590 _close_gap *)
Definition close_gap (db : ns_db) (drop_lft drop_rgt tree : Z) : ns_db :=
  alter_gap db tree drop_lft (- (drop_rgt - drop_lft + 1)).

(** Model.save() of a new instance: Django updates an existing row with the same primary key,
    otherwise inserts. /repo/treebeard/ns_tree.py:138, 177, 253 *)
Definition save_row (db : ns_db) (r : nsrow) : ns_db :=
  if existsb (fun x => (n_pk x =? n_pk r)%nat) (ns_rows db)
  then mkNSDB (map (fun x => if (n_pk x =? n_pk r)%nat then r else x) (ns_rows db)) (ns_sigs db)
  else mkNSDB (r :: ns_rows db) (ns_sigs db).

(** Assigning rgt of an instance: /repo/treebeard/ns_tree.py:159, 172 *)
Definition set_rgt (r : nsrow) (v : Z) : nsrow :=
  mkNS (n_pk r) (n_tree r) (n_lft r) v (n_depth r) (n_data r).

(** [==] of model instances, which compares primary keys: /repo/treebeard/ns_tree.py:203,
    225-237, 287-318 *)
Definition same_pk (a : nsrow) (b : option nsrow) : bool :=
  match b with Some b => (n_pk a =? n_pk b)%nat | None => false end.

(** The loop of /repo/treebeard/ns_tree.py:226-233 and 313-320: the sibling after the
    target; the target itself if there is none. *)
Fixpoint after_target (target : nsrow) (l : ns_table) : option nsrow :=
  match l with
  | [] => None
  | r :: l => if (n_pk r =? n_pk target)%nat then hd_error l else after_target target l
  end.

Section NS.
Variable order_by : ordering.

(** bool(node_order_by). /repo/treebeard/ns_tree.py:120 *)
Definition is_sorted : bool := match order_by with [] => false | _ => true end.

(** The sorted case, /repo/treebeard/ns_tree.py:192-198, 213-219, 297-303: the position
    and target become "left" of the first greater sibling, or "last-sibling".  The
    preceding get_siblings(target) has renewed the cached parent of the target, so the
    old one is dropped here (the query gives the same row again). *)
Definition sorted_target (siblings : ns_table) (data : fields) (target : nsobj) : pos * nsobj :=
  match filter (fun r => sorted_after order_by data (n_data r)) siblings with
  | s :: _ => (Left, fresh s)
  | [] => (LastSibling, fresh (o_row target))
  end.

(** /repo/treebeard/ns_tree.py:221-239 and 304-326: reduces the positions to
    first-sibling, left and last-sibling.  As above, get_siblings(target) renews the
    cached parent. *)
Definition normalize (t : ns_table) (p : pos) (target : nsobj) : res (pos * nsobj) :=
  match p with
  | Left | Right | FirstSibling =>
      do siblings <- get_siblings t (o_row target);
      let '(p, target) :=
        match p with
        | Right =>
            if same_pk (o_row target) (last_opt siblings) then (LastSibling, fresh (o_row target))
            else (Left, match after_target (o_row target) siblings with
                        | Some s => fresh s
                        | None => target
                        end)
        | _ => (p, target)
        end in
      let p := match p with
               | Left => if same_pk (o_row target) (hd_error siblings) then FirstSibling else Left
               | _ => p
               end in
      match p with
      | FirstSibling =>
          match hd_error siblings with
          | Some s => Ok (FirstSibling, fresh s)
          | None => Err AttributeError (* target = None, then target.lft *)
          end
      | _ => Ok (p, target)
      end
  | _ => Ok (p, target)
  end.

(** get_parent(target).rgt. /repo/treebeard/ns_tree.py:243, 342 *)
Definition parent_rgt (t : ns_table) (target : nsobj) : res Z :=
  do p <- get_parent t target;
  match p with Some p => Ok (n_rgt p) | None => Err AttributeError end.

(** /repo/treebeard/ns_tree.py:181-255 add_sibling.  [x] is the new instance.  Returns the
    database and the new row.  (The cached parent that the call leaves on the target
    object is [sibling_cache] below.) *)
Definition add_sibling (db : ns_db) (target : nsobj) (p : option string) (x : node)
  : res (ns_db * nsrow) :=
  do p <- prepare_pos_add is_sorted p;
  let t := ns_rows db in
  let depth := n_depth (o_row target) in
  if is_root (o_row target) then
    do '(p, target) <-
      match p with
      | SortedSibling =>
          do sibs <- get_siblings t (o_row target); Ok (sorted_target sibs (ndata x) target)
      | _ => Ok (p, target)
      end;
    let last_root := get_last_root_node t in
    if match p with LastSibling => true | Right => same_pk (o_row target) last_root | _ => false end
    then
      match last_root with
      | None => Err AttributeError
      | Some lr => let r := mkNS (nid x) (n_tree lr + 1) 1 2 depth (ndata x) in Ok (save_row db r, r)
      end
    else
      match (match p with
             | FirstSibling => Some 1
             | Left => Some (n_tree (o_row target))
             | Right => Some (n_tree (o_row target) + 1)
             | _ => None
             end) with
      | None => Err KeyError
      | Some newpos =>
          let r := mkNS (nid x) newpos 1 2 depth (ndata x) in
          Ok (save_row (move_tree_right db newpos) r, r)
      end
  else
    let tree := n_tree (o_row target) in
    do '(p, target) <-
      match p with
      | SortedSibling =>
          do sibs <- get_siblings t (o_row target); Ok (sorted_target sibs (ndata x) target)
      | _ => Ok (p, target)
      end;
    do '(p, target) <- normalize t p target;
    do newpos <- match p with
                 | LastSibling => parent_rgt t target
                 | FirstSibling | Left => Ok (n_lft (o_row target))
                 | _ => Err KeyError
                 end;
    let r := mkNS (nid x) tree newpos (newpos + 1) depth (ndata x) in
    Ok (save_row (alter_gap db (n_tree (o_row target)) newpos 2) r, r).

(** The [_cached_parent_obj] of the caller's target after add_sibling: get_siblings queries it
    anew (line 505), get_parent(target) for "last-sibling" keeps a cached one.
    /repo/treebeard/ns_tree.py:222, 498-505 *)
Definition sibling_cache (db : ns_db) (target : nsobj) (p : option string) : res nsobj :=
  do p <- prepare_pos_add is_sorted p;
  if is_root (o_row target) then Ok target
  else match p, o_up target with
       | LastSibling, Some _ => Ok target
       | _, _ => do q <- query_parent (ns_rows db) (o_row target); Ok (mkObj (o_row target) (Some q))
       end.

(** /repo/treebeard/ns_tree.py:112-139 add_root *)
Definition add_root (db : ns_db) (x : node) : res (ns_db * nsrow) :=
  match get_last_root_node (ns_rows db) with
  | Some lr =>
      if is_sorted then add_sibling db (fresh lr) (Some "sorted-sibling"%string) x
      else let r := mkNS (nid x) (n_tree lr + 1) 1 2 1 (ndata x) in Ok (save_row db r, r)
  | None => let r := mkNS (nid x) 1 1 2 1 (ndata x) in Ok (save_row db r, r)
  end.

(** /repo/treebeard/ns_tree.py:141-179 add_child.  The third component is the caller's
    target object afterwards (only its rgt is assigned); line 158 assigns
    (node.rgt + 2) + 2. *)
Definition add_child (db : ns_db) (target : nsrow) (x : node) : res (ns_db * nsrow * nsrow) :=
  do node <- get_by_pk (ns_rows db) (n_pk target);
  if negb (is_leaf node) then
    let p := if is_sorted then "sorted-sibling"%string else "last-sibling"%string in
    match get_last_child (ns_rows db) node with
    | None => Err AttributeError
    | Some last_child =>
        do '(db', r) <- add_sibling db (mkObj last_child (Some node)) (Some p) x;
        Ok (db', r, set_rgt target (n_rgt node + 2 + 2))
    end
  else
    let db' := alter_gap db (n_tree node) (n_rgt node) 2 in
    let r := mkNS (nid x) (n_tree node) (n_lft node + 1) (n_lft node + 2) (n_depth node + 1) (ndata x) in
    Ok (save_row db' r, r, set_rgt target (n_rgt node + 2)).

(** The UPDATE of /repo/treebeard/ns_tree.py:358-364 *)
Definition jump_sel (node : nsrow) (r : nsrow) : bool :=
  (n_tree r =? n_tree node) && ((n_lft node <=? n_lft r) && (n_lft r <=? n_rgt node)).
(** The SET clauses of /repo/treebeard/ns_tree.py:358-363 *)
Definition jump_row (tree jump depthdiff : Z) (r : nsrow) : nsrow :=
  mkNS (n_pk r) tree (n_lft r + jump) (n_rgt r + jump) (n_depth r + depthdiff) (n_data r).
(** /repo/treebeard/ns_tree.py:356-374 *)
Definition jump_rows (db : ns_db) (node : nsrow) (tree jump depthdiff : Z) : ns_db :=
  mkNSDB (map (fun r => if jump_sel node r then jump_row tree jump depthdiff r else r) (ns_rows db))
         (ns_sigs db ++ if existsb (jump_sel node) (ns_rows db)
                        then [SubtreeMoved (n_tree node) (n_lft node) (n_rgt node) tree jump depthdiff] else []).

(** The first half of move, /repo/treebeard/ns_tree.py:271-285: child positions. *)
Definition move_target (t : ns_table) (node : nsrow) (target : nsobj) (p : pos)
  : res (option nsrow * nsobj * pos) :=
  match p with
  | FirstChild | LastChild | SortedChild =>
      if (n_pk node =? n_pk (o_row target))%nat then Err InvalidMoveToDescendant
      else if is_leaf (o_row target) then Ok (Some (o_row target), target, LastChild)
      else match get_last_child t (o_row target) with
           | None => Err AttributeError
           | Some c => Ok (None, fresh c, match p with
                                          | FirstChild => FirstSibling
                                          | LastChild => LastSibling
                                          | _ => SortedSibling
                                          end)
           end
  | _ => Ok (None, target, p)
  end.

(** The no-op test, /repo/treebeard/ns_tree.py:290-296 *)
Definition move_is_noop (t : ns_table) (node : nsrow) (target : nsobj) (p : pos) : res bool :=
  if (n_pk node =? n_pk (o_row target))%nat then
    match p with
    | Left => Ok true
    | Right | LastSibling => do l <- get_last_sibling t (o_row target); Ok (same_pk (o_row target) l)
    | FirstSibling => do l <- get_first_sibling t (o_row target); Ok (same_pk (o_row target) l)
    | _ => Ok false
    end
  else Ok false.

(** get_last_sibling / get_first_sibling of the no-op test renew the cached parent.
    /repo/treebeard/ns_tree.py:287-293 *)
Definition noop_cache (node : nsrow) (target : nsobj) : nsobj :=
  if (n_pk node =? n_pk (o_row target))%nat then fresh (o_row target) else target.

(** Making the hole, /repo/treebeard/ns_tree.py:328-350.  Returns the database, the tree
    id and the lft of the new place. *)
Definition make_hole (db : ns_db) (gap : Z) (parent : option nsrow) (target : nsobj) (p : pos)
  : res (ns_db * Z * Z) :=
  let t := ns_rows db in
  let tr := o_row target in
  match p with
  | LastChild =>
      match parent with
      | Some q => Ok (alter_gap db (n_tree tr) (n_rgt q) gap, n_tree tr, n_rgt q)
      | None => Err AttributeError
      end
  | _ =>
      if is_root tr then
        match p with
        | LastSibling =>
            do sibs <- get_siblings t tr;
            match last_opt sibs with
            | Some l => Ok (db, n_tree l + 1, 1)
            | None => Err IndexError
            end
        | FirstSibling => Ok (move_tree_right db 1, 1, 1)
        | Left => Ok (move_tree_right db (n_tree tr), n_tree tr, 1)
        | _ => Ok (db, n_tree tr, 1)
        end
      else
        match p with
        | LastSibling => do np <- parent_rgt t target; Ok (alter_gap db (n_tree tr) np gap, n_tree tr, np)
        | FirstSibling | Left => Ok (alter_gap db (n_tree tr) (n_lft tr) gap, n_tree tr, n_lft tr)
        | _ => Err KeyError (* UnboundLocalError: newpos *)
        end
  end.

(** /repo/treebeard/ns_tree.py:257-379 move.  Returns the database and the caller's node
    and target objects. *)
Definition move (db : ns_db) (node target : nsobj) (p : option string) : res (ns_db * nsobj * nsobj) :=
  do p <- prepare_pos_move is_sorted p;
  let t := ns_rows db in
  let nd := o_row node in
  do '(parent, tg, p) <- move_target t nd target p;
  if is_descendant_of (o_row tg) nd then Err InvalidMoveToDescendant
  else
  do noop <- move_is_noop t nd tg p;
  if noop then Ok (db, node, target)
  else
  let tg := noop_cache nd tg in
  do '(p, tg) <-
    match p with
    | SortedSibling => do sibs <- get_siblings t (o_row tg); Ok (sorted_target sibs (n_data nd) tg)
    | _ => Ok (p, tg)
    end;
  do '(p, tg) <- normalize t p tg;
  let gap := n_rgt nd - n_lft nd + 1 in
  do '(db1, target_tree, newpos) <- make_hole db gap parent tg p;
  do nd1 <- get_by_pk (ns_rows db1) (n_pk nd);
  let depthdiff := n_depth (o_row tg) - n_depth nd1 + (match parent with Some _ => 1 | None => 0 end) in
  let jump := newpos - n_lft nd1 in
  let db2 := jump_rows db1 nd1 target_tree jump depthdiff in
  let db3 := close_gap db2 (n_lft nd1) (n_rgt nd1) (n_tree nd1) in
  do nd2 <- get_by_pk (ns_rows db3) (n_pk nd);
  do tg2 <- get_by_pk (ns_rows db3) (n_pk (o_row target));
  Ok (db3, fresh nd2, fresh tg2).
End NS.

(** ** Deletion *)

(** The loop of /repo/treebeard/ns_tree.py:44-57 *)
Fixpoint delete_ranges (last : option nsrow) (l : ns_table) : list (Z * Z * Z) :=
  match l with
  | [] => []
  | r :: l =>
      if match last with
         | Some p => (n_tree p =? n_tree r) && (n_lft p <=? n_lft r) && (n_rgt r <=? n_rgt p)
         | None => false
         end
      then delete_ranges last l
      else (n_tree r, n_lft r, n_rgt r) :: delete_ranges (Some r) l
  end.

(** The Q objects of /repo/treebeard/ns_tree.py:54 *)
Definition in_del_range (r : nsrow) (x : Z * Z * Z) : bool :=
  let '(tree, lft, rgt) := x in (lft <=? n_lft r) && (n_lft r <=? rgt) && (n_tree r =? tree).

(** Python's order on tuples. /repo/treebeard/ns_tree.py:71 *)
Definition triple_lt (x y : Z * Z * Z) : bool :=
  pair_lt (fst x) (fst y) || ((fst (fst x) =? fst (fst y)) && (snd (fst x) =? snd (fst y)) && (snd x <? snd y)).
(** sorted(ranges, reverse=True). /repo/treebeard/ns_tree.py:71 *)
Definition sort_ranges (l : list (Z * Z * Z)) : list (Z * Z * Z) :=
  isort (fun x y => negb (triple_lt x y)) l.

(** /repo/treebeard/ns_tree.py:30-73 delete; [sel] is the filter of the queryset.
    (Rows of other tables removed by cascades are not modelled.) *)
Definition delete_queryset (db : ns_db) (sel : nsrow -> bool) : ns_db :=
  let ranges := delete_ranges None (order_rows (filter sel (ns_rows db))) in
  match ranges with
  | [] => db
  | _ =>
      fold_left (fun d x => let '(tree, lft, rgt) := x in close_gap d lft rgt tree) (sort_ranges ranges)
        (mkNSDB (filter (fun r => negb (existsb (in_del_range r) ranges)) (ns_rows db))
                (ns_sigs db ++ [NodesDeleted ranges]))
  end.

(** /repo/treebeard/models.py:97-100 Node.delete *)
Definition delete_node (db : ns_db) (n : nsrow) : ns_db :=
  delete_queryset db (fun r => (n_pk r =? n_pk n)%nat).

(** ** find_problems *)

(** The state of the loops of /repo/treebeard/ns_tree.py:450-490: the current group, its
    stack (top first) and has_seen_root_node, and the four lists (reversed). *)
Record fp_state := mkFP {
  fp_tree : option Z; fp_stack : list nsrow; fp_seen : bool;
  fp_reversed : list nat; fp_overlap : list nat; fp_dup : list nat; fp_depth : list nat }.

(** while stack and stack[-1]["rgt"] < node["lft"]: stack.pop().
    /repo/treebeard/ns_tree.py:465-466 *)
Fixpoint pop_left (lft : Z) (stack : list nsrow) : list nsrow :=
  match stack with
  | [] => []
  | s :: st => if n_rgt s <? lft then pop_left lft st else stack
  end.

(** The body of the inner loop: /repo/treebeard/ns_tree.py:459-490 *)
Definition fp_step (initial : Z) (s : fp_state) (r : nsrow) : fp_state :=
  (* groupby: a new tree id starts a new group *)
  let same := match fp_tree s with Some i => i =? n_tree r | None => false end in
  let stack := if same then fp_stack s else [] in
  let seen := if same then fp_seen s else false in
  let check stack' seen' :=
    mkFP (Some (n_tree r)) stack' seen' (fp_reversed s) (fp_overlap s) (fp_dup s)
         (if n_depth r =? initial + Z.of_nat (length stack') then fp_depth s else n_pk r :: fp_depth s) in
  if n_rgt r <=? n_lft r then
    mkFP (Some (n_tree r)) stack seen (n_pk r :: fp_reversed s) (fp_overlap s) (fp_dup s) (fp_depth s)
  else
    match pop_left (n_lft r) stack with
    | [] =>
        if seen then
          mkFP (Some (n_tree r)) [r] seen (fp_reversed s) (fp_overlap s) (n_pk r :: fp_dup s) (fp_depth s)
        else check [r] true
    | top :: st =>
        if (n_lft r <=? n_lft top) || (n_rgt top <=? n_rgt r) then
          mkFP (Some (n_tree r)) (top :: st) seen (fp_reversed s) (n_pk r :: fp_overlap s) (fp_dup s) (fp_depth s)
        else check (r :: top :: st) seen
    end.

(** /repo/treebeard/ns_tree.py:419-492 *)
Definition find_problems (t : ns_table) (parent : option nsrow)
  : list nat * list nat * list nat * list nat :=
  let rows := match parent with
              | Some p => filter (fun r => (n_tree r =? n_tree p) && (n_lft p <=? n_lft r) && (n_rgt r <=? n_rgt p)) t
              | None => t
              end in
  let initial := match parent with Some p => Z.of_nat (length (get_ancestors t p)) | None => 0 end in
  let s := fold_left (fp_step initial) (order_rows rows) (mkFP None [] false [] [] [] []) in
  (rev (fp_reversed s), rev (fp_overlap s), rev (fp_dup s), rev (fp_depth s)).
