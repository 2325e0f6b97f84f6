(** How many SQL statements the calls send.

    The calls of the four implementations once more, with a counter of the SELECT, UPDATE
    and INSERT statements they send; PropsQuery.v proves that apart from the counter they
    are the functions of MPModel.v, NSModel.v, ALModel.v and LTModel.v.

    A QuerySet sends nothing until it is evaluated; iterating over it or taking its truth
    value sends one statement and keeps the rows, first(), last(), exists(), count(),
    get() and reverse()[0] send one statement each unless the rows are kept already (first()
    only), and evaluating none() sends nothing.

    Simplifications: BEGIN, COMMIT and SAVEPOINT are not counted; save() is one statement
    (a new instance has no primary key yet, and there is no multi-table inheritance); the
    objects given by the caller have been read from the database and have no cached parent
    (nested sets excepted, where the cache is modelled), so that [node.parent] of
    an adjacency list sends a statement.  Deletions are counted by the length of
    [MPModel.delete_statements] and [CrashModel.ns_delete_transactions]. *)
From Coq Require Import String List Arith Bool ZArith.
From Verif Require Import Prelude Forest CommonModel.
From Verif Require MPModel MPFixModel NSModel ALModel LTModel.
Import ListNotations.

(** A result and the number of statements sent, /repo/tests/test_treebeard.py:360-361 *)
Notation counted A := (res A * nat)%type.

(** No statement *)
Definition free {A} (r : res A) : counted A := (r, 0).
(** One statement; it counts also if it fails. *)
Definition query {A} (r : res A) : counted A := (r, 1).
(** One after the other; an exception ends the call. *)
Definition andthen {A B} (x : counted A) (f : A -> counted B) : counted B :=
  match x with
  | (Ok a, n) => let '(r, k) := f a in (r, n + k)
  | (Err e, n) => (Err e, n)
  end.

Notation "'ask' x <- e1 ; e2" := (andthen e1 (fun x => e2))
  (at level 200, x name, e1 at level 100, e2 at level 200, right associativity).
Notation "'ask' ' p <- e1 ; e2" := (andthen e1 (fun p => e2))
  (at level 200, p strict pattern, e1 at level 100, e2 at level 200, right associativity).

(** ** Materialized paths *)
Module MP.
Import MPModel.
Section MP.
Variable cfg : mp_cfg.

(** A QuerySet that is not evaluated yet, or [None] for [] and none():
    /repo/treebeard/mp_tree.py:465, 564, 788-794 *)
Definition rows_of (siblings : option (list mprow)) : list mprow :=
  match siblings with Some l => l | None => [] end.

(** *** Reading *)

(** get_children evaluated: none() for a leaf. /repo/treebeard/mp_tree.py:867-875 *)
Definition get_children (t : mp_table) (n : mprow) : counted mp_table :=
  if is_leaf n then free (Ok []) else query (Ok (MPModel.get_children cfg t n)).
(** /repo/treebeard/models.py:545-559 *)
Definition get_first_child (t : mp_table) (n : mprow) : counted (option mprow) :=
  if is_leaf n then free (Ok None) else query (Ok (MPModel.get_first_child cfg t n)).
(** /repo/treebeard/models.py:553-559 *)
Definition get_last_child (t : mp_table) (n : mprow) : counted (option mprow) :=
  if is_leaf n then free (Ok None) else query (Ok (MPModel.get_last_child cfg t n)).
(** /repo/treebeard/mp_tree.py:896-909 *)
Definition get_descendants (t : mp_table) (n : mprow) (include_self : bool) (max_depth : option nat) : counted mp_table :=
  if include_self then query (Ok (get_tree t (Some n) max_depth))
  else if is_leaf n then free (Ok []) else query (Ok (MPModel.get_descendants t n false max_depth)).
(** /repo/treebeard/mp_tree.py:911-916 *)
Definition get_root (t : mp_table) (n : mprow) : counted mprow :=
  if is_root n then free (Ok n) else query (MPModel.get_root cfg t n).
(** /repo/treebeard/mp_tree.py:918-935, without a cached parent *)
Definition get_parent (t : mp_table) (n : mprow) : counted (option mprow) :=
  if length (m_path n) / steplen cfg <=? 1 then free (Ok None) else query (MPModel.get_parent cfg t n).
(** /repo/treebeard/mp_tree.py:937-947 *)
Definition get_ancestors (t : mp_table) (n : mprow) : counted mp_table :=
  if is_root n then free (Ok []) else query (Ok (MPModel.get_ancestors cfg t n)).

(** The statements for one row in find_problems: get_parent and the count of the children.
    /repo/treebeard/mp_tree.py:305-335 *)
Definition problem_of (t : mp_table) (n : mprow) : counted (option MPFixModel.problem) :=
  if existsb (fun c => negb (c <? radix cfg)) (m_path n) then free (Ok (Some MPFixModel.EvilChars))
  else if negb (length (m_path n) mod steplen cfg =? 0) then free (Ok (Some MPFixModel.BadSteplen))
  else
    let up := get_parent t n in
    match fst up with
    | Err _ => (Ok (Some MPFixModel.Orphan), snd up)
    | Ok _ =>
        if negb (m_depth n =? length (m_path n) / steplen cfg) then (Ok (Some MPFixModel.WrongDepth), snd up)
        else (Ok (if negb (MPFixModel.real_numchild cfg t n =? m_nc n) then Some MPFixModel.WrongNumchild else None), snd up + 1)
    end.
(** The loop of /repo/treebeard/mp_tree.py:303-335 *)
Fixpoint problem_loop (t : mp_table) (l : list mprow) : counted (list (nat * MPFixModel.problem)) :=
  match l with
  | [] => free (Ok [])
  | r :: l =>
      ask p <- problem_of t r;
      ask ps <- problem_loop t l;
      free (Ok (match p with Some p => (m_pk r, p) :: ps | None => ps end))
  end.
(** /repo/treebeard/mp_tree.py:271-337 *)
Definition find_problems (t : mp_table) (parent : option mprow) : counted (list (nat * MPFixModel.problem)) :=
  ask rows <- query (Ok (filter (MPFixModel.below parent) t));
  problem_loop t rows.

(** *** Writing *)

(** get_last_sibling is asked only for "right". /repo/treebeard/mp_tree.py:766-768 *)
Definition goes_last (t : mp_table) (p : pos) (target : mprow) : counted bool :=
  match p with
  | LastSibling => free (Ok true)
  | Right => query (Ok (same_pk target (get_last_sibling cfg t target)))
  | _ => free (Ok false)
  end.

(** One UPDATE for each sibling that is moved. /repo/treebeard/mp_tree.py:815-831 *)
Fixpoint move_siblings (db : mp_db) (oldpath : option path) (tpath : path) (l : list mprow)
  : counted (mp_db * option path * path) :=
  match l with
  | [] => free (Ok (db, oldpath, tpath))
  | r :: l' =>
      ask inc <- free (inc_path cfg (m_path r));
      ask db' <- query (set_newpath cfg db (m_path r) inc);
      match oldpath with
      | None => move_siblings db' None tpath l'
      | Some op => move_siblings db' (Some (shift_path (m_path r) inc op)) (shift_path (m_path r) inc tpath) l'
      end
  end.

(** /repo/treebeard/mp_tree.py:758-835.  The QuerySet [siblings] is evaluated once: by its
    truth value (794) or by the loop (806). *)
Definition reorder (db : mp_db) (p : pos) (newpos : option nat) (newdepth : nat) (target : mprow)
  (siblings : option (list mprow)) (oldpath : option path) : counted (mp_db * option path * path * path) :=
  let t := db_rows db in
  ask at_end <- goes_last t p target;
  if at_end : bool then
    ask last <- query (opt_res (get_last_sibling cfg t target) AttributeError);
    ask newpath <- free (inc_path cfg (m_path last));
    ask db' <- match oldpath with Some op => query (set_newpath cfg db op newpath) | None => free (Ok db) end;
    free (Ok (db', oldpath, newpath, m_path target))
  else
    ask '(newpos, siblings) <-
      free match newpos with
           | Some n => Ok (n, siblings)
           | None => do '(n, l) <- reorder_pos cfg t p target; Ok (n, Some l)
           end;
    let newpath := get_path cfg (m_path target) newdepth newpos in
    ask siblings <- match siblings with Some l => query (Ok l) | None => free (Ok []) end;
    ask '(db1, tempnewpath) <-
      match oldpath with
      | None => free (Ok (db, None))
      | Some op =>
          if (length op =? length newpath) &&
             peq (get_basepath cfg op (length op / steplen cfg - 1)) (get_basepath cfg newpath (newdepth - 1)) &&
             negb (match siblings with [] => true | _ => false end) && py_lt cfg newpath op
          then
            ask last <- query (opt_res (get_last_sibling cfg t target) AttributeError);
            ask basenum <- free (get_lastpos cfg (m_path last));
            let temp := get_path cfg newpath newdepth (basenum + 2) in
            ask db1 <- query (set_newpath cfg db op temp);
            free (Ok (db1, Some temp))
          else free (Ok (db, None))
      end;
    ask movesiblings <- free (collect_movesiblings cfg newpath siblings);
    ask '(db2, oldpath2, tpath) <- move_siblings db1 oldpath (m_path target) (rev movesiblings);
    match oldpath2 with
    | None => free (Ok (db2, None, newpath, tpath))
    | Some op2 =>
        ask db3 <- query (set_newpath cfg db2 (match tempnewpath with Some x => x | None => op2 end) newpath);
        free (Ok (db3, Some op2, newpath, tpath))
    end.

(** /repo/treebeard/mp_tree.py:436-478 *)
Definition add_sibling (db : mp_db) (target : mprow) (p : option string) (x : newobj) : counted (mp_db * mprow) :=
  ask p <- free (prepare_pos_add (is_sorted cfg) p);
  let t := db_rows db in
  ask '(p, newpos, siblings) <-
    match p with
    | SortedSibling =>
        let siblings := sorted_siblings cfg t target (new_data x) in
        ask first <- query (Ok (hd_error siblings));
        match first with
        | Some first => ask n <- free (get_lastpos cfg (m_path first)); free (Ok (p, Some n, Some siblings))
        | None => free (Ok (LastSibling, None, Some siblings))
        end
    | _ => free (Ok (p, None, None))
    end;
  ask '(db1, _, newpath, _) <- reorder db p newpos (m_depth target) target siblings None;
  let parentpath := get_basepath cfg newpath (m_depth target - 1) in
  ask db2 <- match parentpath with [] => free (Ok db1) | _ => query (Ok (increment_numchild db1 parentpath)) end;
  let r := mkMP (new_pk x) newpath (m_depth target) (new_nc x) (new_data x) in
  ask db3 <- query (save_row db2 r);
  free (Ok (db3, r)).

(** /repo/treebeard/mp_tree.py:339-381 *)
Definition add_root (db : mp_db) (x : newobj) : counted (mp_db * mprow) :=
  ask last <- query (Ok (get_last_root_node (db_rows db)));
  match last with
  | Some last =>
      if is_sorted cfg then add_sibling db last (Some "sorted-sibling"%string) x
      else
        ask newpath <- free (inc_path cfg (m_path last));
        let r := mkMP (new_pk x) newpath 1 (new_nc x) (new_data x) in
        ask db' <- query (save_row db r); free (Ok (db', r))
  | None =>
      let r := mkMP (new_pk x) (get_path cfg [] 1 1) 1 (new_nc x) (new_data x) in
      ask db' <- query (save_row db r); free (Ok (db', r))
  end.

(** /repo/treebeard/mp_tree.py:383-434 *)
Definition add_child (db : mp_db) (target : mprow) (x : newobj) : counted (mp_db * mprow * mprow) :=
  ask node <- query (get_by_pk (db_rows db) (m_pk target));
  if is_sorted cfg && negb (is_leaf node) then
    ask last <- query (opt_res (MPModel.get_last_child cfg (db_rows db) node) AttributeError);
    ask '(db', r) <- add_sibling db last (Some "sorted-sibling"%string) x;
    free (Ok (db', r, set_nc target (S (m_nc target))))
  else
    let depth := m_depth node + 1 in
    ask newpath <-
      (if is_leaf node then
         let np := get_path cfg (m_path node) depth 1 in
         free (if maxlen cfg <? length np then Err PathOverflow else Ok np)
       else
         ask last <- query (opt_res (MPModel.get_last_child cfg (db_rows db) node) AttributeError);
         free (inc_path cfg (m_path last)));
    ask db1 <- query (Ok (mkDB (map (upd_nc_pk (m_pk node) S) (db_rows db)) (db_sig db)));
    let r := mkMP (new_pk x) newpath depth (new_nc x) (new_data x) in
    ask db2 <- query (save_row db1 r);
    free (Ok (db2, r, set_nc target (S (m_nc node)))).

(** /repo/treebeard/mp_tree.py:549-579 *)
Definition move_to_child_vars (t : mp_table) (node target : mprow) (p : pos)
  : counted (mprow * nat * option (list mprow) * option nat * pos * mprow) :=
  match p with
  | FirstChild | LastChild | SortedChild =>
      if m_pk target =? m_pk node then free (Err InvalidMoveToDescendant)
      else
        let parent := set_nc target (S (m_nc target)) in
        if is_leaf target then
          free (Ok (parent, m_depth target + 1, None, Some 1, FirstSibling, parent))
        else
          ask last <- query (opt_res (MPModel.get_last_child cfg t target) AttributeError);
          free (Ok (last, m_depth target + 1, None, None,
                match p with FirstChild => FirstSibling | LastChild => LastSibling | _ => SortedSibling end,
                parent))
  | _ => free (Ok (target, m_depth target, None, None, p, target))
  end.

(** /repo/treebeard/mp_tree.py:536-547 *)
Definition update_parent_counts (db : mp_db) (oldpath newpath : path) : counted mp_db :=
  let op := get_parent_path cfg oldpath in
  let np := get_parent_path cfg newpath in
  if peq op np then free (Ok db)
  else
    ask db <- match op with [] => free (Ok db) | _ => query (Ok (decrement_numchild db op)) end;
    match np with [] => free (Ok db) | _ => query (Ok (increment_numchild db np)) end.

(** /repo/treebeard/mp_tree.py:499-525 *)
Definition move_prepare (t : mp_table) (node target : mprow) (newdepth : nat) (p : pos)
  (newpos : option nat) (siblings : option (list mprow)) : counted (option (pos * option nat * option (list mprow))) :=
  ask r <-
    match p with
    | SortedSibling =>
        let siblings := sorted_siblings cfg t target (m_data node) in
        ask first <- query (Ok (hd_error siblings));
        match first with
        | Some first =>
            ask n <- free (get_lastpos cfg (m_path first));
            ask here <- free (get_lastpos cfg (m_path node));
            free (if peq (get_basepath cfg (m_path node) (m_depth node - 1))
                         (get_basepath cfg (m_path first) (m_depth first - 1)) && (here + 1 =? n)
                  then Ok None
                  else Ok (Some (p, Some n, Some siblings)))
        | None => free (Ok (Some (LastSibling, None, Some siblings)))
        end
    | _ => free (Ok (Some (p, newpos, siblings)))
    end;
  match r with
  | None => free (Ok None)
  | Some (p, newpos, siblings) =>
      ask here <-
        (if newdepth =? m_depth node then
           match p with
           | FirstSibling => query (Ok (same_pk node (get_first_sibling cfg t target)))
           | LastSibling => query (Ok (same_pk node (get_last_sibling cfg t target)))
           | _ => free (Ok false)
           end
         else free (Ok false));
      if here : bool then free (Ok None)
      else
        ask noop <-
          (if m_pk node =? m_pk target then
             match p with
             | Left => free (Ok true)
             | Right | LastSibling => query (Ok (same_pk target (get_last_sibling cfg t target)))
             | _ => free (Ok false)
             end
           else free (Ok false));
        free (if noop : bool then Ok None else Ok (Some (p, newpos, siblings)))
  end.

(** /repo/treebeard/mp_tree.py:480-534 *)
Definition move (db : mp_db) (node target : mprow) (p : option string) : counted (mp_db * mprow * mprow) :=
  ask p <- free (prepare_pos_move (is_sorted cfg) p);
  let t := db_rows db in
  ask '(target1, newdepth, siblings, newpos, p1, user_target) <- move_to_child_vars t node target p;
  let was_child := match p with FirstChild | LastChild | SortedChild => negb (is_leaf target) | _ => false end in
  if is_descendant_of target1 node then free (Err InvalidMoveToDescendant)
  else
    ask r <- move_prepare t node target1 newdepth p1 newpos siblings;
    match r with
    | None => free (Ok (db, node, user_target))
    | Some (p2, newpos, siblings) =>
        ask '(db1, oldpath, newpath, tpath) <- reorder db p2 newpos newdepth target1 siblings (Some (m_path node));
        ask db2 <- update_parent_counts db1 (match oldpath with Some x => x | None => [] end) newpath;
        ask node' <- query (refresh (db_rows db2) node);
        ask target' <- query (refresh (db_rows db2) target1);
        free (Ok (db2, node', if was_child then user_target else target'))
    end.
End MP.
End MP.

(** ** Nested sets *)
Module NS.
Import NSModel.

(** *** Reading *)

(** /repo/treebeard/ns_tree.py:551-564, evaluated *)
Definition get_descendants (t : ns_table) (n : nsrow) (include_self : bool) (max_depth : option Z) : counted ns_table :=
  if include_self then query (Ok (get_tree t (Some n) max_depth))
  else if is_leaf n then free (Ok []) else query (Ok (NSModel.get_descendants t n false max_depth)).
(** /repo/treebeard/ns_tree.py:494-496, evaluated *)
Definition get_children (t : ns_table) (n : nsrow) : counted ns_table :=
  if is_leaf n then free (Ok []) else query (Ok (NSModel.get_children t n)).
(** /repo/treebeard/ns_tree.py:542-549, evaluated *)
Definition get_ancestors (t : ns_table) (n : nsrow) : counted ns_table :=
  if is_root n then free (Ok []) else query (Ok (NSModel.get_ancestors t n)).
(** /repo/treebeard/ns_tree.py:524-540 *)
Definition get_parent (t : ns_table) (n : nsobj) : counted (option nsrow) :=
  if is_root (o_row n) then free (Ok None)
  else match o_up n with
       | Some p => free (Ok (Some p))
       | None => query (NSModel.get_parent t n)
       end.
(** /repo/treebeard/ns_tree.py:518-522 *)
Definition get_root (t : ns_table) (n : nsrow) : counted nsrow :=
  if (n_lft n =? 1)%Z then free (Ok n) else query (NSModel.get_root t n).

(** get_siblings before the QuerySet is evaluated: the parent is asked for already.
    /repo/treebeard/ns_tree.py:498-505 *)
Definition siblings (t : ns_table) (n : nsrow) : counted ns_table :=
  if (n_lft n =? 1)%Z then free (NSModel.get_siblings t n) else query (NSModel.get_siblings t n).
(** get_siblings evaluated; the children of a parent that is no leaf.
    /repo/treebeard/ns_tree.py:498-505 *)
Definition get_siblings (t : ns_table) (n : nsrow) : counted ns_table :=
  ask l <- siblings t n; query (Ok l).
(** /repo/treebeard/models.py:561-577 *)
Definition get_first_sibling (t : ns_table) (n : nsrow) : counted (option nsrow) :=
  ask l <- siblings t n; query (Ok (hd_error l)).
(** /repo/treebeard/models.py:570-577 *)
Definition get_last_sibling (t : ns_table) (n : nsrow) : counted (option nsrow) :=
  ask l <- siblings t n; query (Ok (last_opt l)).
(** /repo/treebeard/models.py:579-589: the list of primary keys, then the siblings once more *)
Definition get_prev_sibling (t : ns_table) (n : nsrow) : counted (option nsrow) :=
  ask l <- get_siblings t n;
  match pk_index (n_pk n) (map n_pk l) with
  | None => free (Err ValueError)
  | Some O => free (Ok None)
  | Some (S i) => ask l <- siblings t n; ask r <- query (get_by_pk l (nth i (map n_pk l) O)); free (Ok (Some r))
  end.
(** /repo/treebeard/models.py:591-601 *)
Definition get_next_sibling (t : ns_table) (n : nsrow) : counted (option nsrow) :=
  ask l <- get_siblings t n;
  match pk_index (n_pk n) (map n_pk l) with
  | None => free (Err ValueError)
  | Some i => if (i <? length l - 1)%nat
              then ask l <- siblings t n; ask r <- query (get_by_pk l (nth (S i) (map n_pk l) O)); free (Ok (Some r))
              else free (Ok None)
  end.
(** /repo/treebeard/models.py:40-44 *)
Definition is_sibling_of (t : ns_table) (r n : nsrow) : counted bool :=
  ask l <- siblings t r; query (Ok (has_pk l n)).
(** /repo/treebeard/models.py:46-50 *)
Definition is_child_of (t : ns_table) (r n : nsrow) : counted bool :=
  ask l <- get_children t n; free (Ok (has_pk l r)).

(** The loop of dump_bulk asks for the parent of every object that is not at the top.
    /repo/treebeard/ns_tree.py:390-416 *)
Fixpoint dump_parents (t : ns_table) (top : Z) (l : ns_table) : counted (list (option nat)) :=
  match l with
  | [] => free (Ok [])
  | r :: l =>
      ask up <- (if (n_depth r =? top)%Z then free (Ok None)
                 else ask q <- get_parent t (fresh r);
                      free match q with Some q => Ok (Some (n_pk q)) | None => Err AttributeError end);
      ask ups <- dump_parents t top l;
      free (Ok (up :: ups))
  end.
(** The statements of dump_bulk, with the parents found. /repo/treebeard/ns_tree.py:385-417 *)
Definition dump_bulk (t : ns_table) (parent : option nsrow) : counted (list (option nat)) :=
  ask l <- query (Ok (get_tree t parent None));
  dump_parents t (match parent with Some p => n_depth p | None => 1%Z end) l.

(** *** Writing *)
Section NS.
Variable order_by : ordering.

(** exists() and first() of the sorted case, /repo/treebeard/ns_tree.py:192-198, 213-219,
    297-303 *)
Definition sorted_target (l : ns_table) (data : fields) (target : nsobj) : counted (pos * nsobj) :=
  ask found <- query (Ok (existsb (fun r => sorted_after order_by data (n_data r)) l));
  if found : bool then query (Ok (NSModel.sorted_target order_by l data target))
  else free (Ok (NSModel.sorted_target order_by l data target)).

(** /repo/treebeard/ns_tree.py:221-239 and 304-326.  After the for loop the rows are kept, so
    that first() sends nothing. *)
Definition normalize (t : ns_table) (p : pos) (target : nsobj) : counted (pos * nsobj) :=
  match p with
  | Left | Right | FirstSibling =>
      ask l <- siblings t (o_row target);
      ask '(p, target, kept) <-
        match p with
        | Right =>
            ask last <- query (Ok (last_opt l));
            if same_pk (o_row target) last then free (Ok (LastSibling, fresh (o_row target), false))
            else ask next <- query (Ok (after_target (o_row target) l));
                 free (Ok (Left, match next with Some s => fresh s | None => target end, true))
        | _ => free (Ok (p, target, false))
        end;
      let first := if kept : bool then free (Ok (hd_error l)) else query (Ok (hd_error l)) in
      ask p <- match p with
               | Left => ask f <- first; free (Ok (if same_pk (o_row target) f then FirstSibling else Left))
               | _ => free (Ok p)
               end;
      match p with
      | FirstSibling =>
          ask f <- first;
          free match f with Some s => Ok (FirstSibling, fresh s) | None => Err AttributeError end
      | _ => free (Ok (p, target))
      end
  | _ => free (Ok (p, target))
  end.

(** get_parent(target).rgt; [asked]: get_siblings(target) has been called, which leaves the
    parent in the cache. /repo/treebeard/ns_tree.py:243, 342, 505, 539 *)
Definition parent_rgt (asked : bool) (t : ns_table) (target : nsobj) : counted Z :=
  if asked then free (NSModel.parent_rgt t target)
  else ask p <- get_parent t target;
       free match p with Some p => Ok (n_rgt p) | None => Err AttributeError end.

(** Positions for which get_siblings(target) is called before the parent is needed:
    /repo/treebeard/ns_tree.py:213-225, 297-310 *)
Definition asks_siblings (p : pos) : bool := match p with SortedSibling | Right => true | _ => false end.

(** /repo/treebeard/ns_tree.py:181-255 *)
Definition add_sibling (db : ns_db) (target : nsobj) (p : option string) (x : node) : counted (ns_db * nsrow) :=
  ask p <- free (prepare_pos_add (is_sorted order_by) p);
  let t := ns_rows db in
  let depth := n_depth (o_row target) in
  let asked := asks_siblings p in
  if is_root (o_row target) then
    ask '(p, target) <-
      match p with
      | SortedSibling => ask sibs <- siblings t (o_row target); sorted_target sibs (ndata x) target
      | _ => free (Ok (p, target))
      end;
    ask last_root <- query (Ok (get_last_root_node t));
    if match p with LastSibling => true | Right => same_pk (o_row target) last_root | _ => false end
    then
      match last_root with
      | None => free (Err AttributeError)
      | Some lr => let r := mkNS (nid x) (n_tree lr + 1) 1 2 depth (ndata x) in query (Ok (save_row db r, r))
      end
    else
      match (match p with
             | FirstSibling => Some 1%Z
             | Left => Some (n_tree (o_row target))
             | Right => Some (n_tree (o_row target) + 1)%Z
             | _ => None
             end) with
      | None => free (Err KeyError)
      | Some newpos =>
          let r := mkNS (nid x) newpos 1 2 depth (ndata x) in
          ask db <- query (Ok (move_tree_right db newpos));
          query (Ok (save_row db r, r))
      end
  else
    let tree := n_tree (o_row target) in
    ask '(p, target) <-
      match p with
      | SortedSibling => ask sibs <- siblings t (o_row target); sorted_target sibs (ndata x) target
      | _ => free (Ok (p, target))
      end;
    ask '(p, target) <- normalize t p target;
    ask newpos <- match p with
                  | LastSibling => parent_rgt asked t target
                  | FirstSibling | Left => free (Ok (n_lft (o_row target)))
                  | _ => free (Err KeyError)
                  end;
    let r := mkNS (nid x) tree newpos (newpos + 1) depth (ndata x) in
    ask db <- query (Ok (alter_gap db (n_tree (o_row target)) newpos 2));
    query (Ok (save_row db r, r)).

(** /repo/treebeard/ns_tree.py:112-139 *)
Definition add_root (db : ns_db) (x : node) : counted (ns_db * nsrow) :=
  ask last <- query (Ok (get_last_root_node (ns_rows db)));
  match last with
  | Some lr =>
      if is_sorted order_by then add_sibling db (fresh lr) (Some "sorted-sibling"%string) x
      else let r := mkNS (nid x) (n_tree lr + 1) 1 2 1 (ndata x) in query (Ok (save_row db r, r))
  | None => let r := mkNS (nid x) 1 1 2 1 (ndata x) in query (Ok (save_row db r, r))
  end.

(** /repo/treebeard/ns_tree.py:141-179 *)
Definition add_child (db : ns_db) (target : nsrow) (x : node) : counted (ns_db * nsrow * nsrow) :=
  ask node <- query (get_by_pk (ns_rows db) (n_pk target));
  if negb (is_leaf node) then
    let p := if is_sorted order_by then "sorted-sibling"%string else "last-sibling"%string in
    ask last <- query (Ok (get_last_child (ns_rows db) node));
    match last with
    | None => free (Err AttributeError)
    | Some last_child =>
        ask '(db', r) <- add_sibling db (mkObj last_child (Some node)) (Some p) x;
        free (Ok (db', r, set_rgt target (n_rgt node + 2 + 2)))
    end
  else
    ask db' <- query (Ok (alter_gap db (n_tree node) (n_rgt node) 2));
    let r := mkNS (nid x) (n_tree node) (n_lft node + 1) (n_lft node + 2) (n_depth node + 1) (ndata x) in
    query (Ok (save_row db' r, r, set_rgt target (n_rgt node + 2))).

(** /repo/treebeard/ns_tree.py:271-285 *)
Definition move_target (t : ns_table) (node : nsrow) (target : nsobj) (p : pos)
  : counted (option nsrow * nsobj * pos) :=
  match p with
  | FirstChild | LastChild | SortedChild =>
      if (n_pk node =? n_pk (o_row target))%nat || is_leaf (o_row target) then free (NSModel.move_target t node target p)
      else query (NSModel.move_target t node target p)
  | _ => free (NSModel.move_target t node target p)
  end.

(** /repo/treebeard/ns_tree.py:290-296 *)
Definition move_is_noop (t : ns_table) (node : nsrow) (target : nsobj) (p : pos) : counted bool :=
  if (n_pk node =? n_pk (o_row target))%nat then
    match p with
    | Left => free (Ok true)
    | Right | LastSibling => ask l <- get_last_sibling t (o_row target); free (Ok (same_pk (o_row target) l))
    | FirstSibling => ask l <- get_first_sibling t (o_row target); free (Ok (same_pk (o_row target) l))
    | _ => free (Ok false)
    end
  else free (Ok false).

(** /repo/treebeard/ns_tree.py:328-350 *)
Definition make_hole (asked : bool) (db : ns_db) (gap : Z) (parent : option nsrow) (target : nsobj) (p : pos)
  : counted (ns_db * Z * Z) :=
  let t := ns_rows db in
  let tr := o_row target in
  match p with
  | LastChild =>
      match parent with
      | Some q => query (Ok (alter_gap db (n_tree tr) (n_rgt q) gap, n_tree tr, n_rgt q))
      | None => free (Err AttributeError)
      end
  | _ =>
      if is_root tr then
        match p with
        | LastSibling =>
            ask sibs <- siblings t tr;
            query (match last_opt sibs with
                   | Some l => Ok (db, n_tree l + 1, 1)%Z
                   | None => Err IndexError
                   end)
        | FirstSibling => query (Ok (move_tree_right db 1, 1, 1)%Z)
        | Left => query (Ok (move_tree_right db (n_tree tr), n_tree tr, 1)%Z)
        | _ => free (Ok (db, n_tree tr, 1)%Z)
        end
      else
        match p with
        | LastSibling =>
            ask np <- parent_rgt asked t target; query (Ok (alter_gap db (n_tree tr) np gap, n_tree tr, np))
        | FirstSibling | Left => query (Ok (alter_gap db (n_tree tr) (n_lft tr) gap, n_tree tr, n_lft tr))
        | _ => free (Err KeyError)
        end
  end.

(** /repo/treebeard/ns_tree.py:257-379 *)
Definition move (db : ns_db) (node target : nsobj) (p : option string) : counted (ns_db * nsobj * nsobj) :=
  ask p <- free (prepare_pos_move (is_sorted order_by) p);
  let t := ns_rows db in
  let nd := o_row node in
  ask '(parent, tg, p) <- move_target t nd target p;
  if is_descendant_of (o_row tg) nd then free (Err InvalidMoveToDescendant)
  else
  ask noop <- move_is_noop t nd tg p;
  if noop : bool then free (Ok (db, node, target))
  else
  let asked := asks_siblings p || (n_pk nd =? n_pk (o_row tg))%nat in
  let tg := noop_cache nd tg in
  ask '(p, tg) <-
    match p with
    | SortedSibling => ask sibs <- siblings t (o_row tg); sorted_target sibs (n_data nd) tg
    | _ => free (Ok (p, tg))
    end;
  ask '(p, tg) <- normalize t p tg;
  let gap := (n_rgt nd - n_lft nd + 1)%Z in
  ask '(db1, target_tree, newpos) <- make_hole asked db gap parent tg p;
  ask nd1 <- query (get_by_pk (ns_rows db1) (n_pk nd));
  let depthdiff := (n_depth (o_row tg) - n_depth nd1 + (match parent with Some _ => 1 | None => 0 end))%Z in
  let jump := (newpos - n_lft nd1)%Z in
  ask db2 <- query (Ok (jump_rows db1 nd1 target_tree jump depthdiff));
  ask db3 <- query (Ok (close_gap db2 (n_lft nd1) (n_rgt nd1) (n_tree nd1)));
  ask nd2 <- query (get_by_pk (ns_rows db3) (n_pk nd));
  ask tg2 <- query (get_by_pk (ns_rows db3) (n_pk (o_row target)));
  free (Ok (db3, fresh nd2, fresh tg2)).
End NS.
End NS.

(** ** Adjacency lists *)
Module AL.
Import ALModel.
Local Open Scope Z_scope.

(** *** Reading *)

(** [node.parent] of each object of the chain. /repo/treebeard/al_tree.py:257-263 *)
Fixpoint up_chain (fuel : nat) (t : al_table) (r : alrow) : counted al_table :=
  match fuel with
  | O => free (Err OutOfFuel)
  | S k =>
      match a_parent r with
      | None => free (Ok [])
      | Some p => ask q <- query (get_by_pk t p); ask l <- up_chain k t q; free (Ok (l ++ [q]))
      end
  end.
(** /repo/treebeard/al_tree.py:252-263 *)
Definition get_ancestors (t : al_table) (n : alrow) : counted al_table := up_chain (S (length t)) t n.
(** /repo/treebeard/al_tree.py:305-330; following [parent] to the root *)
Definition get_depth (t : al_table) (n : alobj) (update : bool) : counted (Z * alobj) :=
  match a_parent (o_row n) with
  | None => free (Ok (1, n))
  | Some _ =>
      match update, o_depth n with
      | false, Some d => free (Ok (d, n))
      | _, _ =>
          ask l <- get_ancestors t (o_row n);
          let d := 1 + Z.of_nat (length l) in
          free (Ok (d, mkAObj (o_row n) (Some d)))
      end
  end.

(** A for loop collecting results. /repo/treebeard/al_tree.py:58-62 *)
Fixpoint collect {A B} (f : A -> counted (list B)) (l : list A) : counted (list B) :=
  match l with
  | [] => free (Ok [])
  | x :: l => ask a <- f x; ask b <- collect f l; free (Ok (a ++ b))
  end.

Section AL.
Variable order_by : ordering.

(** /repo/treebeard/al_tree.py:47-62: node_has_children comes with the rows, none() sends
    nothing. *)
Fixpoint tree_rec (fuel : nat) (t : al_table) (parent : option nat) (nhc : bool) (depth : Z)
  (max_depth : option Z) : counted (list alobj) :=
  match fuel with
  | O => free (Err OutOfFuel)
  | S k =>
      if too_deep max_depth depth then free (Ok [])
      else
        ask qs <- match parent with
                  | Some _ => if nhc then query (Ok (kids order_by t parent)) else free (Ok [])
                  | None => query (Ok (get_root_nodes order_by t))
                  end;
        collect (fun n => ask sub <- tree_rec k t (Some (a_pk n)) (has_children t (a_pk n)) (depth + 1) max_depth;
                          free (Ok (mkAObj n (Some depth) :: sub))) qs
  end.

(** /repo/treebeard/al_tree.py:24-45 *)
Definition get_tree (t : al_table) (parent : option alobj) (max_depth : option Z) : counted (list alobj) :=
  match parent with
  | Some p =>
      ask '(d, p) <- get_depth t p false;
      ask leaf <- query (Ok (is_leaf order_by t (o_row p)));
      let m := match max_depth with
               | Some v => if v =? 0 then Some v else Some (v + d)
               | None => None
               end in
      ask l <- tree_rec (S (S (length t))) t (Some (a_pk (o_row p))) (negb leaf) (d + 1) m;
      free (Ok (p :: l))
  | None => tree_rec (S (S (length t))) t None true 1 max_depth
  end.
(** /repo/treebeard/al_tree.py:207-216 *)
Definition get_descendants (t : al_table) (n : alobj) (include_self : bool) (max_depth : option Z)
  : counted (list alobj) :=
  ask l <- get_tree t (Some n) max_depth;
  free (Ok (if include_self then l else tl l)).
(** /repo/treebeard/al_tree.py:341-346 *)
Definition is_descendant_of (t : al_table) (r : alrow) (n : alobj) : counted bool :=
  ask l <- get_descendants t n false None;
  free (Ok (existsb (fun x => (a_pk (o_row x) =? a_pk r)%nat) l)).

(** *** Writing *)

(** max + 1: one statement without node_order_by. /repo/treebeard/al_tree.py:70-72, 85-90 *)
Definition next_sib (t : al_table) (p : option nat) : counted Z :=
  if is_sorted order_by then free (Ok 0) else query (Ok (ALModel.next_sib t p)).
(** /repo/treebeard/al_tree.py:64-74 *)
Definition add_root (t : al_table) (x : node) : counted (al_table * alobj) :=
  ask s <- next_sib t None;
  let r := mkAL (nid x) None s (ndata x) in
  query (Ok (save_row t r, mkAObj r (Some 1))).
(** /repo/treebeard/al_tree.py:76-93 *)
Definition add_child (t : al_table) (target : alobj) (x : node) : counted (al_table * alobj) :=
  let p := Some (a_pk (o_row target)) in
  ask s <- next_sib t p;
  let r := mkAL (nid x) p s (ndata x) in
  query (Ok (save_row t r, mkAObj r (option_map (fun d => d + 1) (o_depth target)))).

(** /repo/treebeard/al_tree.py:265-266 *)
Definition is_target_pos_the_last_sibling (t : al_table) (p : pos) (target : alrow) : counted bool :=
  match p with
  | Right => query (Ok (ALModel.is_target_pos_the_last_sibling order_by t p target))
  | _ => free (Ok (ALModel.is_target_pos_the_last_sibling order_by t p target))
  end.
(** The aggregate and the UPDATE of /repo/treebeard/al_tree.py:268-281 *)
Definition make_hole_and_get_sibling_order (t : al_table) (p : pos) (target : alrow) : counted (al_table * Z) :=
  ask '(siblings, sib_order) <-
    free match p with
         | Left => Ok (filter (fun r => a_sib target <=? a_sib r) (get_siblings order_by t target), a_sib target)
         | Right => Ok (filter (fun r => a_sib target <? a_sib r) (get_siblings order_by t target), a_sib target + 1)
         | FirstSibling => Ok (get_siblings order_by t target, 1)
         | _ => Err KeyError
         end;
  ask m <- query (Ok (or0 (agg Z.min (map a_sib siblings))));
  if m =? 0 then free (Ok (t, sib_order))
  else query (Ok (map (fun r => if (m <=? a_sib r) && par_eqb (a_parent r) (a_parent target) then inc_sib r else r) t,
                  sib_order)).
(** /repo/treebeard/al_tree.py:283-287 *)
Definition get_new_sibling_order (t : al_table) (p : pos) (target : alrow) : counted (al_table * Z) :=
  ask at_end <- is_target_pos_the_last_sibling t p target;
  if at_end : bool then
    query match get_last_sibling order_by t target with
          | Some l => Ok (t, a_sib l + 1)
          | None => Err AttributeError
          end
  else make_hole_and_get_sibling_order t p target.
(** /repo/treebeard/al_tree.py:95-106 *)
Definition add_sibling (t : al_table) (target : alrow) (p : option string) (x : node) : counted (al_table * alobj) :=
  ask p <- free (prepare_pos_add (is_sorted order_by) p);
  ask '(t, s) <- (if is_sorted order_by then free (Ok (t, 0)) else get_new_sibling_order t p target);
  let r := mkAL (nid x) (a_parent target) s (ndata x) in
  query (Ok (save_row t r, fresh r)).

(** is_leaf, then get_last_child. /repo/treebeard/al_tree.py:120-136 *)
Definition move_target (t : al_table) (node target : alrow) (p : pos)
  : counted (alrow * option alrow * pos * option Z) :=
  match p with
  | FirstChild | LastChild | SortedChild =>
      if (a_pk node =? a_pk target)%nat then free (Err InvalidMoveToDescendant)
      else
        ask leaf <- query (Ok (is_leaf order_by t target));
        if leaf : bool then free (ALModel.move_target order_by t node target p)
        else query (ALModel.move_target order_by t node target p)
  | _ => free (ALModel.move_target order_by t node target p)
  end.
(** /repo/treebeard/al_tree.py:141-147 *)
Definition move_is_noop (t : al_table) (node target : alrow) (p : pos) : counted bool :=
  let r := ALModel.move_is_noop order_by t node target p in
  if (a_pk node =? a_pk target)%nat then
    match p with
    | Right | LastSibling | FirstSibling => query (Ok r)
    | _ => free (Ok r)
    end
  else free (Ok r).
(** [parent or target.parent] loads the parent of the target. /repo/treebeard/al_tree.py:149 *)
Definition new_parent (t : al_table) (parent : option alrow) (tg : alrow) : counted (option nat) :=
  match parent with
  | Some q => free (Ok (Some (a_pk q)))
  | None => match a_parent tg with
            | None => free (Ok None)
            | Some p => query (Ok (Some p))
            end
  end.
(** /repo/treebeard/al_tree.py:108-153.  (The second get_depth is the depth that
    is_descendant_of has left on the object.) *)
Definition move (t : al_table) (node : alobj) (target : alrow) (p : option string) : counted (al_table * alobj) :=
  ask p <- free (prepare_pos_move (is_sorted order_by) p);
  ask '(tg, parent, p, sib_order) <- move_target t (o_row node) target p;
  ask d <- is_descendant_of t tg node;
  if d : bool then free (Err InvalidMoveToDescendant)
  else
  ask '(_, node) <- free (ALModel.get_depth t node false);
  ask noop <- move_is_noop t (o_row node) tg p;
  if noop : bool then free (Ok (t, node))
  else
  ask up <- new_parent t parent tg;
  ask '(t1, s) <-
    match p with
    | SortedSibling => free (Ok (t, a_sib (o_row node)))
    | _ => match sib_order with
           | Some s => free (Ok (t, s))
           | None => get_new_sibling_order t p tg
           end
    end;
  let r := mkAL (a_pk (o_row node)) up s (a_data (o_row node)) in
  query (Ok (save_row t1 r, mkAObj r (o_depth node))).
End AL.
End AL.

(** ** Ltree *)
Module LT.
Import LTModel.
Section LT.
Variable cfg : lt_cfg.

(** *** Reading *)

(** /repo/treebeard/ltree/__init__.py:492-499 *)
Definition get_parent (t : lt_table) (n : ltrow) : counted (option ltrow) :=
  if length (l_path n) =? 1 then free (Ok None) else query (LTModel.get_parent t n).

(** *** Writing *)

(** /repo/treebeard/ltree/__init__.py:434-475: two UPDATE statements *)
Definition move_subtree_right (db : lt_db) (start : ltrow) : counted lt_db :=
  let p := l_path start in
  let d := length p in
  let cond r := ppre (parent_path p) (l_path r) && negb (plt (l_path r) p) in
  ask t1 <- query (update_path cfg (lt_rows db) (fun r => cond r && (length (l_path r) =? d)) (append_A d));
  ask t2 <- query (update_path cfg t1 (fun r => cond r && (d <? length (l_path r))) (append_A d));
  free (Ok (mkLTDB t2 (lt_sig db ++ [MovedRight p]))).

(** /repo/treebeard/ltree/__init__.py:404-432: the paths of the siblings are read in every
    round. *)
Fixpoint get_new_path (n : nat) (db : lt_db) (prefix : lpath) (insert_before insert_after : option ltrow)
  (nodes_moved : bool) : counted (lt_db * lpath * bool) :=
  let b := label_of insert_before in
  let a := label_of insert_after in
  if match falsy b, falsy a with Some b, Some a => lblt b a | _, _ => false end then free (Err ValueError)
  else
    ask siblings <- query (Ok (order_path (filter (fun r => ppre prefix (l_path r) && (length (l_path r) =? length prefix + 1)) (lt_rows db))));
    match generate_path prefix b a (map l_path siblings) with
    | Ok p => free (Ok (db, p, nodes_moved))
    | Err InvalidLabelConstraints =>
        ask start <- free (opt_res insert_before AttributeError);
        ask db' <- move_subtree_right db start;
        ask start' <- query (get_by_pk (lt_rows db') (l_pk start));
        match n with
        | O => free (Err PathOverflow)
        | S n => get_new_path n db' prefix (Some start') insert_after true
        end
    | Err e => free (Err e)
    end.

(** /repo/treebeard/ltree/__init__.py:245-260, 283-309 *)
Definition neighbours (t : lt_table) (target : ltrow) (p : pos) (d : fields) : counted (option ltrow * option ltrow) :=
  match p with
  | SortedSibling | SortedChild =>
      ask b <- query (Ok (sorted_first cfg (match p with SortedSibling => get_siblings t target | _ => get_children t target end) d));
      match b with
      | Some b => ask a <- query (Ok (get_prev_sibling t b)); free (Ok (Some b, a))
      | None => free (Ok (None, None))
      end
  | FirstSibling => ask b <- query (Ok (get_first_sibling t target)); free (Ok (b, None))
  | Left => ask a <- query (Ok (get_prev_sibling t target)); free (Ok (Some target, a))
  | Right => ask b <- query (Ok (get_next_sibling t target)); free (Ok (b, Some target))
  | LastSibling => ask a <- query (Ok (get_last_sibling t target)); free (Ok (None, a))
  | FirstChild => ask b <- query (Ok (get_first_child t target)); free (Ok (b, None))
  | LastChild => ask a <- query (Ok (get_last_child t target)); free (Ok (None, a))
  end.

(** /repo/treebeard/ltree/__init__.py:229-264 *)
Definition add_sibling_body (db : lt_db) (target : ltrow) (p : option string) (x : newobj) : counted (lt_db * ltrow) :=
  ask P <- free (prepare_pos_add (is_sorted cfg) p);
  ask '(b, a) <- neighbours (lt_rows db) target P (new_data x);
  ask '(db1, np, _) <- get_new_path 2 db (parent_path (l_path target)) b a false;
  let r := mkLT (new_pk x) np (new_data x) in
  ask t <- query (save_row cfg (lt_rows db1) r);
  free (Ok (mkLTDB t (lt_sig db1), r)).
(** /repo/treebeard/ltree/__init__.py:229-264 *)
Definition add_sibling db target p x : counted (lt_db * ltrow) :=
  ask '(db', r) <- add_sibling_body db target p x; ask db'' <- free (commit db'); free (Ok (db'', r)).

(** /repo/treebeard/ltree/__init__.py:162-189 *)
Definition add_root (db : lt_db) (x : newobj) : counted (lt_db * ltrow) :=
  ask '(db', r) <-
    (ask last <- query (Ok (get_last_root_node (lt_rows db)));
     match last, is_sorted cfg with
     | Some last, true => add_sibling_body db last (Some "sorted-sibling"%string) x
     | last, _ =>
         ask np <- (match last with
                    | Some _ => query (generate_path [] None None (map l_path (get_root_nodes (lt_rows db))))
                    | None => free (generate_path [] None None [])
                    end);
         let r := mkLT (new_pk x) np (new_data x) in
         ask t <- query (save_row cfg (lt_rows db) r); free (Ok (mkLTDB t (lt_sig db), r))
     end);
  ask db'' <- free (commit db'); free (Ok (db'', r)).

(** /repo/treebeard/ltree/__init__.py:191-227: is_leaf is asked again at 215 *)
Definition add_child (db : lt_db) (target : ltrow) (x : newobj) : counted (lt_db * ltrow) :=
  let t := lt_rows db in
  ask '(db', r) <-
    (ask _ <- query (get_by_pk t (l_pk target));
     ask delegate <- (if is_sorted cfg then query (Ok (negb (is_leaf t target))) else free (Ok false));
     if delegate : bool then
       ask last <- query (opt_res (get_last_child t target) AttributeError);
       add_sibling_body db last (Some "sorted-sibling"%string) x
     else
       ask leaf <- query (Ok (is_leaf t target));
       ask np <-
         (if leaf : bool then free (generate_path (l_path target) None None [])
          else
            ask last <- query (opt_res (get_last_child t target) AttributeError);
            query (generate_path (l_path target) None (Some (last_label (l_path last)))
                     (map l_path (get_children t target))));
       let r := mkLT (new_pk x) np (new_data x) in
       ask t <- query (save_row cfg t r); free (Ok (mkLTDB t (lt_sig db), r)));
  ask db'' <- free (commit db'); free (Ok (db'', r)).

(** /repo/treebeard/ltree/__init__.py:266-334 *)
Definition move (db : lt_db) (node target : ltrow) (p : option string) : counted (lt_db * ltrow) :=
  ask P <- free (prepare_pos_move (is_sorted cfg) p);
  let child := match P with FirstChild | LastChild | SortedChild => true | _ => false end in
  if child && (l_pk target =? l_pk node) then free (Err InvalidMoveToDescendant)
  else if is_descendant_of target node then free (Err InvalidMoveToDescendant)
  else
    ask '(b, a) <- neighbours (lt_rows db) target P (l_data node);
    let prefix := if child then l_path target else parent_path (l_path target) in
    ask '(db1, np, moved) <- get_new_path 2 db prefix b a false;
    ask node <- (if moved : bool then query (get_by_pk (lt_rows db1) (l_pk node)) else free (Ok node));
    let old := l_path node in
    ask t1 <- query (update_path cfg (lt_rows db1) (fun r => ppre old (l_path r) && (length old <? length (l_path r)))
                       (fun q => np ++ skipn (length old) q));
    let node' := mkLT (l_pk node) np (l_data node) in
    ask t2 <- query (save_row cfg t1 node');
    ask db2 <- free (commit (mkLTDB t2 (lt_sig db1 ++ [Moved old np])));
    free (Ok (db2, node')).
End LT.
End LT.
