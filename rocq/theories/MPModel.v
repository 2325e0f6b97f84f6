(** Model of /repo/treebeard/mp_tree.py: the operations that change the tree and
    the queries.

    A path is a list of alphabet indexes (see DESIGN.md: the characters of a
    path compare like their indexes; index >= radix stands for a character
    outside of the alphabet).  The table is a list of rows in no particular
    order.  [mp_db] also records the [path_updated] signals sent. *)
From Coq Require Import String List Arith Bool ZArith.
From Verif Require Import Prelude Forest NumConv PathTab CommonModel.
Import ListNotations.

Notation path := (list nat).

(** The order of indexes, which is that of the database; startswith, =.
    /repo/treebeard/mp_tree.py:1030 *)
Definition plt : path -> path -> bool := llt Nat.ltb.
(** [path__startswith], /repo/treebeard/mp_tree.py:896-909 *)
Definition ppre : path -> path -> bool := prefixb Nat.ltb.
(** [path=...], /repo/treebeard/mp_tree.py:918-935 *)
Definition peq : path -> path -> bool := leq Nat.ltb.

(** Class attributes steplen, alphabet (its length), path.max_length and
    node_order_by: /repo/treebeard/mp_tree.py:1027-1030.  [py_lt] is the < of Python on
    paths (mp_tree.py:794, 807), which compares the code points of the characters: it is
    the order of indexes if the alphabet is in the order of code points ([mkCfg]), and for
    other alphabets some other order (C51).  Only [py_irr] is used in the proofs. *)
Record mp_cfg := mkPyCfg { radix : nat; steplen : nat; maxlen : nat; order_by : ordering;
  py_lt : path -> path -> bool; py_irr : forall p, py_lt p p = false }.
(** A configuration of /repo/treebeard/mp_tree.py:1027-1030 in which Python and the database
    order the alphabet alike *)
Definition mkCfg (radix steplen maxlen : nat) (order_by : ordering) : mp_cfg :=
  mkPyCfg radix steplen maxlen order_by plt (llt_irr Nat.ltb Nat.ltb_irrefl).

(** A row / a model instance: /repo/treebeard/mp_tree.py:1030-1032 and the user's columns.
    numchild is a PositiveIntegerField: decrementing 0 is not modelled as an error. *)
Record mprow := mkMP { m_pk : nat; m_path : path; m_depth : nat; m_nc : nat; m_data : fields }.

Notation mp_table := (list mprow).

(** The database and the [path_updated] signals (old path, new path) sent so far.
    /repo/treebeard/mp_tree.py:21-22 *)
Record mp_db := mkDB { db_rows : mp_table; db_sig : list (path * path) }.

Section MP.
Variable cfg : mp_cfg.
Notation radix := (radix cfg).
Notation steplen := (steplen cfg).
Notation order_by := (order_by cfg).

(** bool(node_order_by). /repo/treebeard/mp_tree.py:358, 401 *)
Definition is_sorted : bool := match order_by with [] => false | _ => true end.

(** ** Path arithmetic *)

(** /repo/treebeard/mp_tree.py:1100-1105 _get_basepath (never called with a negative depth). *)
Definition get_basepath (p : path) (depth : nat) : path := firstn (depth * steplen) p.

(** /repo/treebeard/mp_tree.py:1118, 1126: padding of a converted number. *)
Definition pad (key : path) : path := repeat 0 (steplen - length key) ++ key.

(** /repo/treebeard/mp_tree.py:1107-1118 _get_path *)
Definition get_path (p : path) (depth newstep : nat) : path :=
  get_basepath p (depth - 1) ++ pad (digits radix newstep).

(** path[-steplen:]. /repo/treebeard/mp_tree.py:1130 *)
Definition last_step (p : path) : path := skipn (length p - steplen) p.

(** numconv str2int on a step: /repo/treebeard/numconv.py:48-61 *)
Definition step_value (s : path) : res nat :=
  if forallb (fun d => d <? radix) s then Ok (undigits radix s) else Err ValueError.

(** /repo/treebeard/mp_tree.py:1128-1130 _get_lastpos_in_path *)
Definition get_lastpos (p : path) : res nat := step_value (last_step p).

(** /repo/treebeard/mp_tree.py:1120-1126 _inc_path *)
Definition inc_path (p : path) : res path :=
  do v <- get_lastpos p;
  let key := digits radix (v + 1) in
  if steplen <? length key then Err PathOverflow
  else Ok (firstn (length p - steplen) p ++ pad key).

(** /repo/treebeard/mp_tree.py:1132-1137 _get_parent_path_from_path *)
Definition get_parent_path (p : path) : path := firstn (length p - steplen) p.

(** /repo/treebeard/mp_tree.py:1139-1142 _get_children_path_interval *)
Definition children_interval (p : path) : path * path :=
  (p ++ repeat 0 steplen, p ++ repeat (radix - 1) steplen).

(** SQL BETWEEN. /repo/treebeard/mp_tree.py:1140-1142 *)
Definition in_range (i : path * path) (p : path) : bool :=
  negb (plt p (fst i)) && negb (plt (snd i) p).

(** ** Queries *)

(** ORDER BY path: /repo/treebeard/mp_tree.py:95-97 *)
Definition order_path (l : mp_table) : mp_table := isort (le_key m_path plt) l.

(** /repo/treebeard/mp_tree.py:1096-1098 *)
Definition is_leaf (r : mprow) : bool := m_nc r =? 0.    (* mp_tree.py:1096-1098 *)
Definition is_root (r : mprow) : bool := m_depth r =? 1. (* mp_tree.py:1092-1094 *)

(** /repo/treebeard/mp_tree.py:1085-1090 *)
Definition is_descendant_of (r n : mprow) : bool :=
  ppre (m_path n) (m_path r) && (m_depth n <? m_depth r).

(** /repo/treebeard/mp_tree.py:1078-1083 *)
Definition is_child_of (r n : mprow) : bool :=
  ppre (m_path n) (m_path r) && (m_depth r =? m_depth n + 1).

(** /repo/treebeard/mp_tree.py:1064-1076 *)
Definition is_sibling_of (r n : mprow) : bool :=
  if negb (m_depth r =? m_depth n) then false
  else if m_depth r =? 1 then true
  else ppre (get_basepath (m_path r) (m_depth r - 1)) (m_path n).

(** /repo/treebeard/mp_tree.py:581-583 *)
Definition get_root_nodes (t : mp_table) : mp_table :=
  order_path (filter (fun r => m_depth r =? 1) t).

(** /repo/treebeard/mp_tree.py:867-875 *)
Definition get_children (t : mp_table) (n : mprow) : mp_table :=
  if is_leaf n then []
  else order_path (filter (fun r => (m_depth r =? m_depth n + 1) &&
                                    in_range (children_interval (m_path n)) (m_path r)) t).

(** /repo/treebeard/mp_tree.py:884-894 *)
Definition get_siblings (t : mp_table) (n : mprow) : mp_table :=
  order_path (filter (fun r => (m_depth r =? m_depth n) &&
     (if 1 <? m_depth n
      then in_range (children_interval (get_basepath (m_path n) (m_depth n - 1))) (m_path r)
      else true)) t).

(** /repo/treebeard/models.py:545-577 first/last child/sibling, 349-363 roots *)
Definition get_first_child t n := hd_error (get_children t n).
(** /repo/treebeard/models.py:553-559 *)
Definition get_last_child t n := last_opt (get_children t n).
(** /repo/treebeard/models.py:561-568 *)
Definition get_first_sibling t n := hd_error (get_siblings t n).
(** /repo/treebeard/models.py:570-577 *)
Definition get_last_sibling t n := last_opt (get_siblings t n).
(** /repo/treebeard/models.py:349-355 *)
Definition get_first_root_node t := hd_error (get_root_nodes t).
(** /repo/treebeard/models.py:357-363 *)
Definition get_last_root_node t := last_opt (get_root_nodes t).

(** /repo/treebeard/mp_tree.py:949-961 *)
Definition get_next_sibling (t : mp_table) (n : mprow) : option mprow :=
  hd_error (filter (fun r => plt (m_path n) (m_path r)) (get_siblings t n)).
(** /repo/treebeard/mp_tree.py:956-961 *)
Definition get_prev_sibling (t : mp_table) (n : mprow) : option mprow :=
  last_opt (filter (fun r => plt (m_path r) (m_path n)) (get_siblings t n)).

(** /repo/treebeard/mp_tree.py:99-123 get_tree *)
Definition get_tree (t : mp_table) (parent : option mprow) (max_depth : option nat) : mp_table :=
  match parent with
  | Some p =>
      if is_leaf p then order_path (filter (fun r => m_pk r =? m_pk p) t)
      else order_path (filter (fun r => ppre (m_path p) (m_path r) && (m_depth p <=? m_depth r) &&
             match max_depth with None => true | Some d => m_depth r <=? d + m_depth p end) t)
  | None =>
      order_path (filter (fun r => match max_depth with None => true | Some d => m_depth r <=? d end) t)
  end.

(** /repo/treebeard/mp_tree.py:896-909 *)
Definition get_descendants (t : mp_table) (n : mprow) (include_self : bool) (max_depth : option nat)
  : mp_table :=
  if include_self then get_tree t (Some n) max_depth
  else if is_leaf n then []
  else filter (fun r => negb (m_pk r =? m_pk n)) (get_tree t (Some n) max_depth).

(** /repo/treebeard/models.py:537-543 *)
Definition get_descendant_count t n max_depth := length (get_descendants t n false max_depth).

(** /repo/treebeard/mp_tree.py:877-882 *)
Definition get_children_count (n : mprow) : nat := m_nc n.

(** Model.objects.get(path=...): exactly one row, else an exception.
    /repo/treebeard/mp_tree.py:911-935 *)
Definition get_by_path (t : mp_table) (p : path) : res mprow :=
  match filter (fun r => peq (m_path r) p) t with
  | [r] => Ok r
  | [] => Err DoesNotExist
  | _ => Err ValueError (* MultipleObjectsReturned; excluded by UNIQUE(path) *)
  end.

(** /repo/treebeard/mp_tree.py:918-935 get_parent with update=True (no cache);
    int(len(path)/steplen) is integer division. *)
Definition get_parent (t : mp_table) (n : mprow) : res (option mprow) :=
  let depth := length (m_path n) / steplen in
  if depth <=? 1 then Ok None
  else do r <- get_by_path t (get_basepath (m_path n) (depth - 1)); Ok (Some r).

(** /repo/treebeard/mp_tree.py:911-916 *)
Definition get_root (t : mp_table) (n : mprow) : res mprow :=
  if is_root n then Ok n else get_by_path t (firstn steplen (m_path n)).

(** /repo/treebeard/mp_tree.py:937-947; range(0, len, steplen)[1:] = steplen, 2*steplen, ... *)
Definition order_depth (l : mp_table) : mp_table := isort (le_key m_depth Nat.ltb) l.
(** The list of /repo/treebeard/mp_tree.py:944-946 *)
Definition ancestor_paths (p : path) : list path :=
  map (fun i => firstn (i * steplen) p) (seq 1 ((length p + steplen - 1) / steplen - 1)).
(** /repo/treebeard/mp_tree.py:937-947 *)
Definition get_ancestors (t : mp_table) (n : mprow) : mp_table :=
  if is_root n then []
  else order_depth (filter (fun r => existsb (peq (m_path r)) (ancestor_paths (m_path n))) t).

(** /repo/treebeard/mp_tree.py:585-611 *)
Definition get_descendants_group_count (t : mp_table) (parent : option mprow) : list (mprow * nat) :=
  map (fun n => (n, length (filter (fun r => ppre (m_path n) (m_path r)) t) - 1))
      (match parent with Some p => get_children t p | None => get_root_nodes t end).

(** ** Updates *)

(** UPDATE path (and depth) of a branch.
    /repo/treebeard/mp_tree.py:837-865 _set_newpath_in_branches: one UPDATE statement. *)
Definition set_row (old new : path) (r : mprow) : mprow :=
  if ppre old (m_path r) then
    let p := new ++ skipn (length old) (m_path r) in
    mkMP (m_pk r) p (if length old =? length new then m_depth r else length p / steplen)
         (m_nc r) (m_data r)
  else r.

(** UNIQUE(path), checked conservatively: the new paths must not occur among the old paths of
    the table and must be pairwise different. /repo/treebeard/mp_tree.py:1030 *)
Definition paths_clash (old new : path) (t : mp_table) : bool :=
  existsb (fun r => ppre old (m_path r) &&
             existsb (fun r' => peq (m_path (set_row old new r)) (m_path r')) t) t.

(** /repo/treebeard/mp_tree.py:837-865 *)
Definition set_newpath (db : mp_db) (old new : path) : res mp_db :=
  let t := db_rows db in
  if peq old new then Ok (mkDB t (db_sig db ++ (if existsb (fun r => ppre old (m_path r)) t
                                               then [(old, new)] else [])))
  else if paths_clash old new t then Err IntegrityError
  else Ok (mkDB (map (set_row old new) t)
                (db_sig db ++ (if existsb (fun r => ppre old (m_path r)) t then [(old, new)] else []))).

(** UPDATE numchild WHERE path = p: /repo/treebeard/mp_tree.py:752-756 *)
Definition upd_nc (p : path) (g : nat -> nat) (r : mprow) : mprow :=
  if peq (m_path r) p then mkMP (m_pk r) (m_path r) (m_depth r) (g (m_nc r)) (m_data r) else r.
(** /repo/treebeard/mp_tree.py:752-753 *)
Definition increment_numchild (db : mp_db) (p : path) : mp_db :=
  mkDB (map (upd_nc p S) (db_rows db)) (db_sig db).
(** /repo/treebeard/mp_tree.py:755-756 *)
Definition decrement_numchild (db : mp_db) (p : path) : mp_db :=
  mkDB (map (upd_nc p pred) (db_rows db)) (db_sig db).

(** Model.save() of a new instance: Django updates an existing row with the same primary key,
    otherwise inserts; UNIQUE(path) is enforced. /repo/treebeard/mp_tree.py:380, 432, 476 *)
Definition save_row (db : mp_db) (r : mprow) : res mp_db :=
  let t := db_rows db in
  if existsb (fun x => peq (m_path x) (m_path r) && negb (m_pk x =? m_pk r)) t then Err IntegrityError
  else if existsb (fun x => m_pk x =? m_pk r) t
  then Ok (mkDB (map (fun x => if m_pk x =? m_pk r then r else x) t) (db_sig db))
  else Ok (mkDB (r :: t) (db_sig db)).

(** A not yet saved instance (numchild is 0 unless load_bulk sets it).
    /repo/treebeard/mp_tree.py:376, 407, 455 *)
Record newobj := mkNew { new_pk : nat; new_nc : nat; new_data : fields }.

(** The loop collecting [movesiblings]: /repo/treebeard/mp_tree.py:802-813 *)
Fixpoint collect_movesiblings (prior : path) (sibs : list mprow) : res (list mprow) :=
  match sibs with
  | [] => Ok []
  | r :: sibs' =>
      if py_lt cfg prior (m_path r) then Ok []
      else do prior' <- inc_path (m_path r);
           do l <- collect_movesiblings prior' sibs';
           Ok (r :: l)
  end.

(** Replace the branch prefix of a Python string:
    _inc_path + oldpath[len(_inc_path):]  (mp_tree.py:826, 831) *)
Definition shift_path (node_path inc p : path) : path :=
  if ppre node_path p then inc ++ skipn (length inc) p else p.

(** The loop moving the siblings right: /repo/treebeard/mp_tree.py:816-831.
    [oldpath = None] means movebranch is false. *)
Fixpoint move_siblings (db : mp_db) (oldpath : option path) (tpath : path) (l : list mprow)
  : res (mp_db * option path * path) :=
  match l with
  | [] => Ok (db, oldpath, tpath)
  | r :: l' =>
      do inc <- inc_path (m_path r);
      do db' <- set_newpath db (m_path r) inc;
      match oldpath with
      | None => move_siblings db' None tpath l'
      | Some op =>
          move_siblings db' (Some (shift_path (m_path r) inc op)) (shift_path (m_path r) inc tpath) l'
      end
  end.

(** Using an attribute of an object that may be None, e.g. /repo/treebeard/mp_tree.py:424 *)
Definition opt_res {A} (o : option A) (e : exn) : res A :=
  match o with Some a => Ok a | None => Err e end.

(** [==] of model instances, which compares primary keys: /repo/treebeard/mp_tree.py:515-523 *)
Definition same_pk (a : mprow) (b : option mprow) : bool :=
  match b with Some b => m_pk a =? m_pk b | None => false end.

(** The test of /repo/treebeard/mp_tree.py:773-776: the new place is after the last sibling. *)
Definition goes_last (t : mp_table) (p : pos) (target : mprow) : bool :=
  match p with
  | LastSibling => true
  | Right => same_pk target (get_last_sibling t target)
  | _ => false
  end.

(** /repo/treebeard/mp_tree.py:785-797: the step number and the siblings that may
    have to be moved, when newpos was not given. *)
Definition reorder_pos (t : mp_table) (p : pos) (target : mprow) : res (nat * list mprow) :=
  do basenum <- get_lastpos (m_path target);
  match p with
  | Left => Ok (basenum, filter (fun r => negb (plt (m_path r) (m_path target))) (get_siblings t target))
  | Right => Ok (basenum + 1, filter (fun r => plt (m_path target) (m_path r)) (get_siblings t target))
  | FirstSibling => Ok (1, get_siblings t target)
  | _ => Err KeyError
  end.

(** /repo/treebeard/mp_tree.py:758-835 _reorder_nodes_before_add_or_move.
    [oldpath] is [Some] exactly when movebranch is true.  Returns the database,
    oldpath, newpath and the possibly updated in-memory path of the target. *)
Definition reorder (db : mp_db) (p : pos) (newpos : option nat) (newdepth : nat) (target : mprow)
  (siblings : list mprow) (oldpath : option path) : res (mp_db * option path * path * path) :=
  let t := db_rows db in
  if goes_last t p target
  then
    do last <- opt_res (get_last_sibling t target) AttributeError;
    do newpath <- inc_path (m_path last);
    do db' <- match oldpath with Some op => set_newpath db op newpath | None => Ok db end;
    Ok (db', oldpath, newpath, m_path target)
  else
    do '(newpos, siblings) <-
      match newpos with
      | Some n => Ok (n, siblings)
      | None => reorder_pos t p target
      end;
    let newpath := get_path (m_path target) newdepth newpos in
    do '(db1, tempnewpath) <-
      match oldpath with
      | None => Ok (db, None)
      | Some op =>
          if (length op =? length newpath) &&
             peq (get_basepath op (length op / steplen - 1)) (get_basepath newpath (newdepth - 1)) &&
             negb (match siblings with [] => true | _ => false end) && py_lt cfg newpath op
          then
            do last <- opt_res (get_last_sibling t target) AttributeError;
            do basenum <- get_lastpos (m_path last);
            let temp := get_path newpath newdepth (basenum + 2) in
            do db1 <- set_newpath db op temp;
            Ok (db1, Some temp)
          else Ok (db, None)
      end;
    do movesiblings <- collect_movesiblings newpath siblings;
    do '(db2, oldpath2, tpath) <- move_siblings db1 oldpath (m_path target) (rev movesiblings);
    match oldpath2 with
    | None => Ok (db2, None, newpath, tpath)
    | Some op2 =>
        do db3 <- set_newpath db2 (match tempnewpath with Some x => x | None => op2 end) newpath;
        Ok (db3, Some op2, newpath, tpath)
    end.

(** siblings = get_sorted_pos_queryset(get_siblings(target), newobj).
    /repo/treebeard/mp_tree.py:459 *)
Definition sorted_siblings (t : mp_table) (target : mprow) (d : fields) : mp_table :=
  filter (fun r => sorted_after order_by d (m_data r)) (get_siblings t target).

(** /repo/treebeard/mp_tree.py:436-478 add_sibling.  (check_create_args is
    modelled separately.)  Returns the database and the saved instance. *)
Definition add_sibling (db : mp_db) (target : mprow) (p : option string) (x : newobj)
  : res (mp_db * mprow) :=
  do p <- prepare_pos_add is_sorted p;
  let t := db_rows db in
  do '(p, newpos, siblings) <-
    match p with
    | SortedSibling =>
        let siblings := sorted_siblings t target (new_data x) in
        match hd_error siblings with
        | Some first => do n <- get_lastpos (m_path first); Ok (p, Some n, siblings)
        | None => Ok (LastSibling, None, siblings)
        end
    | _ => Ok (p, None, [])
    end;
  do '(db1, _, newpath, _) <- reorder db p newpos (m_depth target) target siblings None;
  let parentpath := get_basepath newpath (m_depth target - 1) in
  let db2 := match parentpath with [] => db1 | _ => increment_numchild db1 parentpath end in
  let r := mkMP (new_pk x) newpath (m_depth target) (new_nc x) (new_data x) in
  do db3 <- save_row db2 r;
  Ok (db3, r).

(** /repo/treebeard/mp_tree.py:339-381 add_root *)
Definition add_root (db : mp_db) (x : newobj) : res (mp_db * mprow) :=
  match get_last_root_node (db_rows db) with
  | Some last =>
      if is_sorted then add_sibling db last (Some "sorted-sibling"%string) x
      else
        do newpath <- inc_path (m_path last);
        let r := mkMP (new_pk x) newpath 1 (new_nc x) (new_data x) in
        do db' <- save_row db r; Ok (db', r)
  | None =>
      let r := mkMP (new_pk x) (get_path [] 1 1) 1 (new_nc x) (new_data x) in
      do db' <- save_row db r; Ok (db', r)
  end.

(** objects.get(pk=...). /repo/treebeard/models.py:110-112 *)
Definition get_by_pk (t : mp_table) (k : nat) : res mprow :=
  match filter (fun r => m_pk r =? k) t with
  | r :: _ => Ok r
  | [] => Err DoesNotExist
  end.

(** /repo/treebeard/mp_tree.py:427 *)
Definition upd_nc_pk (k : nat) (g : nat -> nat) (r : mprow) : mprow :=
  if m_pk r =? k then mkMP (m_pk r) (m_path r) (m_depth r) (g (m_nc r)) (m_data r) else r.

(** Assigning numchild of an instance: /repo/treebeard/mp_tree.py:404, 428 *)
Definition set_nc (r : mprow) (n : nat) : mprow :=
  mkMP (m_pk r) (m_path r) (m_depth r) n (m_data r).

(** /repo/treebeard/mp_tree.py:383-434 add_child.  Returns the database, the saved
    instance and the caller's target object after the call. *)
Definition add_child (db : mp_db) (target : mprow) (x : newobj) : res (mp_db * mprow * mprow) :=
  do node <- get_by_pk (db_rows db) (m_pk target);
  if is_sorted && negb (is_leaf node) then
    do last <- opt_res (get_last_child (db_rows db) node) AttributeError;
    do '(db', r) <- add_sibling db last (Some "sorted-sibling"%string) x;
    Ok (db', r, set_nc target (S (m_nc target)))
  else
    let depth := m_depth node + 1 in
    do newpath <-
      (if is_leaf node then
         let np := get_path (m_path node) depth 1 in
         if maxlen cfg <? length np then Err PathOverflow else Ok np
       else
         do last <- opt_res (get_last_child (db_rows db) node) AttributeError;
         inc_path (m_path last));
    let db1 := mkDB (map (upd_nc_pk (m_pk node) S) (db_rows db)) (db_sig db) in
    let r := mkMP (new_pk x) newpath depth (new_nc x) (new_data x) in
    do db2 <- save_row db1 r;
    Ok (db2, r, set_nc target (S (m_nc node))).

(** /repo/treebeard/mp_tree.py:549-579 update_move_to_child_vars.  Returns target,
    newdepth, siblings, newpos, pos; the in-memory effect parent.numchild += 1 is
    returned as the last component (the caller's target object). *)
Definition move_to_child_vars (t : mp_table) (node target : mprow) (p : pos)
  : res (mprow * nat * list mprow * option nat * pos * mprow) :=
  match p with
  | FirstChild | LastChild | SortedChild =>
      if m_pk target =? m_pk node then Err InvalidMoveToDescendant
      else
        let parent := set_nc target (S (m_nc target)) in
        if is_leaf target then
          Ok (parent, m_depth target + 1, [], Some 1, FirstSibling, parent)
        else
          do last <- opt_res (get_last_child t target) AttributeError;
          Ok (last, m_depth target + 1, [], None,
              match p with FirstChild => FirstSibling | LastChild => LastSibling | _ => SortedSibling end,
              parent)
  | _ => Ok (target, m_depth target, [], None, p, target)
  end.

(** /repo/treebeard/mp_tree.py:536-547 *)
Definition update_parent_counts (db : mp_db) (oldpath newpath : path) : mp_db :=
  let op := get_parent_path oldpath in
  let np := get_parent_path newpath in
  if peq op np then db
  else
    let db := match op with [] => db | _ => decrement_numchild db op end in
    match np with [] => db | _ => increment_numchild db np end.

(** refresh_from_db. /repo/treebeard/mp_tree.py:533-534 *)
Definition refresh (t : mp_table) (r : mprow) : res mprow := get_by_pk t (m_pk r).

(** The path the no-op and sorted tests take in move: /repo/treebeard/mp_tree.py:499-525.
    [None]: nothing to do; [Some (pos, newpos, siblings)]: continue. *)
Definition move_prepare (t : mp_table) (node target : mprow) (newdepth : nat) (p : pos)
  (newpos : option nat) (siblings : list mprow) : res (option (pos * option nat * list mprow)) :=
  do r <-
    match p with
    | SortedSibling =>
        let siblings := sorted_siblings t target (m_data node) in
        match hd_error siblings with
        | Some first =>
            do n <- get_lastpos (m_path first);
            do here <- get_lastpos (m_path node);
            if peq (get_basepath (m_path node) (m_depth node - 1))
                   (get_basepath (m_path first) (m_depth first - 1)) && (here + 1 =? n)
            then Ok None
            else Ok (Some (p, Some n, siblings))
        | None => Ok (Some (LastSibling, None, siblings))
        end
    | _ => Ok (Some (p, newpos, siblings))
    end;
  match r with
  | None => Ok None
  | Some (p, newpos, siblings) =>
      if (newdepth =? m_depth node) &&
         match p with
         | FirstSibling => same_pk node (get_first_sibling t target)
         | LastSibling => same_pk node (get_last_sibling t target)
         | _ => false
         end
      then Ok None
      else if (m_pk node =? m_pk target) &&
         match p with
         | Left => true
         | Right | LastSibling => same_pk target (get_last_sibling t target)
         | _ => false
         end
      then Ok None
      else Ok (Some (p, newpos, siblings))
  end.

(** /repo/treebeard/mp_tree.py:480-534 move.  Returns the database, and the
    caller's node and target objects after the call. *)
Definition move (db : mp_db) (node target : mprow) (p : option string)
  : res (mp_db * mprow * mprow) :=
  do p <- prepare_pos_move is_sorted p;
  let t := db_rows db in
  do '(target1, newdepth, siblings, newpos, p1, user_target) <- move_to_child_vars t node target p;
  let was_child := match p with FirstChild | LastChild | SortedChild => negb (is_leaf target) | _ => false end in
  if is_descendant_of target1 node then Err InvalidMoveToDescendant
  else
    do r <- move_prepare t node target1 newdepth p1 newpos siblings;
    match r with
    | None => Ok (db, node, user_target)
    | Some (p2, newpos, siblings) =>
        do '(db1, oldpath, newpath, tpath) <-
          reorder db p2 newpos newdepth target1 siblings (Some (m_path node));
        let db2 := update_parent_counts db1 (match oldpath with Some x => x | None => [] end) newpath in
        do node' <- refresh (db_rows db2) node;
        do target' <- refresh (db_rows db2) target1;
        Ok (db2, node', if was_child then user_target else target')
    end.

(** ** Delete: /repo/treebeard/mp_tree.py:32-86 *)

(** The loop at 43-53: keep a node unless an ancestor path is already in [removed]. [removed]
    is kept in insertion order. /repo/treebeard/mp_tree.py:43-53 *)
Definition has_removed_ancestor (removed : list mprow) (r : mprow) : bool :=
  existsb (fun d => existsb (fun x => peq (m_path x) (get_basepath (m_path r) d)) removed)
          (seq 1 (length (m_path r) / steplen - 1)).

(** The whole loop of /repo/treebeard/mp_tree.py:43-53 *)
Fixpoint minimal_removed (removed : list mprow) (l : list mprow) : list mprow :=
  match l with
  | [] => removed
  | r :: l => if has_removed_ancestor removed r then minimal_removed removed l
              else minimal_removed (removed ++ [r]) l
  end.

(** order_by("depth", "path"). /repo/treebeard/mp_tree.py:44 *)
Definition depth_path_le (a b : mprow) : bool :=
  (m_depth a <? m_depth b) || ((m_depth a =? m_depth b) && negb (plt (m_path b) (m_path a))).

(** Counter of lost children per parent path: 58-63. /repo/treebeard/mp_tree.py:62 *)
Definition parent_path_of (r : mprow) : path := get_basepath (m_path r) (m_depth r - 1).
(** The counter [parents]: /repo/treebeard/mp_tree.py:58-63 *)
Definition lost_children (removed : list mprow) (p : path) : nat :=
  length (filter (fun r => peq (parent_path_of r) p) removed).

(** The keys of the counter [parents]: /repo/treebeard/mp_tree.py:58-63 *)
Definition dedup_paths (l : list path) : list path :=
  fold_right (fun p acc => if existsb (peq p) acc then acc else p :: acc) [] l.

(** The keys of the counter [parents]: /repo/treebeard/mp_tree.py:58-63 *)
Definition parents_of_removed (removed : list mprow) : list path :=
  dedup_paths (filter (fun p => match p with [] => false | _ => true end)
                      (map parent_path_of removed)).

(** Q(pk__in=...) | Q(path__startswith=...): 61-68, 78-81. /repo/treebeard/mp_tree.py:65-68,
    78-81 *)
Definition deleted_row (removed : list mprow) (r : mprow) : bool :=
  existsb (fun x => if is_leaf x then m_pk r =? m_pk x else ppre (m_path x) (m_path r)) removed.

(** The SQL statements of a delete in order: one UPDATE per parent, then the DELETE.
    Greatest(numchild - lost, 0) is truncated subtraction. /repo/treebeard/mp_tree.py:72-81 *)
Definition delete_statements (t : mp_table) (selected : mprow -> bool)
  : list (mp_table -> mp_table) :=
  let removed := minimal_removed [] (isort depth_path_le (filter selected t)) in
  map (fun p => map (upd_nc p (fun n => n - lost_children removed p))) (parents_of_removed removed)
  ++ [filter (fun r => negb (deleted_row removed r))].

(** Running the statements of /repo/treebeard/mp_tree.py:72-81 in order *)
Definition run_statements (t : mp_table) (l : list (mp_table -> mp_table)) : mp_table :=
  fold_left (fun t s => s t) l t.

(** /repo/treebeard/mp_tree.py:32-86 *)
Definition delete_queryset (t : mp_table) (selected : mprow -> bool) : mp_table :=
  run_statements t (delete_statements t selected).

(** /repo/treebeard/models.py:97-100 Node.delete *)
Definition delete_node (t : mp_table) (n : mprow) : mp_table :=
  delete_queryset t (fun r => m_pk r =? m_pk n).

End MP.
