(** Model of /repo/treebeard/mp_tree.py on paths as they are stored: strings over the alphabet
    of the class.  MPModel.v has the indexes of the characters in the alphabet instead, and
    compares these.

    Here the database compares strings by a collation of its own, given by an order [clt] of
    characters, and LIKE takes two characters for the same if [like] says so (SQLite ignores
    case in LIKE but not in ORDER BY).  Python compares code points.  The definitions follow
    those of MPModel.v, with the comparisons of the database and those of Python told apart;
    what only cuts and joins strings is taken from there.  Collations that do not compare
    character by character are not modelled. *)
From Coq Require Import String List Arith Bool ZArith.
From Verif Require Import Prelude Forest NumConv PathTab CommonModel History MPModel.
Import ListNotations.

(** The rows of MPModel.v, with strings for [m_path] *)
Notation text_table := (list mprow).

Section Text.
Variable alphabet : list char.             (* mp_tree.py:1028 *)
Variables clt like : char -> char -> bool. (* the database *)
Variable cfg : mp_cfg.                     (* the radix of it is not used *)
Notation steplen := (steplen cfg).
Notation order_by := (order_by cfg).
Notation is_sorted := (is_sorted cfg).
Notation get_basepath := (get_basepath cfg).
Notation last_step := (last_step cfg).
Notation get_parent_path := (get_parent_path cfg).
Notation ancestor_paths := (ancestor_paths cfg).
Notation parent_path_of := (parent_path_of cfg).

(** Comparisons of the database: <, =, LIKE 'p%'. /repo/treebeard/mp_tree.py:1030,
    896-909, 1140-1142 *)
Definition qlt : list char -> list char -> bool := llt clt.
(** [path=...], /repo/treebeard/mp_tree.py:918-935 *)
Definition qeq : list char -> list char -> bool := leq clt.
(** [path__startswith], /repo/treebeard/mp_tree.py:896-909 *)
Fixpoint qpre (p l : list char) : bool :=
  match p, l with
  | [], _ => true
  | c :: p, d :: l => like c d && qpre p l
  | _, [] => false
  end.

(** ** Path arithmetic *)

(** /repo/treebeard/mp_tree.py:1118, 1126: padding of a converted number. *)
Definition s_pad (key : list char) : list char := repeat (nth 0 alphabet 0) (steplen - length key) ++ key.

(** /repo/treebeard/mp_tree.py:1107-1118 _get_path *)
Definition s_get_path (p : list char) (depth newstep : nat) : res (list char) :=
  do key <- int2str alphabet (Z.of_nat newstep);
  Ok (get_basepath p (depth - 1) ++ s_pad key).

(** /repo/treebeard/mp_tree.py:1128-1130 _get_lastpos_in_path *)
Definition s_get_lastpos (p : list char) : res nat := str2int alphabet (last_step p).

(** /repo/treebeard/mp_tree.py:1120-1126 _inc_path *)
Definition s_inc_path (p : list char) : res (list char) :=
  do v <- s_get_lastpos p;
  do key <- int2str alphabet (Z.of_nat (v + 1));
  if steplen <? length key then Err PathOverflow
  else Ok (firstn (length p - steplen) p ++ s_pad key).

(** /repo/treebeard/mp_tree.py:1139-1142 _get_children_path_interval *)
Definition s_children_interval (p : list char) : list char * list char :=
  (p ++ repeat (nth 0 alphabet 0) steplen, p ++ repeat (nth (length alphabet - 1) alphabet 0) steplen).

(** SQL BETWEEN. /repo/treebeard/mp_tree.py:1140-1142 *)
Definition s_in_range (i : list char * list char) (p : list char) : bool :=
  negb (qlt p (fst i)) && negb (qlt (snd i) p).

(** ** Queries *)

(** ORDER BY path: /repo/treebeard/mp_tree.py:95-97 *)
Definition s_order_path (l : text_table) : text_table := isort (le_key m_path qlt) l.

(** /repo/treebeard/mp_tree.py:1085-1090 *)
Definition s_is_descendant_of (r n : mprow) : bool :=
  ppre (m_path n) (m_path r) && (m_depth n <? m_depth r).

(** /repo/treebeard/mp_tree.py:1078-1083 *)
Definition s_is_child_of (r n : mprow) : bool :=
  ppre (m_path n) (m_path r) && (m_depth r =? m_depth n + 1).

(** /repo/treebeard/mp_tree.py:1064-1076 *)
Definition s_is_sibling_of (r n : mprow) : bool :=
  if negb (m_depth r =? m_depth n) then false
  else if m_depth r =? 1 then true
  else ppre (get_basepath (m_path r) (m_depth r - 1)) (m_path n).

(** /repo/treebeard/mp_tree.py:581-583 *)
Definition s_get_root_nodes (t : text_table) : text_table :=
  s_order_path (filter (fun r => m_depth r =? 1) t).

(** /repo/treebeard/mp_tree.py:867-875 *)
Definition s_get_children (t : text_table) (n : mprow) : text_table :=
  if is_leaf n then []
  else s_order_path (filter (fun r => (m_depth r =? m_depth n + 1) &&
                                    s_in_range (s_children_interval (m_path n)) (m_path r)) t).

(** /repo/treebeard/mp_tree.py:884-894 *)
Definition s_get_siblings (t : text_table) (n : mprow) : text_table :=
  s_order_path (filter (fun r => (m_depth r =? m_depth n) &&
     (if 1 <? m_depth n
      then s_in_range (s_children_interval (get_basepath (m_path n) (m_depth n - 1))) (m_path r)
      else true)) t).

(** /repo/treebeard/models.py:545-577 first/last child/sibling, 349-363 roots *)
Definition s_get_first_child t n := hd_error (s_get_children t n).
(** /repo/treebeard/models.py:553-559 *)
Definition s_get_last_child t n := last_opt (s_get_children t n).
(** /repo/treebeard/models.py:561-568 *)
Definition s_get_first_sibling t n := hd_error (s_get_siblings t n).
(** /repo/treebeard/models.py:570-577 *)
Definition s_get_last_sibling t n := last_opt (s_get_siblings t n).
(** /repo/treebeard/models.py:349-355 *)
Definition s_get_first_root_node t := hd_error (s_get_root_nodes t).
(** /repo/treebeard/models.py:357-363 *)
Definition s_get_last_root_node t := last_opt (s_get_root_nodes t).

(** /repo/treebeard/mp_tree.py:949-961 *)
Definition s_get_next_sibling (t : text_table) (n : mprow) : option mprow :=
  hd_error (filter (fun r => qlt (m_path n) (m_path r)) (s_get_siblings t n)).
(** /repo/treebeard/mp_tree.py:956-961 *)
Definition s_get_prev_sibling (t : text_table) (n : mprow) : option mprow :=
  last_opt (filter (fun r => qlt (m_path r) (m_path n)) (s_get_siblings t n)).

(** /repo/treebeard/mp_tree.py:99-123 get_tree *)
Definition s_get_tree (t : text_table) (parent : option mprow) (max_depth : option nat) : text_table :=
  match parent with
  | Some p =>
      if is_leaf p then s_order_path (filter (fun r => m_pk r =? m_pk p) t)
      else s_order_path (filter (fun r => qpre (m_path p) (m_path r) && (m_depth p <=? m_depth r) &&
             match max_depth with None => true | Some d => m_depth r <=? d + m_depth p end) t)
  | None =>
      s_order_path (filter (fun r => match max_depth with None => true | Some d => m_depth r <=? d end) t)
  end.

(** /repo/treebeard/mp_tree.py:896-909 *)
Definition s_get_descendants (t : text_table) (n : mprow) (include_self : bool) (max_depth : option nat)
  : text_table :=
  if include_self then s_get_tree t (Some n) max_depth
  else if is_leaf n then []
  else filter (fun r => negb (m_pk r =? m_pk n)) (s_get_tree t (Some n) max_depth).

(** /repo/treebeard/models.py:537-543 *)
Definition s_get_descendant_count t n max_depth := length (s_get_descendants t n false max_depth).

(** Model.objects.get(path=...): exactly one row, else an exception.
    /repo/treebeard/mp_tree.py:911-935 *)
Definition s_get_by_path (t : text_table) (p : list char) : res mprow :=
  match filter (fun r => qeq (m_path r) p) t with
  | [r] => Ok r
  | [] => Err DoesNotExist
  | _ => Err ValueError (* MultipleObjectsReturned; excluded by UNIQUE(path) *)
  end.

(** /repo/treebeard/mp_tree.py:918-935 get_parent with update=True (no cache);
    int(len(path)/steplen) is integer division. *)
Definition s_get_parent (t : text_table) (n : mprow) : res (option mprow) :=
  let depth := length (m_path n) / steplen in
  if depth <=? 1 then Ok None
  else do r <- s_get_by_path t (get_basepath (m_path n) (depth - 1)); Ok (Some r).

(** /repo/treebeard/mp_tree.py:911-916 *)
Definition s_get_root (t : text_table) (n : mprow) : res mprow :=
  if is_root n then Ok n else s_get_by_path t (firstn steplen (m_path n)).

(** /repo/treebeard/mp_tree.py:937-947; range(0, len, steplen)[1:] = steplen, 2*steplen, ... *)
Definition s_get_ancestors (t : text_table) (n : mprow) : text_table :=
  if is_root n then []
  else order_depth (filter (fun r => existsb (qeq (m_path r)) (ancestor_paths (m_path n))) t).

(** /repo/treebeard/mp_tree.py:585-611 *)
Definition s_get_descendants_group_count (t : text_table) (parent : option mprow) : list (mprow * nat) :=
  map (fun n => (n, length (filter (fun r => qpre (m_path n) (m_path r)) t) - 1))
      (match parent with Some p => s_get_children t p | None => s_get_root_nodes t end).

(** ** Updates *)

(** UPDATE path (and depth) of a branch.
    /repo/treebeard/mp_tree.py:837-865 _set_newpath_in_branches: one UPDATE statement. *)
Definition s_set_row (old new : list char) (r : mprow) : mprow :=
  if qpre old (m_path r) then
    let p := new ++ skipn (length old) (m_path r) in
    mkMP (m_pk r) p (if length old =? length new then m_depth r else length p / steplen)
         (m_nc r) (m_data r)
  else r.

(** UNIQUE(path), checked conservatively: the new paths must not occur among the old paths of
    the table and must be pairwise different. /repo/treebeard/mp_tree.py:1030 *)
Definition s_paths_clash (old new : list char) (t : text_table) : bool :=
  existsb (fun r => qpre old (m_path r) &&
             existsb (fun r' => qeq (m_path (s_set_row old new r)) (m_path r')) t) t.

(** /repo/treebeard/mp_tree.py:837-865 *)
Definition s_set_newpath (db : mp_db) (old new : list char) : res mp_db :=
  let t := db_rows db in
  if peq old new then Ok (mkDB t (db_sig db ++ (if existsb (fun r => qpre old (m_path r)) t
                                               then [(old, new)] else [])))
  else if s_paths_clash old new t then Err IntegrityError
  else Ok (mkDB (map (s_set_row old new) t)
                (db_sig db ++ (if existsb (fun r => qpre old (m_path r)) t then [(old, new)] else []))).

(** UPDATE numchild WHERE path = p: /repo/treebeard/mp_tree.py:752-756 *)
Definition s_upd_nc (p : list char) (g : nat -> nat) (r : mprow) : mprow :=
  if qeq (m_path r) p then mkMP (m_pk r) (m_path r) (m_depth r) (g (m_nc r)) (m_data r) else r.
(** /repo/treebeard/mp_tree.py:752-753 *)
Definition s_increment_numchild (db : mp_db) (p : list char) : mp_db :=
  mkDB (map (s_upd_nc p S) (db_rows db)) (db_sig db).
(** /repo/treebeard/mp_tree.py:755-756 *)
Definition s_decrement_numchild (db : mp_db) (p : list char) : mp_db :=
  mkDB (map (s_upd_nc p pred) (db_rows db)) (db_sig db).

(** Model.save() of a new instance: Django updates an existing row with the same primary key,
    otherwise inserts; UNIQUE(path) is enforced. /repo/treebeard/mp_tree.py:380, 432, 476 *)
Definition s_save_row (db : mp_db) (r : mprow) : res mp_db :=
  let t := db_rows db in
  if existsb (fun x => qeq (m_path x) (m_path r) && negb (m_pk x =? m_pk r)) t then Err IntegrityError
  else if existsb (fun x => m_pk x =? m_pk r) t
  then Ok (mkDB (map (fun x => if m_pk x =? m_pk r then r else x) t) (db_sig db))
  else Ok (mkDB (r :: t) (db_sig db)).

(** The loop collecting [movesiblings]: /repo/treebeard/mp_tree.py:802-813 *)
Fixpoint s_collect_movesiblings (prior : list char) (sibs : list mprow) : res (list mprow) :=
  match sibs with
  | [] => Ok []
  | r :: sibs' =>
      if plt prior (m_path r) then Ok []
      else do prior' <- s_inc_path (m_path r);
           do l <- s_collect_movesiblings prior' sibs';
           Ok (r :: l)
  end.

(** Replace the branch prefix of a Python string:
    _inc_path + oldpath[len(_inc_path):]  (mp_tree.py:826, 831) *)
Definition s_shift_path (node_path inc p : list char) : list char :=
  if ppre node_path p then inc ++ skipn (length inc) p else p.

(** The loop moving the siblings right: /repo/treebeard/mp_tree.py:816-831.
    [oldpath = None] means movebranch is false. *)
Fixpoint s_move_siblings (db : mp_db) (oldpath : option (list char)) (tpath : list char) (l : list mprow)
  : res (mp_db * option (list char) * path) :=
  match l with
  | [] => Ok (db, oldpath, tpath)
  | r :: l' =>
      do inc <- s_inc_path (m_path r);
      do db' <- s_set_newpath db (m_path r) inc;
      match oldpath with
      | None => s_move_siblings db' None tpath l'
      | Some op =>
          s_move_siblings db' (Some (s_shift_path (m_path r) inc op)) (s_shift_path (m_path r) inc tpath) l'
      end
  end.

(** The test of /repo/treebeard/mp_tree.py:773-776: the new place is after the last sibling. *)
Definition s_goes_last (t : text_table) (p : pos) (target : mprow) : bool :=
  match p with
  | LastSibling => true
  | Right => same_pk target (s_get_last_sibling t target)
  | _ => false
  end.

(** /repo/treebeard/mp_tree.py:785-797: the step number and the siblings that may
    have to be moved, when newpos was not given. *)
Definition s_reorder_pos (t : text_table) (p : pos) (target : mprow) : res (nat * list mprow) :=
  do basenum <- s_get_lastpos (m_path target);
  match p with
  | Left => Ok (basenum, filter (fun r => negb (qlt (m_path r) (m_path target))) (s_get_siblings t target))
  | Right => Ok (basenum + 1, filter (fun r => qlt (m_path target) (m_path r)) (s_get_siblings t target))
  | FirstSibling => Ok (1, s_get_siblings t target)
  | _ => Err KeyError
  end.

(** /repo/treebeard/mp_tree.py:758-835 _reorder_nodes_before_add_or_move.
    [oldpath] is [Some] exactly when movebranch is true.  Returns the database,
    oldpath, newpath and the possibly updated in-memory path of the target. *)
Definition s_reorder (db : mp_db) (p : pos) (newpos : option nat) (newdepth : nat) (target : mprow)
  (siblings : list mprow) (oldpath : option (list char)) : res (mp_db * option (list char) * list char * list char) :=
  let t := db_rows db in
  if s_goes_last t p target
  then
    do last <- opt_res (s_get_last_sibling t target) AttributeError;
    do newpath <- s_inc_path (m_path last);
    do db' <- match oldpath with Some op => s_set_newpath db op newpath | None => Ok db end;
    Ok (db', oldpath, newpath, m_path target)
  else
    do '(newpos, siblings) <-
      match newpos with
      | Some n => Ok (n, siblings)
      | None => s_reorder_pos t p target
      end;
    do newpath <- s_get_path (m_path target) newdepth newpos;
    do '(db1, tempnewpath) <-
      match oldpath with
      | None => Ok (db, None)
      | Some op =>
          if (length op =? length newpath) &&
             peq (get_basepath op (length op / steplen - 1)) (get_basepath newpath (newdepth - 1)) &&
             negb (match siblings with [] => true | _ => false end) && plt newpath op
          then
            do last <- opt_res (s_get_last_sibling t target) AttributeError;
            do basenum <- s_get_lastpos (m_path last);
            do temp <- s_get_path newpath newdepth (basenum + 2);
            do db1 <- s_set_newpath db op temp;
            Ok (db1, Some temp)
          else Ok (db, None)
      end;
    do movesiblings <- s_collect_movesiblings newpath siblings;
    do '(db2, oldpath2, tpath) <- s_move_siblings db1 oldpath (m_path target) (rev movesiblings);
    match oldpath2 with
    | None => Ok (db2, None, newpath, tpath)
    | Some op2 =>
        do db3 <- s_set_newpath db2 (match tempnewpath with Some x => x | None => op2 end) newpath;
        Ok (db3, Some op2, newpath, tpath)
    end.

(** siblings = get_sorted_pos_queryset(get_siblings(target), newobj).
    /repo/treebeard/mp_tree.py:459 *)
Definition s_sorted_siblings (t : text_table) (target : mprow) (d : fields) : text_table :=
  filter (fun r => sorted_after order_by d (m_data r)) (s_get_siblings t target).

(** /repo/treebeard/mp_tree.py:436-478 add_sibling.  (check_create_args is
    modelled separately.)  Returns the database and the saved instance. *)
Definition s_add_sibling (db : mp_db) (target : mprow) (p : option string) (x : newobj)
  : res (mp_db * mprow) :=
  do p <- prepare_pos_add is_sorted p;
  let t := db_rows db in
  do '(p, newpos, siblings) <-
    match p with
    | SortedSibling =>
        let siblings := s_sorted_siblings t target (new_data x) in
        match hd_error siblings with
        | Some first => do n <- s_get_lastpos (m_path first); Ok (p, Some n, siblings)
        | None => Ok (LastSibling, None, siblings)
        end
    | _ => Ok (p, None, [])
    end;
  do '(db1, _, newpath, _) <- s_reorder db p newpos (m_depth target) target siblings None;
  let parentpath := get_basepath newpath (m_depth target - 1) in
  let db2 := match parentpath with [] => db1 | _ => s_increment_numchild db1 parentpath end in
  let r := mkMP (new_pk x) newpath (m_depth target) (new_nc x) (new_data x) in
  do db3 <- s_save_row db2 r;
  Ok (db3, r).

(** /repo/treebeard/mp_tree.py:339-381 add_root *)
Definition s_add_root (db : mp_db) (x : newobj) : res (mp_db * mprow) :=
  match s_get_last_root_node (db_rows db) with
  | Some last =>
      if is_sorted then s_add_sibling db last (Some "sorted-sibling"%string) x
      else
        do newpath <- s_inc_path (m_path last);
        let r := mkMP (new_pk x) newpath 1 (new_nc x) (new_data x) in
        do db' <- s_save_row db r; Ok (db', r)
  | None =>
      do newpath <- s_get_path [] 1 1;
      let r := mkMP (new_pk x) newpath 1 (new_nc x) (new_data x) in
      do db' <- s_save_row db r; Ok (db', r)
  end.

(** /repo/treebeard/mp_tree.py:383-434 add_child.  Returns the database, the saved
    instance and the caller's target object after the call. *)
Definition s_add_child (db : mp_db) (target : mprow) (x : newobj) : res (mp_db * mprow * mprow) :=
  do node <- get_by_pk (db_rows db) (m_pk target);
  if is_sorted && negb (is_leaf node) then
    do last <- opt_res (s_get_last_child (db_rows db) node) AttributeError;
    do '(db', r) <- s_add_sibling db last (Some "sorted-sibling"%string) x;
    Ok (db', r, set_nc target (S (m_nc target)))
  else
    let depth := m_depth node + 1 in
    do newpath <-
      (if is_leaf node then
         do np <- s_get_path (m_path node) depth 1;
         if maxlen cfg <? length np then Err PathOverflow else Ok np
       else
         do last <- opt_res (s_get_last_child (db_rows db) node) AttributeError;
         s_inc_path (m_path last));
    let db1 := mkDB (map (upd_nc_pk (m_pk node) S) (db_rows db)) (db_sig db) in
    let r := mkMP (new_pk x) newpath depth (new_nc x) (new_data x) in
    do db2 <- s_save_row db1 r;
    Ok (db2, r, set_nc target (S (m_nc node))).

(** /repo/treebeard/mp_tree.py:549-579 update_move_to_child_vars.  Returns target,
    newdepth, siblings, newpos, pos; the in-memory effect parent.numchild += 1 is
    returned as the last component (the caller's target object). *)
Definition s_move_to_child_vars (t : text_table) (node target : mprow) (p : pos)
  : res (mprow * nat * list mprow * option nat * pos * mprow) :=
  match p with
  | FirstChild | LastChild | SortedChild =>
      if m_pk target =? m_pk node then Err InvalidMoveToDescendant
      else
        let parent := set_nc target (S (m_nc target)) in
        if is_leaf target then
          Ok (parent, m_depth target + 1, [], Some 1, FirstSibling, parent)
        else
          do last <- opt_res (s_get_last_child t target) AttributeError;
          Ok (last, m_depth target + 1, [], None,
              match p with FirstChild => FirstSibling | LastChild => LastSibling | _ => SortedSibling end,
              parent)
  | _ => Ok (target, m_depth target, [], None, p, target)
  end.

(** /repo/treebeard/mp_tree.py:536-547 *)
Definition s_update_parent_counts (db : mp_db) (oldpath newpath : list char) : mp_db :=
  let op := get_parent_path oldpath in
  let np := get_parent_path newpath in
  if peq op np then db
  else
    let db := match op with [] => db | _ => s_decrement_numchild db op end in
    match np with [] => db | _ => s_increment_numchild db np end.

(** The path the no-op and sorted tests take in move: /repo/treebeard/mp_tree.py:499-525.
    [None]: nothing to do; [Some (pos, newpos, siblings)]: continue. *)
Definition s_move_prepare (t : text_table) (node target : mprow) (newdepth : nat) (p : pos)
  (newpos : option nat) (siblings : list mprow) : res (option (pos * option nat * list mprow)) :=
  do r <-
    match p with
    | SortedSibling =>
        let siblings := s_sorted_siblings t target (m_data node) in
        match hd_error siblings with
        | Some first =>
            do n <- s_get_lastpos (m_path first);
            do here <- s_get_lastpos (m_path node);
            if peq (get_basepath (m_path node) (m_depth node - 1))
                   (get_basepath (m_path first) (m_depth first - 1)) && (here + 1 =? n)
            then Ok None
            else Ok (Some (p, Some n, siblings))
        | None => Ok (Some (LastSibling, None, siblings))
        end
    | _ => Ok (Some (p, newpos, siblings))
    end;
  match r with
  | None => Ok None
  | Some (p, newpos, siblings) =>
      if (newdepth =? m_depth node) &&
         match p with
         | FirstSibling => same_pk node (s_get_first_sibling t target)
         | LastSibling => same_pk node (s_get_last_sibling t target)
         | _ => false
         end
      then Ok None
      else if (m_pk node =? m_pk target) &&
         match p with
         | Left => true
         | Right | LastSibling => same_pk target (s_get_last_sibling t target)
         | _ => false
         end
      then Ok None
      else Ok (Some (p, newpos, siblings))
  end.

(** /repo/treebeard/mp_tree.py:480-534 move.  Returns the database, and the
    caller's node and target objects after the call. *)
Definition s_move (db : mp_db) (node target : mprow) (p : option string)
  : res (mp_db * mprow * mprow) :=
  do p <- prepare_pos_move is_sorted p;
  let t := db_rows db in
  do '(target1, newdepth, siblings, newpos, p1, user_target) <- s_move_to_child_vars t node target p;
  let was_child := match p with FirstChild | LastChild | SortedChild => negb (is_leaf target) | _ => false end in
  if s_is_descendant_of target1 node then Err InvalidMoveToDescendant
  else
    do r <- s_move_prepare t node target1 newdepth p1 newpos siblings;
    match r with
    | None => Ok (db, node, user_target)
    | Some (p2, newpos, siblings) =>
        do '(db1, oldpath, newpath, tpath) <-
          s_reorder db p2 newpos newdepth target1 siblings (Some (m_path node));
        let db2 := s_update_parent_counts db1 (match oldpath with Some x => x | None => [] end) newpath in
        do node' <- refresh (db_rows db2) node;
        do target' <- refresh (db_rows db2) target1;
        Ok (db2, node', if was_child then user_target else target')
    end.

(** ** Delete: /repo/treebeard/mp_tree.py:32-86 *)

(** The loop at 43-53: keep a node unless an ancestor path is already in [removed]. [removed]
    is kept in insertion order. /repo/treebeard/mp_tree.py:43-53 *)
Definition s_has_removed_ancestor (removed : list mprow) (r : mprow) : bool :=
  existsb (fun d => existsb (fun x => peq (m_path x) (get_basepath (m_path r) d)) removed)
          (seq 1 (length (m_path r) / steplen - 1)).

(** The whole loop of /repo/treebeard/mp_tree.py:43-53 *)
Fixpoint s_minimal_removed (removed : list mprow) (l : list mprow) : list mprow :=
  match l with
  | [] => removed
  | r :: l => if s_has_removed_ancestor removed r then s_minimal_removed removed l
              else s_minimal_removed (removed ++ [r]) l
  end.

(** order_by("depth", "path"). /repo/treebeard/mp_tree.py:44 *)
Definition s_depth_path_le (a b : mprow) : bool :=
  (m_depth a <? m_depth b) || ((m_depth a =? m_depth b) && negb (qlt (m_path b) (m_path a))).

(** Counter of lost children per parent path: 58-63. The counter [parents]:
    /repo/treebeard/mp_tree.py:58-63 *)
Definition s_lost_children (removed : list mprow) (p : list char) : nat :=
  length (filter (fun r => peq (parent_path_of r) p) removed).

(** The keys of the counter [parents]: /repo/treebeard/mp_tree.py:58-63 *)
Definition s_dedup_paths (l : list (list char)) : list (list char) :=
  fold_right (fun p acc => if existsb (peq p) acc then acc else p :: acc) [] l.

(** The keys of the counter [parents]: /repo/treebeard/mp_tree.py:58-63 *)
Definition s_parents_of_removed (removed : list mprow) : list (list char) :=
  s_dedup_paths (filter (fun p => match p with [] => false | _ => true end)
                      (map parent_path_of removed)).

(** Q(pk__in=...) | Q(path__startswith=...): 61-68, 78-81. /repo/treebeard/mp_tree.py:65-68,
    78-81 *)
Definition s_deleted_row (removed : list mprow) (r : mprow) : bool :=
  existsb (fun x => if is_leaf x then m_pk r =? m_pk x else qpre (m_path x) (m_path r)) removed.

(** The SQL statements of a delete in order: one UPDATE per parent, then the DELETE.
    Greatest(numchild - lost, 0) is truncated subtraction. /repo/treebeard/mp_tree.py:72-81 *)
Definition s_delete_statements (t : text_table) (selected : mprow -> bool)
  : list (text_table -> text_table) :=
  let removed := s_minimal_removed [] (isort s_depth_path_le (filter selected t)) in
  map (fun p => map (s_upd_nc p (fun n => n - s_lost_children removed p))) (s_parents_of_removed removed)
  ++ [filter (fun r => negb (s_deleted_row removed r))].

(** /repo/treebeard/mp_tree.py:32-86 *)
Definition s_delete_queryset (t : text_table) (selected : mprow -> bool) : text_table :=
  run_statements t (s_delete_statements t selected).

(** /repo/treebeard/models.py:97-100 Node.delete *)
Definition s_delete_node (t : text_table) (n : mprow) : text_table :=
  s_delete_queryset t (fun r => m_pk r =? m_pk n).

(** Calls with freshly fetched nodes, see MPHist.mp_exec. /repo/treebeard/mp_tree.py:32-86,
    341-534 *)
Definition s_exec (db : mp_db) (c : call) : res mp_db :=
  let new (x : node) := mkNew (nid x) 0 (ndata x) in
  match c with
  | CAddRoot x => do r <- s_add_root db (new x); Ok (fst r)
  | CAddChild p x =>
      do t <- get_by_pk (db_rows db) p;
      do r <- s_add_child db t (new x); Ok (fst (fst r))
  | CAddSibling t p x =>
      do t <- get_by_pk (db_rows db) t;
      do r <- s_add_sibling db t p (new x); Ok (fst r)
  | CMove n t p =>
      do n <- get_by_pk (db_rows db) n;
      do t <- get_by_pk (db_rows db) t;
      do r <- s_move db n t p; Ok (fst (fst r))
  | CDelete l =>
      Ok (mkDB (s_delete_queryset (db_rows db) (fun r => existsb (Nat.eqb (m_pk r)) l)) (db_sig db))
  end.
End Text.
