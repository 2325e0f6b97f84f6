(** Model of find_problems and fix_tree of /repo/treebeard/mp_tree.py. *)
From Coq Require Import List Arith Bool ZArith.
From Verif Require Import Prelude Forest NumConv PathTab CommonModel Order MPModel.
Import ListNotations.

Section MPFix.
Variable cfg : mp_cfg.
Notation radix := (radix cfg).
Notation steplen := (steplen cfg).

(** path__startswith=parent.path or all rows: mp_tree.py:159, 296-299 *)
Definition below (parent : option mprow) (r : mprow) : bool :=
  match parent with Some p => ppre (m_path p) (m_path r) | None => true end.

(** The five lists of find_problems as a classification of one row.
    /repo/treebeard/mp_tree.py:271-337 *)
Inductive problem := EvilChars | BadSteplen | Orphan | WrongDepth | WrongNumchild.

(** The count at /repo/treebeard/mp_tree.py:327-331 *)
Definition real_numchild (t : mp_table) (n : mprow) : nat :=
  length (filter (fun r => in_range (children_interval cfg (m_path n)) (m_path r) &&
                           (length (m_path r) / steplen =? m_depth n + 1)) t).

(** The body of the loop, /repo/treebeard/mp_tree.py:303-335.  A character that is
    not in the alphabet is a number that is not below the radix. *)
Definition problem_of (t : mp_table) (n : mprow) : option problem :=
  if existsb (fun c => negb (c <? radix)) (m_path n) then Some EvilChars
  else if negb (length (m_path n) mod steplen =? 0) then Some BadSteplen
  else match get_parent cfg t n with
       | Err _ => Some Orphan
       | Ok _ =>
           if negb (m_depth n =? length (m_path n) / steplen) then Some WrongDepth
           else if negb (real_numchild t n =? m_nc n) then Some WrongNumchild
           else None
       end.

(** /repo/treebeard/mp_tree.py:271-337 find_problems: the primary keys with their
    problem, in table order (the source groups them into five lists). *)
Definition find_problems (t : mp_table) (parent : option mprow) : list (nat * problem) :=
  flat_map (fun n => match problem_of t n with Some p => [(m_pk n, p)] | None => [] end)
           (filter (below parent) t).

(** /repo/treebeard/mp_tree.py:161-162: the depth update *)
Definition fix_depth (parent : option mprow) (t : mp_table) : mp_table :=
  map (fun r => if below parent r
                then mkMP (m_pk r) (m_path r) (length (m_path r) / steplen) (m_nc r) (m_data r)
                else r) t.

(** /repo/treebeard/mp_tree.py:246-269 _fix_numchild (the non-MySQL statement;
    the MySQL variant writes the same values row by row) *)
Definition count_children (t : mp_table) (p : path) : nat :=
  length (filter (fun r => ppre p (m_path r) && (length (m_path r) =? length p + steplen)) t).
(** /repo/treebeard/mp_tree.py:246-269 *)
Definition fix_numchild (parent : option mprow) (t : mp_table) : mp_table :=
  map (fun r => if below parent r then set_nc r (count_children t (m_path r)) else r) t.

(** /repo/treebeard/mp_tree.py:240-244 _rewrite_node_path; UNIQUE(path) checked as
    in [set_newpath]. *)
Definition rewrite_row (old new : path) (r : mprow) : mprow :=
  if ppre old (m_path r)
  then mkMP (m_pk r) (new ++ skipn (length old) (m_path r)) (m_depth r) (m_nc r) (m_data r) else r.
(** /repo/treebeard/mp_tree.py:240-244 *)
Definition rewrite_node_path (db : mp_db) (old new : path) : res mp_db :=
  let t := db_rows db in
  let sig := if existsb (fun r => ppre old (m_path r)) t then [(old, new)] else [] in
  if peq old new then Ok (mkDB t (db_sig db ++ sig))
  else if existsb (fun r => ppre old (m_path r) &&
             existsb (fun r' => peq (m_path (rewrite_row old new r)) (m_path r')) t) t
  then Err IntegrityError
  else Ok (mkDB (map (rewrite_row old new) t) (db_sig db ++ sig)).

(** ORDER BY node_order_by (NULLs compare as smallest here; databases differ), or path.
    /repo/treebeard/mp_tree.py:187 *)
Fixpoint col_lt (o : ordering) (x y : fields) : bool :=
  match o with
  | [] => false
  | (i, desc) :: o' =>
      match fval x i, fval y i with
      | Some v, Some u => before desc v u || (Z.eqb v u && col_lt o' x y)
      | None, None => col_lt o' x y
      | None, Some _ => negb desc
      | Some _, None => desc
      end
  end.
(** /repo/treebeard/mp_tree.py:187 *)
Definition sort_rows (l : list mprow) : list mprow :=
  if is_sorted cfg then isort (fun a b => negb (col_lt (order_by cfg) (m_data b) (m_data a))) l
  else order_path l.

(** The state of the loop at /repo/treebeard/mp_tree.py:197-235: the database, the
    [path] of the item dictionaries by primary key, actual_sequence (position to
    primary key) and max_position. *)
Record fix_state := mkFix {
  fx_db : mp_db; fx_paths : list (nat * path); fx_seq : list (nat * nat); fx_max : nat }.

(** [actual_sequence.get], /repo/treebeard/mp_tree.py:211 *)
Definition assoc {B} (k : nat) (l : list (nat * B)) : option B :=
  match find (fun x => fst x =? k) l with Some x => Some (snd x) | None => None end.
(** [del actual_sequence[...]], /repo/treebeard/mp_tree.py:223, 232 *)
Definition del_key {B} (k : nat) (l : list (nat * B)) : list (nat * B) :=
  filter (fun x => negb (fst x =? k)) l.
(** [actual_sequence[...] = item], /repo/treebeard/mp_tree.py:198, 222, 231 *)
Definition set_key {B} (k : nat) (v : B) (l : list (nat * B)) : list (nat * B) :=
  (k, v) :: del_key k l.

(** /repo/treebeard/mp_tree.py:206-222: getting the occupant out of the way *)
Definition evict (parent_path : path) (depth desired : nat) (s : fix_state) : res fix_state :=
  match assoc desired (fx_seq s) with
  | None => Ok s
  | Some occ =>
      do old <- opt_res (assoc occ (fx_paths s)) KeyError;
      let m := fx_max s + 1 in
      let new := get_path cfg parent_path depth m in
      if length old <? length new then Err PathOverflow
      else
        do db <- rewrite_node_path (fx_db s) old new;
        Ok (mkFix db (set_key occ new (fx_paths s)) (del_key desired (set_key m occ (fx_seq s))) m)
  end.

(** One iteration, /repo/treebeard/mp_tree.py:198-231, for the item [pk] that should
    get position [desired]. *)
Definition fix_item (parent_path : path) (depth desired pk : nat) (s : fix_state) : res fix_state :=
  do p <- opt_res (assoc pk (fx_paths s)) KeyError;
  do actual <- get_lastpos cfg p;
  if actual =? desired then Ok s
  else
    do s1 <- evict parent_path depth desired s;
    do old <- opt_res (assoc pk (fx_paths s1)) KeyError;
    let new := get_path cfg parent_path depth desired in
    do db <- rewrite_node_path (fx_db s1) old new;
    Ok (mkFix db (set_key pk new (fx_paths s1)) (del_key actual (set_key desired pk (fx_seq s1))) (fx_max s1)).

(** The for loop of /repo/treebeard/mp_tree.py:203-238 *)
Fixpoint fix_items (parent_path : path) (depth i : nat) (items : list mprow) (s : fix_state)
  (queue : list (path * nat)) : res (fix_state * list (path * nat)) :=
  match items with
  | [] => Ok (s, queue)
  | it :: items =>
      do s1 <- fix_item parent_path depth (S i) (m_pk it) s;
      do p <- opt_res (assoc (m_pk it) (fx_paths s1)) KeyError;
      fix_items parent_path depth (S i) items s1
        (if m_nc it =? 0 then queue else queue ++ [(p, depth + 1)])
  end.

(** The first loop, /repo/treebeard/mp_tree.py:189-194 *)
Fixpoint positions (items : list mprow) : res (list (nat * nat)) :=
  match items with
  | [] => Ok []
  | it :: items =>
      do v <- get_lastpos cfg (m_path it);
      do l <- positions items;
      Ok ((v, m_pk it) :: l)
  end.

(** One turn of the while loop, /repo/treebeard/mp_tree.py:172-235 *)
Definition fix_level (db : mp_db) (parent_path : path) (depth : nat) (queue : list (path * nat))
  : res (mp_db * list (path * nat)) :=
  let items := sort_rows (filter (fun r => ppre parent_path (m_path r) && (m_depth r =? depth)) (db_rows db)) in
  do seq <- positions items;
  let s := mkFix db (map (fun r => (m_pk r, m_path r)) items) seq (list_max (map fst seq)) in
  do '(s', q') <- fix_items parent_path depth 0 items s queue;
  Ok (fx_db s', q').

(** The while loop of /repo/treebeard/mp_tree.py:180-238 *)
Fixpoint fix_loop (fuel : nat) (db : mp_db) (queue : list (path * nat)) : res mp_db :=
  match queue with
  | [] => Ok db
  | (p, d) :: queue =>
      match fuel with
      | 0 => Err OutOfFuel
      | S fuel => do '(db', q') <- fix_level db p d queue; fix_loop fuel db' q'
      end
  end.

(** /repo/treebeard/mp_tree.py:125-238 fix_tree.  Each node is put on the queue at
    most once, so the number of rows plus one is enough fuel. *)
Definition fix_tree (db : mp_db) (fix_paths : bool) (parent : option mprow) : res mp_db :=
  let t := fix_numchild parent (fix_depth parent (db_rows db)) in
  let db1 := mkDB t (db_sig db) in
  if fix_paths then
    fix_loop (S (length t)) db1
      [match parent with Some p => (m_path p, m_depth p + 1) | None => ([], 1) end]
  else Ok db1.
End MPFix.
