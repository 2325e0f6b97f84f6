(** The calls on materialized paths as transactions, statement by statement (see ConcModel.v):
    all of them, at all positions, with and without node_order_by.

    Simplifications: the queries that one test sends to read nodes are one SELECT here. The
    objects given to a call are fetched at its begin. UNIQUE(path) is checked by an UPDATE of
    paths against the rows it sees (ConcModel.v itself checks it for INSERTs only): a SELECT
    before it. *)
From Coq Require Import String List Arith Bool.
From Verif Require Import Prelude Forest CommonModel Order History ConcModel.
From Verif Require Import MPModel.
Import ListNotations.

(** A method that reads nodes, e.g. /repo/treebeard/models.py:553-577 *)
Definition reads {A} (f : mp_table -> res A) (c : A -> prog mprow) : prog mprow :=
  Select (fun t => or_raise (f t) c).

Section MP.
Variable cfg : mp_cfg.

(** /repo/treebeard/mp_tree.py:837-865 _set_newpath_in_branches; UNIQUE(path) is in 1030 *)
Definition mp_set (old new : path) (c : prog mprow) : prog mprow :=
  Select (fun t =>
    if negb (peq old new) && paths_clash cfg old new t then Raise IntegrityError
    else Update (fun r => ppre old (m_path r)) (set_row cfg old new) c).

(** The loop of /repo/treebeard/mp_tree.py:815-831; [c] gets oldpath *)
Fixpoint mp_moves (oldpath : option path) (l : list mprow) (c : option path -> prog mprow) : prog mprow :=
  match l with
  | [] => c oldpath
  | r :: l =>
      or_raise (inc_path cfg (m_path r)) (fun inc =>
      mp_set (m_path r) inc (mp_moves (option_map (shift_path (m_path r) inc) oldpath) l c))
  end.

(** The QuerySet of siblings, which is evaluated by its truth value (794) or by the loop
    (806); [None] is the empty one. /repo/treebeard/mp_tree.py:457-465, 564, 777-783 *)
Definition mp_later (newpos : option nat) (siblings : option (mp_table -> list mprow)) (p : pos) (target : mprow)
  (t : mp_table) : res (nat * list mprow) :=
  match newpos with
  | Some n => Ok (n, match siblings with Some q => q t | None => [] end)
  | None => reorder_pos cfg t p target
  end.

(** The move to a temporary path, /repo/treebeard/mp_tree.py:788-799; [c] gets tempnewpath *)
Definition mp_temporary (newdepth : nat) (target : mprow) (newpath : path) (siblings : list mprow) (oldpath : option path)
  (c : option path -> prog mprow) : prog mprow :=
  match oldpath with
  | None => c None
  | Some op =>
      if (length op =? length newpath) &&
         peq (get_basepath cfg op (length op / steplen cfg - 1)) (get_basepath cfg newpath (newdepth - 1)) &&
         negb (match siblings with [] => true | _ => false end) && py_lt cfg newpath op
      then
        reads (fun t => opt_res (get_last_sibling cfg t target) AttributeError) (fun last =>
        or_raise (get_lastpos cfg (m_path last)) (fun basenum =>
        let temp := get_path cfg newpath newdepth (basenum + 2) in
        mp_set op temp (c (Some temp))))
      else c None
  end.

(** /repo/treebeard/mp_tree.py:758-835 _reorder_nodes_before_add_or_move; [c] gets oldpath
    and newpath *)
Definition mp_reorder (p : pos) (newpos : option nat) (newdepth : nat) (target : mprow)
  (siblings : option (mp_table -> list mprow)) (oldpath : option path) (c : option path -> path -> prog mprow) : prog mprow :=
  reads (fun t => Ok (goes_last cfg t p target)) (fun at_end =>
  if at_end : bool then
    reads (fun t => opt_res (get_last_sibling cfg t target) AttributeError) (fun last =>
    or_raise (inc_path cfg (m_path last)) (fun newpath =>
    match oldpath with
    | Some op => mp_set op newpath (c oldpath newpath)
    | None => c None newpath
    end))
  else
    reads (mp_later newpos siblings p target) (fun '(n, siblings) =>
    let newpath := get_path cfg (m_path target) newdepth n in
    mp_temporary newdepth target newpath siblings oldpath (fun tempnewpath =>
    or_raise (collect_movesiblings cfg newpath siblings) (fun movesiblings =>
    mp_moves oldpath (rev movesiblings) (fun oldpath =>
    match oldpath with
    | None => c None newpath
    | Some op => mp_set (match tempnewpath with Some x => x | None => op end) newpath (c (Some op) newpath)
    end))))).

(** The first of the later siblings in a sorted model. /repo/treebeard/mp_tree.py:457-460,
    499-501 *)
Definition mp_first (p : pos) (target : mprow) (d : fields) (t : mp_table) : res (option mprow) :=
  Ok (match p with SortedSibling => hd_error (sorted_siblings cfg t target d) | _ => None end).
(** The QuerySet of the later siblings. /repo/treebeard/mp_tree.py:457-465, 499-500 *)
Definition mp_siblings (p : pos) (target : mprow) (d : fields) : option (mp_table -> list mprow) :=
  match p with SortedSibling => Some (fun t => sorted_siblings cfg t target d) | _ => None end.

(** /repo/treebeard/mp_tree.py:436-478 add_sibling *)
Definition mp_sibling (target : mprow) (p : option string) (x : node) : prog mprow :=
  or_raise (prepare_pos_add (is_sorted cfg) p) (fun p =>
  reads (mp_first p target (ndata x)) (fun first =>
  or_raise (match p, first with
            | SortedSibling, Some f => do n <- get_lastpos cfg (m_path f); Ok (p, Some n)
            | SortedSibling, None => Ok (LastSibling, None)
            | _, _ => Ok (p, None)
            end) (fun '(p', newpos) =>
  mp_reorder p' newpos (m_depth target) target (mp_siblings p target (ndata x)) None
    (fun _ newpath => mp_insert_sibling cfg x (m_depth target) newpath)))).

(** add_sibling of a node fetched before. /repo/treebeard/mp_tree.py:436-478 *)
Definition mp_add_sibling (k : nat) (p : option string) (x : node) : prog mprow :=
  reads (fun t => get_by_pk t k) (fun r => mp_sibling r p x).

(** /repo/treebeard/mp_tree.py:339-381 add_root *)
Definition mp_add_root_by (x : node) : prog mprow :=
  reads (fun t => Ok (get_last_root_node t)) (fun last =>
  match last with
  | Some last => if is_sorted cfg then mp_sibling last (Some "sorted-sibling"%string) x
                 else or_raise (inc_path cfg (m_path last)) (fun np => Insert (mp_new x np 1) Commit)
  | None => Insert (mp_new x (get_path cfg [] 1 1) 1) Commit
  end).

(** /repo/treebeard/mp_tree.py:383-434 add_child; the parent is locked (400) *)
Definition mp_add_child_by (k : nat) (x : node) : prog mprow :=
  SelectForUpdate k (fun r => else_raise r DoesNotExist (fun nd =>
    if is_sorted cfg && negb (is_leaf nd)
    then reads (fun t => opt_res (get_last_child cfg t nd) AttributeError) (fun last => mp_sibling last (Some "sorted-sibling"%string) x)
    else if is_leaf nd
    then let np := get_path cfg (m_path nd) (m_depth nd + 1) 1 in
         if maxlen cfg <? length np then Raise PathOverflow else mp_insert_child k x (m_depth nd + 1) np
    else reads (fun t => opt_res (get_last_child cfg t nd) AttributeError) (fun last =>
         or_raise (inc_path cfg (m_path last)) (fun np => mp_insert_child k x (m_depth nd + 1) np)))).

(** /repo/treebeard/mp_tree.py:536-547 update_parent_counts_after_move *)
Definition mp_counts (oldpath newpath : path) (c : prog mprow) : prog mprow :=
  let op := get_parent_path cfg oldpath in
  let np := get_parent_path cfg newpath in
  if peq op np then c
  else
    let up := match np with [] => c | _ => Update (fun r => peq (m_path r) np) (fun r => set_nc r (S (m_nc r))) c end in
    match op with [] => up | _ => Update (fun r => peq (m_path r) op) (fun r => set_nc r (pred (m_nc r))) up end.

(** Where a sorted move goes, and whether the node is there: /repo/treebeard/mp_tree.py:499-512.
    [None]: it is there. *)
Definition mp_place (node : mprow) (first : option mprow) (p : pos) (newpos : option nat) : res (option (pos * option nat)) :=
  match p, first with
  | SortedSibling, Some first =>
      do n <- get_lastpos cfg (m_path first);
      do here <- get_lastpos cfg (m_path node);
      if peq (get_basepath cfg (m_path node) (m_depth node - 1)) (get_basepath cfg (m_path first) (m_depth first - 1)) && (here + 1 =? n)
      then Ok None else Ok (Some (p, Some n))
  | SortedSibling, None => Ok (Some (LastSibling, None))
  | _, _ => Ok (Some (p, newpos))
  end.

(** The special cases of /repo/treebeard/mp_tree.py:514-525 *)
Definition mp_noop (node target : mprow) (newdepth : nat) (p : pos) (t : mp_table) : res bool :=
  Ok (((newdepth =? m_depth node) &&
       match p with
       | FirstSibling => same_pk node (get_first_sibling cfg t target)
       | LastSibling => same_pk node (get_last_sibling cfg t target)
       | _ => false
       end) ||
      ((m_pk node =? m_pk target) &&
       match p with
       | Left => true
       | Right | LastSibling => same_pk target (get_last_sibling cfg t target)
       | _ => false
       end)).

(** /repo/treebeard/mp_tree.py:480-534 move *)
Definition mp_move (n q : nat) (p : option string) : prog mprow :=
  reads (fun t => get_by_pk t n) (fun nd =>
  reads (fun t => get_by_pk t q) (fun target =>
  or_raise (prepare_pos_move (is_sorted cfg) p) (fun p =>
  reads (fun t => move_to_child_vars cfg t nd target p) (fun '(tg, newdepth, _, newpos, p1, _) =>
  if is_descendant_of tg nd then Raise InvalidMoveToDescendant
  else
  reads (mp_first p1 tg (m_data nd)) (fun first =>
  or_raise (mp_place nd first p1 newpos) (fun place =>
  match place with
  | None => Commit
  | Some (p2, newpos) =>
      reads (mp_noop nd tg newdepth p2) (fun stays =>
      if stays : bool then Commit
      else
      mp_reorder p2 newpos newdepth tg (mp_siblings p1 tg (m_data nd)) (Some (m_path nd)) (fun oldpath newpath =>
      mp_counts (match oldpath with Some x => x | None => [] end) newpath
      (reads (fun t => get_by_pk t n) (fun _ => reads (fun t => get_by_pk t (m_pk tg)) (fun _ => Commit)))))
  end)))))).

(** All calls: /repo/treebeard/mp_tree.py:32-86, 339-579 *)
Definition mp_tx (c : call) : prog mprow :=
  match c with
  | CAddRoot x => mp_add_root_by x
  | CAddChild k x => mp_add_child_by k x
  | CAddSibling k p x => mp_add_sibling k p x
  | CMove n q p => mp_move n q p
  | CDelete l => mp_delete cfg l
  end.
End MP.
