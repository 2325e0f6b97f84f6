(** Concurrent transactions.

    A database at the isolation level READ COMMITTED with row locks (the default of
    PostgreSQL, and of Django with it).  A statement sees the rows committed before it and
    the writes of its own transaction.  SELECT ... FOR UPDATE waits until no other
    transaction holds a lock on the row.  An UPDATE or DELETE first finds its rows, then
    waits until none of them is locked by another transaction, and changes or deletes the
    current versions of those found rows that still satisfy its condition; rows committed by
    others in the meantime are not found.  An INSERT waits while another transaction has written a row
    with the same value in a UNIQUE column, and fails if such a row is there.  Locks are
    held until the end of the transaction.  An exception rolls back.

    Simplifications: an UPDATE or DELETE that waits takes all its locks at once, UNIQUE is not
    checked for UPDATEs, and there is no deadlock detection (transactions that wait for each
    other wait for ever). *)
From Coq Require Import List Arith Bool ZArith.
From Verif Require Import Prelude Forest CommonModel Order History.
From Verif Require MPModel NSModel ALModel LTModel.
Import ListNotations.

Section Db.
Variable R : Type.
Variable pk : R -> nat.
Variable same : R -> R -> bool. (** equal in a UNIQUE column (the primary key is one) *)

(** A transaction: the statements of a call as they depend on the rows read. The blocks
    transaction.atomic of /repo/treebeard/mp_tree.py:341-534,
    /repo/treebeard/ns_tree.py:114-179, /repo/treebeard/al_tree.py:66-153,
    /repo/treebeard/ltree/__init__.py:164-227 *)
Inductive prog :=
| Commit
| Raise (e : exn)
| SelectForUpdate (k : nat) (c : option R -> prog)
| Select (c : list R -> prog)
| Update (sel : R -> bool) (f : R -> R) (c : prog)
| Delete (sel : R -> bool) (c : prog)
| Insert (r : R) (c : prog).

(** What a statement did to a row, e.g. /repo/treebeard/mp_tree.py:427-432 *)
Inductive write := Put (r : R) | New (r : R) | Gone (r : R).
(** The row of a write, e.g. /repo/treebeard/mp_tree.py:427-432 *)
Definition written (w : write) : R := match w with Put r | New r | Gone r => r end.

(** A running transaction: what is left of it, its uncommitted writes, its locks, and the rows
    found by a waiting UPDATE. Database, e.g. for /repo/treebeard/mp_tree.py:383-434 *)
Record tx := mkTx { x_prog : prog; x_writes : list write; x_locks : list nat; x_found : option (list nat) }.

(** @transaction.atomic, e.g. /repo/treebeard/mp_tree.py:383 *)
Definition begin (p : prog) : tx := mkTx p [] [] None.

(** Database: the effect of UPDATE, INSERT, DELETE, e.g. /repo/treebeard/mp_tree.py:427-432 *)
Definition apply_write (t : list R) (w : write) : list R :=
  match w with
  | Put r => map (fun x => if pk x =? pk r then r else x) t
  | New r => r :: t
  | Gone r => filter (fun x => negb (pk x =? pk r)) t
  end.
(** Database: a transaction sees its own writes, e.g. /repo/treebeard/mp_tree.py:427-432 *)
Definition visible (t : list R) (x : tx) : list R := fold_left apply_write (x_writes x) t.

(** One step of a transaction that does not have to wait. Database, e.g. for
    /repo/treebeard/mp_tree.py:383-434 *)
Inductive outcome := Go (x : tx) | End (rows : list R) (failure : option exn).

(** Database: the transaction goes on or ends, e.g. /repo/treebeard/mp_tree.py:383-434 *)
Definition goes (t : list R) (p : prog) (ws : list write) (ls : list nat) : outcome :=
  match p with Raise e => End t (Some e) | _ => Go (mkTx p ws ls None) end.

(** Database: one statement, e.g. of /repo/treebeard/mp_tree.py:400-432 *)
Definition solo (t : list R) (x : tx) : outcome :=
  let see := visible t x in
  match x_prog x with
  | Commit => End see None
  | Raise e => End t (Some e)
  | SelectForUpdate k c =>
      let r := hd_error (filter (fun r => pk r =? k) see) in
      goes t (c r) (x_writes x) (match r with Some _ => k :: x_locks x | None => x_locks x end)
  | Select c => goes t (c see) (x_writes x) (x_locks x)
  | Update sel f c =>
      match x_found x with
      | None => Go (mkTx (Update sel f c) (x_writes x) (x_locks x) (Some (map pk (filter sel see))))
      | Some ks =>
          let hit := filter (fun r => sel r && existsb (Nat.eqb (pk r)) ks) see in
          goes t c (x_writes x ++ map (fun r => Put (f r)) hit) (ks ++ x_locks x)
      end
  | Delete sel c =>
      match x_found x with
      | None => Go (mkTx (Delete sel c) (x_writes x) (x_locks x) (Some (map pk (filter sel see))))
      | Some ks =>
          let hit := filter (fun r => sel r && existsb (Nat.eqb (pk r)) ks) see in
          goes t c (x_writes x ++ map Gone hit) (ks ++ x_locks x)
      end
  | Insert r c =>
      if existsb (same r) see then End t (Some IntegrityError)
      else goes t c (x_writes x ++ [New r]) (x_locks x)
  end.

(** The committed rows, the transactions (None: finished) and those finished so far in order,
    with the exception if there was one. Database and several clients of
    /repo/treebeard/mp_tree.py, /repo/treebeard/ns_tree.py, /repo/treebeard/al_tree.py,
    /repo/treebeard/ltree/__init__.py *)
Record world := mkW { w_rows : list R; w_txs : list (option tx); w_log : list (nat * option exn) }.

(** (list update, no counterpart in /repo/treebeard/*.py) *)
Fixpoint set_nth {A} (i : nat) (v : A) (l : list A) : list A :=
  match l, i with
  | [], _ => []
  | _ :: l, O => v :: l
  | x :: l, S i => x :: set_nth i v l
  end.

(** Whether a transaction has to wait for another one. Database: row locks of
    select_for_update, e.g. /repo/treebeard/mp_tree.py:400, and of written rows *)
Definition waits (x y : tx) : bool :=
  match x_prog x with
  | SelectForUpdate k _ => existsb (Nat.eqb k) (x_locks y)
  | Update _ _ _ | Delete _ _ =>
      match x_found x with
      | Some ks => existsb (fun k => existsb (Nat.eqb k) (x_locks y)) ks
      | None => false
      end
  | Insert r _ => existsb (fun w => same r (written w)) (x_writes y)
  | _ => false
  end.

(** Database: row locks of select_for_update, e.g. /repo/treebeard/mp_tree.py:400, and of
    written rows *)
Definition blocked (W : world) (i : nat) (x : tx) : bool :=
  existsb (fun j => negb (j =? i) && match nth_error (w_txs W) j with Some (Some y) => waits x y | _ => false end)
          (seq 0 (length (w_txs W))).

(** Transaction [i] takes a step, if it is running and does not have to wait. Database and
    several clients of /repo/treebeard/mp_tree.py, /repo/treebeard/ns_tree.py,
    /repo/treebeard/al_tree.py, /repo/treebeard/ltree/__init__.py *)
Definition step (W : world) (i : nat) : world :=
  match nth_error (w_txs W) i with
  | Some (Some x) =>
      if blocked W i x then W
      else match solo (w_rows W) x with
           | Go x' => mkW (w_rows W) (set_nth i (Some x') (w_txs W)) (w_log W)
           | End rows e => mkW rows (set_nth i None (w_txs W)) (w_log W ++ [(i, e)])
           end
  | _ => W
  end.

(** A schedule is a list of turns. Database and several clients of /repo/treebeard/mp_tree.py,
    /repo/treebeard/ns_tree.py, /repo/treebeard/al_tree.py, /repo/treebeard/ltree/__init__.py *)
Definition play (W : world) (schedule : list nat) : world := fold_left step schedule W.

(** Several clients begin at once (no counterpart in /repo/treebeard/*.py) *)
Definition all_begin (t : list R) (ps : list prog) : world := mkW t (map (fun p => Some (begin p)) ps) [].
(** All clients are done (no counterpart in /repo/treebeard/*.py) *)
Definition finished (W : world) : bool := forallb (fun o => match o with None => true | Some _ => false end) (w_txs W).
End Db.

Arguments Commit {R}.
Arguments Raise {R} e.
Arguments SelectForUpdate {R} k c.
Arguments Select {R} c.
Arguments Update {R} sel f c.
Arguments Delete {R} sel c.
Arguments Insert {R} r c.
Arguments Put {R} r.
Arguments New {R} r.
Arguments Gone {R} r.
Arguments written {R} w.
Arguments mkTx {R}.
Arguments x_prog {R}.
Arguments x_writes {R}.
Arguments x_locks {R}.
Arguments x_found {R}.
Arguments begin {R} p.
Arguments apply_write {R} pk t w.
Arguments visible {R} pk t x.
Arguments Go {R} x.
Arguments End {R} rows failure.
Arguments goes {R} t p ws ls.
Arguments solo {R} pk same t x.
Arguments mkW {R}.
Arguments w_rows {R}.
Arguments w_txs {R}.
Arguments w_log {R}.
Arguments waits {R} same x y.
Arguments blocked {R} same W i x.
Arguments step {R} pk same W i.
Arguments play {R} pk same W schedule.
Arguments all_begin {R} t ps.
Arguments finished {R} W.

(** A Python exception ends the block transaction.atomic with a rollback, e.g.
    /repo/treebeard/mp_tree.py:383-434 *)
Definition or_raise {R A} (r : res A) (c : A -> prog R) : prog R :=
  match r with Ok a => c a | Err e => Raise e end.
(** An exception for a missing object, e.g. /repo/treebeard/mp_tree.py:400 *)
Definition else_raise {R A} (o : option A) (e : exn) (c : A -> prog R) : prog R :=
  match o with Some a => c a | None => Raise e end.

(** ** Materialized paths: the primary key and path are UNIQUE *)
Section MP.
Import MPModel.
Variable cfg : mp_cfg.

(** The primary key and path are UNIQUE: /repo/treebeard/mp_tree.py:1030 *)
Definition mp_same (a b : mprow) : bool := (m_pk a =? m_pk b) || peq (m_path a) (m_path b).

(** The new leaf: /repo/treebeard/mp_tree.py:407-412 *)
Definition mp_new (x : node) (np : path) (depth : nat) : mprow := mkMP (nid x) np depth 0 (ndata x).

(** The UPDATE of numchild and the INSERT: /repo/treebeard/mp_tree.py:423-432 *)
Definition mp_insert_child (k : nat) (x : node) (depth : nat) (np : path) : prog mprow :=
  Update (fun r => m_pk r =? k) (fun r => set_nc r (S (m_nc r))) (Insert (mp_new x np depth) Commit).

(** The loop of /repo/treebeard/mp_tree.py:816-820; one UPDATE for each sibling (837-865) *)
Fixpoint mp_shift (l : list mprow) (c : prog mprow) : prog mprow :=
  match l with
  | [] => c
  | r :: l => or_raise (inc_path cfg (m_path r)) (fun inc => Update (fun y => ppre (m_path r) (m_path y)) (set_row cfg (m_path r) inc) (mp_shift l c))
  end.

(** /repo/treebeard/mp_tree.py:468-476: the end of add_sibling *)
Definition mp_insert_sibling (x : node) (depth : nat) (np : path) : prog mprow :=
  let parentpath := get_basepath cfg np (depth - 1) in
  let insert := Insert (mp_new x np depth) Commit in
  match parentpath with
  | [] => insert
  | _ => Update (fun r => peq (m_path r) parentpath) (fun r => set_nc r (S (m_nc r))) insert
  end.

(** add_sibling at "sorted-sibling", /repo/treebeard/mp_tree.py:451-476: the queryset of
    later siblings is evaluated by first() (459) and again by the loop (806). *)
Definition mp_add_sorted (target : mprow) (x : node) : prog mprow :=
  Select (fun t =>
    match hd_error (sorted_siblings cfg t target (ndata x)) with
    | Some first =>
        or_raise (get_lastpos cfg (m_path first)) (fun n =>
        let np := get_path cfg (m_path target) (m_depth target) n in
        Select (fun t => or_raise (collect_movesiblings cfg np (sorted_siblings cfg t target (ndata x))) (fun ms =>
          mp_shift (rev ms) (mp_insert_sibling x (m_depth target) np))))
    | None =>
        Select (fun t => else_raise (get_last_sibling cfg t target) AttributeError (fun last =>
          or_raise (inc_path cfg (m_path last)) (fun np => mp_insert_sibling x (m_depth target) np)))
    end).

(** /repo/treebeard/mp_tree.py:383-434 add_child *)
Definition mp_add_child (k : nat) (x : node) : prog mprow :=
  SelectForUpdate k (fun o => else_raise o DoesNotExist (fun nd =>
    if is_sorted cfg && negb (is_leaf nd)
    then Select (fun t => else_raise (get_last_child cfg t nd) AttributeError (fun last => mp_add_sorted last x))
    else if is_leaf nd
    then let np := get_path cfg (m_path nd) (m_depth nd + 1) 1 in
         if maxlen cfg <? length np then Raise PathOverflow else mp_insert_child k x (m_depth nd + 1) np
    else Select (fun t => else_raise (get_last_child cfg t nd) AttributeError (fun last =>
           or_raise (inc_path cfg (m_path last)) (fun np => mp_insert_child k x (m_depth nd + 1) np))))).

(** /repo/treebeard/mp_tree.py:339-381 add_root *)
Definition mp_add_root (x : node) : prog mprow :=
  Select (fun t =>
    match get_last_root_node t with
    | Some last => if is_sorted cfg then mp_add_sorted last x
                   else or_raise (inc_path cfg (m_path last)) (fun np => Insert (mp_new x np 1) Commit)
    | None => Insert (mp_new x (get_path cfg [] 1 1) 1) Commit
    end).

(** /repo/treebeard/mp_tree.py:32-86 delete of a queryset selected by primary key, in a
    transaction; one UPDATE of numchild for each parent (75-76), then the DELETE (78-81) *)
Fixpoint mp_decrease (removed : list mprow) (ps : list path) (c : prog mprow) : prog mprow :=
  match ps with
  | [] => c
  | p :: ps => Update (fun r => peq (m_path r) p) (fun r => set_nc r (m_nc r - lost_children cfg removed p)) (mp_decrease removed ps c)
  end.
(** /repo/treebeard/mp_tree.py:32-86, the queryset of the given primary keys *)
Definition mp_delete (l : list nat) : prog mprow :=
  Select (fun t =>
    let removed := minimal_removed cfg [] (isort depth_path_le (filter (fun r => existsb (Nat.eqb (m_pk r)) l) t)) in
    mp_decrease removed (parents_of_removed cfg removed) (Delete (deleted_row removed) Commit)).
End MP.

(** ** Nested sets: only the primary key is UNIQUE *)
Section NS.
Import NSModel.
Local Open Scope Z_scope.

(** Only the primary key is UNIQUE: /repo/treebeard/ns_tree.py:593-601 *)
Definition ns_same (a b : nsrow) : bool := (n_pk a =? n_pk b)%nat.

(** /repo/treebeard/ns_tree.py:141-179 add_child without node_order_by; the last child has
    the locked parent as its cached parent (157), so that add_sibling (181-255) does not
    read it again. *)
Definition ns_add_child (k : nat) (x : node) : prog nsrow :=
  let make_room (nd : nsrow) := Update (alter_sel (n_tree nd) (n_rgt nd)) (alter_row (n_rgt nd) 2) in
  SelectForUpdate k (fun o => else_raise o DoesNotExist (fun nd =>
    if is_leaf nd
    then make_room nd (Insert (mkNS (nid x) (n_tree nd) (n_lft nd + 1) (n_lft nd + 2) (n_depth nd + 1) (ndata x)) Commit)
    else Select (fun t => else_raise (get_last_child t nd) AttributeError (fun last =>
           make_room nd (Insert (mkNS (nid x) (n_tree last) (n_rgt nd) (n_rgt nd + 1) (n_depth last) (ndata x)) Commit))))).

(** /repo/treebeard/ns_tree.py:112-138 add_root without node_order_by *)
Definition ns_add_root (x : node) : prog nsrow :=
  Select (fun t => Insert (mkNS (nid x) (match get_last_root_node t with Some last => n_tree last + 1 | None => 1 end) 1 2 1 (ndata x)) Commit).

(** The loop of /repo/treebeard/ns_tree.py:71-72; one UPDATE for each gap (566-580, 588-590) *)
Fixpoint ns_close_gaps (l : list (Z * Z * Z)) : prog nsrow :=
  match l with
  | [] => Commit
  | (tree, lft, rgt) :: l => Update (alter_sel tree lft) (alter_row lft (- (rgt - lft + 1))) (ns_close_gaps l)
  end.
(** /repo/treebeard/ns_tree.py:30-73 delete of a queryset selected by primary key, in a
    transaction *)
Definition ns_delete (l : list nat) : prog nsrow :=
  Select (fun t =>
    match delete_ranges None (order_rows (filter (fun r => existsb (Nat.eqb (n_pk r)) l) t)) with
    | [] => Commit
    | ranges => Delete (fun r => existsb (in_del_range r) ranges) (ns_close_gaps (sort_ranges ranges))
    end).
End NS.

(** ** Adjacency lists *)
Section AL.
Import ALModel.
(** Only the primary key is UNIQUE: /repo/treebeard/al_tree.py:290-303 *)
Definition al_same (a b : alrow) : bool := a_pk a =? a_pk b.

(** /repo/treebeard/al_tree.py:76-93 add_child; with node_order_by there is only the INSERT *)
Definition al_add_child (o : ordering) (k : nat) (x : node) : prog alrow :=
  match o with
  | [] => Select (fun t => Insert (mkAL (nid x) (Some k) (next_sib t (Some k)) (ndata x)) Commit)
  | _ => Insert (mkAL (nid x) (Some k) 0 (ndata x)) Commit
  end.

(** /repo/treebeard/al_tree.py:108-153 move to sorted-child with node_order_by, the nodes
    fetched first.  The queries of is_leaf() and get_last_child() (121-126) are one SELECT
    here, and those of is_descendant_of() (138) another one. *)
Definition al_move_sorted (o : ordering) (n q : nat) : prog alrow :=
  Select (fun t => or_raise (get_by_pk t n) (fun node => or_raise (get_by_pk t q) (fun target =>
    Select (fun t => or_raise (move_target o t node target SortedChild) (fun '(tg, parent, _, _) =>
      Select (fun t => or_raise (is_descendant_of o t tg (fresh node)) (fun d =>
        if d then Raise InvalidMoveToDescendant
        else let up := match parent with Some q => Some (a_pk q) | None => a_parent tg end in
             Update (fun r => a_pk r =? n) (fun _ => mkAL n up (a_sib node) (a_data node)) Commit))))))).

(** Django's collector for on_delete=CASCADE, /repo/docs/source/al_tree.rst:59-92: SELECTs of
    the rows that refer to collected rows until there are no new ones.  The rounds are bounded
    by [fuel]; it does not run out. *)
Fixpoint al_collect (fuel : nat) (s : list nat) (c : list nat -> prog alrow) : prog alrow :=
  Select (fun t =>
    match map a_pk (filter (fun r => negb (in_pks s (a_pk r)) && match a_parent r with Some p => in_pks s p | None => false end) t) with
    | [] => c s
    | new => match fuel with O => Raise OutOfFuel | S n => al_collect n (s ++ new) c end
    end).
(** QuerySet.delete() of Django, which /repo/treebeard/al_tree.py does not override, of a
    queryset selected by primary key; it is a transaction *)
Definition al_delete (l : list nat) : prog alrow :=
  Select (fun t =>
    al_collect (length t) (map a_pk (filter (fun r => existsb (Nat.eqb (a_pk r)) l) t)) (fun s =>
      Delete (fun r => in_pks s (a_pk r)) Commit)).
End AL.

(** ** Ltree: the primary key and path are UNIQUE *)
Section LT.
Import LTModel.
Variable cfg : lt_cfg.
(** /repo/treebeard/ltree/__init__.py:584-592 *)
Definition lt_same (a b : ltrow) : bool := (l_pk a =? l_pk b) || peq (l_path a) (l_path b).

(** newobj.save(): /repo/treebeard/ltree/__init__.py:188, 226 *)
Definition lt_insert (x : node) (np : lpath) : prog ltrow :=
  if fits_ltree cfg np then Insert (mkLT (nid x) np (ndata x)) Commit else Raise DataError.

(** /repo/treebeard/ltree/__init__.py:191-227 add_child without node_order_by.  The path
    of the parent is that of the caller's object, fetched before the call; it is read with
    the lock here (no call of this kind changes it). *)
Definition lt_add_child (k : nat) (x : node) : prog ltrow :=
  SelectForUpdate k (fun o => else_raise o DoesNotExist (fun nd =>
    Select (fun t =>
      if is_leaf t nd then or_raise (generate_path (l_path nd) None None []) (lt_insert x)
      else Select (fun t => else_raise (get_last_child t nd) AttributeError (fun last =>
             Select (fun t => or_raise (generate_path (l_path nd) None (Some (last_label (l_path last)))
                                          (map l_path (get_children t nd))) (lt_insert x))))))).

(** /repo/treebeard/ltree/__init__.py:99-128 delete of a queryset selected by primary key *)
Definition lt_delete (l : list nat) : prog ltrow :=
  Select (fun t =>
    match paths_to_remove (order_path (filter (fun r => existsb (Nat.eqb (l_pk r)) l) t)) [] with
    | [] => Commit
    | ps => Delete (fun r => existsb (fun p => ppre p (l_path r)) ps) Commit
    end).
End LT.
