(** Programs that keep node objects: a model of what a Python program holds in its variables
    between the calls.

    /repo/docs/source/caveats.rst:7-12: "For add/move operations, Treebeard will refresh the node
    being moved/created and its target. If you have other potentially affected nodes (e.g.,
    siblings) in memory and plan to use them after a tree modification, you may need to reload them
    with object_instance.refresh_from_db()."

    An object is named by its number in the order of creation; objects are never discarded.  A
    session stops at the first exception. *)
From Coq Require Import String List Arith Bool ZArith.
From Verif Require Import Prelude Forest CommonModel.
From Verif Require MPModel NSModel ALModel LTModel.
Import ListNotations.

(** The statements of a program.  [Fetch k] is objects.get(pk=k); [NewRoot], [NewChild], [NewSib]
    are the add methods of /repo/treebeard/models.py:143-206 (the new object gets the next number);
    [MoveTo u w p] is /repo/treebeard/models.py:317-343; [Remove u] is node.delete(),
    /repo/treebeard/models.py:97-100. *)
Inductive cmd :=
| Fetch (k : nat)
| NewRoot (x : node)
| NewChild (u : nat) (x : node)
| NewSib (u : nat) (p : option string) (x : node)
| MoveTo (u w : nat) (p : option string)
| Remove (u : nat).

(** The object in a variable; a name that was never assigned is an error.
    /repo/docs/source/caveats.rst:4-12 *)
Definition obj {A} (l : list A) (u : nat) : res A := match nth_error l u with Some a => Ok a | None => Err AttributeError end.
(** Python objects are shared: the calls change them in place. e.g.
    /repo/treebeard/mp_tree.py:404, 428, 533-534 *)
Fixpoint put {A} (l : list A) (u : nat) (a : A) : list A :=
  match l, u with
  | [], _ => []
  | _ :: l, O => a :: l
  | b :: l, S u => b :: put l u a
  end.

(** Running a program from a state. /repo/docs/source/caveats.rst:4-12 *)
Fixpoint play {St} (step : St -> cmd -> res St) (s : St) (cs : list cmd) : res St :=
  match cs with
  | [] => Ok s
  | c :: cs => do s <- step s c; play step s cs
  end.

(** ** Materialized path: /repo/treebeard/mp_tree.py.  add_child assigns target.numchild
    (lines 404 and 428), move refreshes its two objects (533-534), add_sibling does not touch its
    target.  The cached parent (_cached_parent_obj) of these objects is read by get_parent only,
    which none of these calls uses. *)
Record mp_sess := mkMPS { mp_now : MPModel.mp_db; mp_objs : list MPModel.mprow }.

(** /repo/treebeard/mp_tree.py:341-534 and /repo/treebeard/models.py:97-103 *)
Definition mp_step (cfg : MPModel.mp_cfg) (s : mp_sess) (c : cmd) : res mp_sess :=
  let db := mp_now s in
  let l := mp_objs s in
  let new (x : node) := MPModel.mkNew (nid x) 0 (ndata x) in
  match c with
  | Fetch k => do r <- MPModel.get_by_pk (MPModel.db_rows db) k; Ok (mkMPS db (l ++ [r]))
  | NewRoot x => do '(db, r) <- MPModel.add_root cfg db (new x); Ok (mkMPS db (l ++ [r]))
  | NewChild u x =>
      do t <- obj l u; do '(db, r, t) <- MPModel.add_child cfg db t (new x);
      Ok (mkMPS db (put l u t ++ [r]))
  | NewSib u p x =>
      do t <- obj l u; do '(db, r) <- MPModel.add_sibling cfg db t p (new x);
      Ok (mkMPS db (l ++ [r]))
  | MoveTo u w p =>
      do n <- obj l u; do t <- obj l w; do '(db, n, t) <- MPModel.move cfg db n t p;
      Ok (mkMPS db (put (put l u n) w t))
  | Remove u =>
      do n <- obj l u;
      Ok (mkMPS (MPModel.mkDB (MPModel.delete_queryset cfg (MPModel.db_rows db) (fun r => MPModel.m_pk r =? MPModel.m_pk n)) (MPModel.db_sig db)) l)
  end.

(** ** Nested sets: /repo/treebeard/ns_tree.py.  An object may hold another one as its
    _cached_parent_obj: the very object that add_child was called on ([Shared], line 174), or one
    that get_parent has queried ([Own], line 539). *)
Inductive ns_up := NoUp | Shared (u : nat) | Own (r : NSModel.nsrow).
(** A Python object of /repo/treebeard/ns_tree.py:593-612 with its [_cached_parent_obj] *)
Record ns_cell := mkCell { c_row : NSModel.nsrow; c_up : ns_up }.
(** The database and the variables of a program that uses /repo/treebeard/ns_tree.py *)
Record ns_sess := mkNSS { ns_now : NSModel.ns_db; ns_objs : list ns_cell }.

(** The object with its cached parent, for the calls of NSModel.
    /repo/treebeard/ns_tree.py:524-540 *)
Definition ns_read (l : list ns_cell) (c : ns_cell) : NSModel.nsobj :=
  NSModel.mkObj (c_row c)
    match c_up c with
    | NoUp => None
    | Shared u => option_map c_row (nth_error l u)
    | Own r => Some r
    end.
(** After a call that leaves the object [o] in place of the cell [c]: refresh_from_db drops the
    cached parent, otherwise it is the one from before. /repo/treebeard/models.py:105-112,
    /repo/treebeard/ns_tree.py:498-505 *)
Definition ns_write (c : ns_cell) (o : NSModel.nsobj) : ns_cell :=
  mkCell (NSModel.o_row o) match NSModel.o_up o with None => NoUp | Some _ => c_up c end.

(** (A move that returns early after comparing a node with itself has renewed the cached parent
    of the node by a query; this is not recorded.). /repo/treebeard/ns_tree.py:114-379 and
    /repo/treebeard/models.py:97-103 *)
Definition ns_step (o : ordering) (s : ns_sess) (c : cmd) : res ns_sess :=
  let db := ns_now s in
  let l := ns_objs s in
  match c with
  | Fetch k => do r <- NSModel.get_by_pk (NSModel.ns_rows db) k; Ok (mkNSS db (l ++ [mkCell r NoUp]))
  | NewRoot x => do '(db, r) <- NSModel.add_root o db x; Ok (mkNSS db (l ++ [mkCell r NoUp]))
  | NewChild u x =>
      do t <- obj l u;
      do stored <- NSModel.get_by_pk (NSModel.ns_rows db) (NSModel.n_pk (c_row t));
      do '(db, r, t') <- NSModel.add_child o db (c_row t) x;
      Ok (mkNSS db (put l u (mkCell t' (c_up t)) ++
                    [mkCell r (if NSModel.is_leaf stored then Shared u else NoUp)]))
  | NewSib u p x =>
      do t <- obj l u;
      do t' <- NSModel.sibling_cache o db (ns_read l t) p;
      do '(db, r) <- NSModel.add_sibling o db (ns_read l t) p x;
      Ok (mkNSS db (put l u (mkCell (c_row t)
                               match c_up t, NSModel.o_up t', prepare_pos_add (NSModel.is_sorted o) p with
                               | Shared v, Some _, Ok LastSibling => Shared v
                               | NoUp, None, _ => NoUp
                               | _, Some r, _ => Own r
                               | up, None, _ => up
                               end) ++ [mkCell r NoUp]))
  | MoveTo u w p =>
      do n <- obj l u; do t <- obj l w;
      do '(db, n', t') <- NSModel.move o db (ns_read l n) (ns_read l t) p;
      Ok (mkNSS db (put (put l u (ns_write n n')) w (ns_write t t')))
  | Remove u =>
      do n <- obj l u; Ok (mkNSS (NSModel.delete_queryset db (fun r => NSModel.n_pk r =? NSModel.n_pk (c_row n))) l)
  end.

(** ** Adjacency list: /repo/treebeard/al_tree.py.  move assigns parent and sib_order of the node
    (148-152); nothing assigns to a target.  An object has its _cached_depth. *)
Record al_sess := mkALS { al_now : ALModel.al_table; al_objs : list ALModel.alobj }.

(** /repo/treebeard/al_tree.py:66-153 and /repo/treebeard/models.py:97-103 *)
Definition al_step (o : ordering) (s : al_sess) (c : cmd) : res al_sess :=
  let t := al_now s in
  let l := al_objs s in
  match c with
  | Fetch k => do r <- ALModel.get_by_pk t k; Ok (mkALS t (l ++ [ALModel.fresh r]))
  | NewRoot x => do '(t, r) <- ALModel.add_root o t x; Ok (mkALS t (l ++ [r]))
  | NewChild u x => do q <- obj l u; do '(t, r) <- ALModel.add_child o t q x; Ok (mkALS t (l ++ [r]))
  | NewSib u p x => do q <- obj l u; do '(t, r) <- ALModel.add_sibling o t (ALModel.o_row q) p x; Ok (mkALS t (l ++ [r]))
  | MoveTo u w p =>
      do n <- obj l u; do q <- obj l w; do '(t, n) <- ALModel.move o t n (ALModel.o_row q) p;
      Ok (mkALS t (put l u n))
  | Remove u =>
      do n <- obj l u; Ok (mkALS (ALModel.delete_queryset t (fun r => ALModel.a_pk r =? ALModel.a_pk (ALModel.o_row n))) l)
  end.

(** ** PostgreSQL ltree: /repo/treebeard/ltree/__init__.py.  move assigns the path of the node
    (326).  A target is refreshed only where it is the insert_before of a shift (line 424),
    that is at the position "left": [lt_left] is that object after the call.  (In a move of a node
    to the left of another object of the same node the target would be one update behind.) *)
Record lt_sess := mkLTS { lt_now : LTModel.lt_db; lt_objs : list LTModel.ltrow }.

(** The call has sent subtree_moved_right. /repo/treebeard/ltree/__init__.py:434-475 *)
Definition lt_shifted (db db' : LTModel.lt_db) : bool :=
  existsb (fun s => match s with LTModel.MovedRight _ => true | _ => false end)
          (skipn (length (LTModel.lt_sig db)) (LTModel.lt_sig db')).
(** What the caller's target looks like after /repo/treebeard/ltree/__init__.py:231-265,
    404-475 *)
Definition lt_left (p : option pos) (db db' : LTModel.lt_db) (target : LTModel.ltrow) : LTModel.ltrow :=
  match p with
  | Some Left =>
      if lt_shifted db db' then
        match LTModel.get_by_pk (LTModel.lt_rows db') (LTModel.l_pk target) with Ok r => r | Err _ => target end
      else target
  | _ => target
  end.
(** The position that /repo/treebeard/models.py:645-654 makes of the argument *)
Definition pos_of (r : res pos) : option pos := match r with Ok p => Some p | Err _ => None end.

(** /repo/treebeard/ltree/__init__.py:164-334 and /repo/treebeard/models.py:97-103 *)
Definition lt_step (cfg : LTModel.lt_cfg) (s : lt_sess) (c : cmd) : res lt_sess :=
  let db := lt_now s in
  let l := lt_objs s in
  let new (x : node) := LTModel.mkNew (nid x) (ndata x) in
  match c with
  | Fetch k => do r <- LTModel.get_by_pk (LTModel.lt_rows db) k; Ok (mkLTS db (l ++ [r]))
  | NewRoot x => do '(db, r) <- LTModel.add_root cfg db (new x); Ok (mkLTS db (l ++ [r]))
  | NewChild u x => do t <- obj l u; do '(db, r) <- LTModel.add_child cfg db t (new x); Ok (mkLTS db (l ++ [r]))
  | NewSib u p x =>
      do t <- obj l u; do '(db', r) <- LTModel.add_sibling cfg db t p (new x);
      Ok (mkLTS db' (put l u (lt_left (pos_of (prepare_pos_add (LTModel.is_sorted cfg) p)) db db' t) ++ [r]))
  | MoveTo u w p =>
      do n <- obj l u; do t <- obj l w; do '(db', n) <- LTModel.move cfg db n t p;
      Ok (mkLTS db' (put (put l w (lt_left (pos_of (prepare_pos_move (LTModel.is_sorted cfg) p)) db db' t)) u n))
  | Remove u =>
      do n <- obj l u; Ok (mkLTS (LTModel.delete_queryset db (fun r => LTModel.l_pk r =? LTModel.l_pk n)) l)
  end.
