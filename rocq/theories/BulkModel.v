(** Model of dump_bulk and load_bulk.

    A dump is a forest of items: the dictionaries {"data": fields, "id": pk, "children": [...]}
    of the code, where a missing "children" is the same as an empty list.  Simplifications:
    many-to-many data (save_m2m, /repo/treebeard/utils.py:34-41) is not modelled, and the
    stack of load_bulk is a recursion (the stack holds the subtrees in preorder). *)
From Coq Require Import String List Arith Bool ZArith.
From Verif Require Import Prelude Forest PathTab CommonModel.
From Verif Require MPModel NSModel ALModel LTModel.
Import ListNotations.

(** One dictionary of the dumped structure: /repo/treebeard/utils.py:11-14 *)
Record item := mkItem { it_pk : option nat; it_data : fields }.

(** ** Dumping *)

(** The loop shared by the four dump_bulk: for every object its key in [lnk], where it goes
    (None: at the top level; [Some k]: among the children of the object [lnk\[k\]]) and the
    new dictionary.  The dictionaries built so far are kept together with their keys, which
    come from unique columns. *)
Section Dump.
Variable K : Type.
Variable keqb : K -> K -> bool.

(** parentobj["children"].append(newobj) for the object with key [k].
    /repo/treebeard/mp_tree.py:745-748 *)
Fixpoint add_under (k : K) (x : K * item) (f : forest (K * item)) : option (forest (K * item)) :=
  match f with
  | Nil => None
  | Cons a kids rest =>
      if keqb (fst a) k then Some (Cons a (fapp kids (Cons x Nil Nil)) rest)
      else match add_under k x kids with
           | Some kids' => Some (Cons a kids' rest)
           | None => match add_under k x rest with
                     | Some rest' => Some (Cons a kids rest')
                     | None => None
                     end
           end
  end.

(** The for loop of /repo/treebeard/mp_tree.py:726-749 *)
Fixpoint dump_loop (built : forest (K * item)) (l : list (K * res (option K) * item))
  : res (forest (K * item)) :=
  match l with
  | [] => Ok built
  | (k, place, it) :: l =>
      do p <- place;
      match p with
      | None => dump_loop (fapp built (Cons (k, it) Nil Nil)) l
      | Some q =>
          match add_under q (k, it) built with
          | Some built' => dump_loop built' l
          | None => Err KeyError
          end
      end
  end.

(** /repo/treebeard/mp_tree.py:713-750 *)
Definition dump (l : list (K * res (option K) * item)) : res (forest item) :=
  do f <- dump_loop Nil l; Ok (fmap snd f).
End Dump.
Arguments add_under {K} _ _ _ _.
Arguments dump_loop {K} _ _ _.
Arguments dump {K} _ _.

(** newobj = {"data": fields} and, with keep_ids, the primary key.
    /repo/treebeard/mp_tree.py:737-739 *)
Definition new_item (keep_ids : bool) (pk : nat) (d : fields) : item :=
  mkItem (if keep_ids then Some pk else None) d.

(** /repo/treebeard/mp_tree.py:713-750.  ORDER BY depth, path uses the column depth. *)
Definition mp_dump_bulk (cfg : MPModel.mp_cfg) (t : list MPModel.mprow) (parent : option MPModel.mprow)
  (keep_ids : bool) : res (forest item) :=
  let qset := isort MPModel.depth_path_le
    (match parent with
     | Some p => filter (fun r => MPModel.ppre (MPModel.m_path p) (MPModel.m_path r)) t
     | None => t
     end) in
  dump MPModel.peq (map (fun r =>
    let path := MPModel.m_path r in
    let depth := length path / MPModel.steplen cfg in
    let top := match parent with
               | Some p => length path =? length (MPModel.m_path p)
               | None => depth =? 1
               end in
    (path, Ok (if top then None else Some (MPModel.get_basepath cfg path (depth - 1))),
     new_item keep_ids (MPModel.m_pk r) (MPModel.m_data r))) qset).

(** /repo/treebeard/ns_tree.py:385-417; get_parent returns None for roots. *)
Definition ns_dump_bulk (t : list NSModel.nsrow) (parent : option NSModel.nsrow) (keep_ids : bool)
  : res (forest item) :=
  dump Nat.eqb (map (fun r =>
    let top := match parent with
               | Some p => Z.eqb (NSModel.n_depth r) (NSModel.n_depth p)
               | None => Z.eqb (NSModel.n_depth r) 1
               end in
    (NSModel.n_pk r,
     (if top then Ok None
      else do q <- NSModel.get_parent t (NSModel.fresh r);
           match q with Some q => Ok (Some (NSModel.n_pk q)) | None => Err AttributeError end),
     new_item keep_ids (NSModel.n_pk r) (NSModel.n_data r))) (NSModel.get_tree t parent None)).

(** /repo/treebeard/al_tree.py:159-192; lnk[None] does not exist. *)
Definition al_dump_bulk (o : ordering) (t : list ALModel.alrow) (parent : option ALModel.alobj)
  (keep_ids : bool) : res (forest item) :=
  do objs <- ALModel.get_tree o t parent None;
  dump Nat.eqb (map (fun n =>
    let r := ALModel.o_row n in
    (ALModel.a_pk r,
     (do '(d, _) <- ALModel.get_depth t n false;
      do top <- match parent with
                | Some p => do '(e, _) <- ALModel.get_depth t p false; Ok (Z.eqb d e)
                | None => Ok (Z.eqb d 1)
                end;
      if top then Ok None
      else match ALModel.a_parent r with Some q => Ok (Some q) | None => Err KeyError end),
     new_item keep_ids (ALModel.a_pk r) (ALModel.a_data r))) objs).

(** /repo/treebeard/ltree/__init__.py:365-402 *)
Definition lt_dump_bulk (t : list LTModel.ltrow) (parent : option LTModel.ltrow) (keep_ids : bool)
  : res (forest item) :=
  let qset := LTModel.order_path
    (match parent with
     | Some p => filter (fun r => LTModel.ppre (LTModel.l_path p) (LTModel.l_path r)) t
     | None => t
     end) in
  dump LTModel.peq (map (fun r =>
    let path := LTModel.l_path r in
    let depth := length path in
    let top := match parent with
               | Some p => depth =? length (LTModel.l_path p)
               | None => depth =? 1
               end in
    (path, Ok (if top then None else Some (firstn (depth - 1) path)),
     new_item keep_ids (LTModel.l_pk r) (LTModel.l_data r))) qset).

(** ** Loading *)

(** /repo/treebeard/utils.py:16-31 prepare_dumpdata_for_loading, together with the primary
    keys the objects get: the one of the item with keep_ids (a missing one is a KeyError),
    otherwise the database's next one, [next n] for the n-th row inserted.  The rows are
    inserted in preorder. *)
Definition item_pk (keep_ids : bool) (pk : nat) (it : item) : res nat :=
  if keep_ids then match it_pk it with Some k => Ok k | None => Err KeyError end else Ok pk.

(** /repo/treebeard/utils.py:16-31; the primary keys are those the database gives in the order
    of the inserts *)
Fixpoint prepare (keep_ids : bool) (next : nat -> nat) (n : nat) (g : forest item) : res (forest node * nat) :=
  match g with
  | Nil => Ok (Nil, n)
  | Cons it k r =>
      do pk <- item_pk keep_ids (next n) it;
      do '(k, n) <- prepare keep_ids next (S n) k;
      do '(r, n) <- prepare keep_ids next n r;
      Ok (Cons (mkNode pk (it_data it)) k r, n)
  end.

(** /repo/treebeard/models.py:438-487 load_bulk: [add db up x] is add_child(up, instance=x),
    or add_root(instance=x) if there is no [up]; it also returns the object [up] after the
    call.  The result has the primary keys in the order of insertion. *)
Section Load.
Variables DB Obj : Type.
Variable add : DB -> option Obj -> node -> res (DB * Obj * option Obj).
Variable pk_of : Obj -> nat.

(** The while loop of /repo/treebeard/models.py:474-486 *)
Fixpoint load (db : DB) (up : option Obj) (g : forest node) : res (DB * list nat) :=
  match g with
  | Nil => Ok (db, [])
  | Cons x k r =>
      do '(db, obj, up) <- add db up x;
      do '(db, added1) <- load db (Some obj) k;
      do '(db, added2) <- load db up r;
      Ok (db, pk_of obj :: added1 ++ added2)
  end.
End Load.
Arguments load {DB Obj} _ _ _ _ _.

(** A deserialized object: numchild has its default 0. /repo/treebeard/models.py:478-482 with
    /repo/treebeard/mp_tree.py:341-434 *)
Definition mp_add cfg (db : MPModel.mp_db) (up : option MPModel.mprow) (nc : nat) (x : node)
  : res (MPModel.mp_db * MPModel.mprow * option MPModel.mprow) :=
  let obj := MPModel.mkNew (nid x) nc (ndata x) in
  match up with
  | Some p => do '(db, r, p) <- MPModel.add_child cfg db p obj; Ok (db, r, Some p)
  | None => do '(db, r) <- MPModel.add_root cfg db obj; Ok (db, r, None)
  end.

(** /repo/treebeard/models.py:439-487 for materialized paths *)
Definition mp_load_bulk cfg next (keep_ids : bool) (db : MPModel.mp_db) (data : forest item)
  (parent : option MPModel.mprow) : res (MPModel.mp_db * list nat) :=
  do '(g, _) <- prepare keep_ids next 0 data;
  load (fun db up x => mp_add cfg db up 0 x) MPModel.m_pk db parent g.

(** /repo/treebeard/models.py:478-482 with /repo/treebeard/ns_tree.py:114-179 *)
Definition ns_add o (db : NSModel.ns_db) (up : option NSModel.nsrow) (x : node)
  : res (NSModel.ns_db * NSModel.nsrow * option NSModel.nsrow) :=
  match up with
  | Some p => do '(db, r, p) <- NSModel.add_child o db p x; Ok (db, r, Some p)
  | None => do '(db, r) <- NSModel.add_root o db x; Ok (db, r, None)
  end.

(** /repo/treebeard/models.py:439-487 for nested sets *)
Definition ns_load_bulk o next (keep_ids : bool) (db : NSModel.ns_db) (data : forest item)
  (parent : option NSModel.nsrow) : res (NSModel.ns_db * list nat) :=
  do '(g, _) <- prepare keep_ids next 0 data;
  load (ns_add o) NSModel.n_pk db parent g.

(** /repo/treebeard/models.py:478-482 with /repo/treebeard/al_tree.py:66-93 *)
Definition al_add o (t : list ALModel.alrow) (up : option ALModel.alobj) (x : node)
  : res (list ALModel.alrow * ALModel.alobj * option ALModel.alobj) :=
  do '(t, n) <- match up with
                | Some p => ALModel.add_child o t p x
                | None => ALModel.add_root o t x
                end;
  Ok (t, n, up).

(** /repo/treebeard/models.py:439-487 for adjacency lists *)
Definition al_load_bulk o next (keep_ids : bool) (t : list ALModel.alrow) (data : forest item)
  (parent : option ALModel.alobj) : res (list ALModel.alrow * list nat) :=
  do '(g, _) <- prepare keep_ids next 0 data;
  load (al_add o) (fun n => ALModel.a_pk (ALModel.o_row n)) t parent g.

(** /repo/treebeard/models.py:478-482 with /repo/treebeard/ltree/__init__.py:164-227 *)
Definition lt_add cfg (db : LTModel.lt_db) (up : option LTModel.ltrow) (x : node)
  : res (LTModel.lt_db * LTModel.ltrow * option LTModel.ltrow) :=
  do '(db, r) <- match up with
                 | Some p => LTModel.add_child cfg db p (LTModel.mkNew (nid x) (ndata x))
                 | None => LTModel.add_root cfg db (LTModel.mkNew (nid x) (ndata x))
                 end;
  Ok (db, r, up).

(** /repo/treebeard/models.py:439-487 for ltree *)
Definition lt_load_bulk cfg next (keep_ids : bool) (db : LTModel.lt_db) (data : forest item)
  (parent : option LTModel.ltrow) : res (LTModel.lt_db * list nat) :=
  do '(g, _) <- prepare keep_ids next 0 data;
  load (lt_add cfg) LTModel.l_pk db parent g.

(** ** Materialized paths with bulk_create, /repo/treebeard/mp_tree.py:671-711 *)

(** The primary keys: the objects of the first level are inserted first.
    /repo/treebeard/mp_tree.py:691-703 *)
Fixpoint prepare_tops (keep_ids : bool) (next : nat -> nat) (i n : nat) (g : forest item)
  : res (forest node) :=
  match g with
  | Nil => Ok Nil
  | Cons it k r =>
      do pk <- item_pk keep_ids (next i) it;
      do '(k, n) <- prepare keep_ids next n k;
      do r <- prepare_tops keep_ids next (S i) n r;
      Ok (Cons (mkNode pk (it_data it)) k r)
  end.

(** /repo/treebeard/mp_tree.py:679-691 _build_children; [i] counts the children. *)
Fixpoint build_children cfg (path : MPModel.path) (depth i : nat) (g : forest node) : list MPModel.mprow :=
  match g with
  | Nil => []
  | Cons x k r =>
      let p := MPModel.get_path cfg path (depth + 1) (i + 1) in
      MPModel.mkMP (nid x) p (depth + 1) (length (roots k)) (ndata x) ::
      build_children cfg p (depth + 1) 0 k ++ build_children cfg path depth (i + 1) r
  end.

(** /repo/treebeard/mp_tree.py:693-703: the first level *)
Fixpoint load_tops cfg (db : MPModel.mp_db) (up : option MPModel.mprow) (g : forest node)
  : res (MPModel.mp_db * list nat * list MPModel.mprow) :=
  match g with
  | Nil => Ok (db, [], [])
  | Cons x k r =>
      do '(db, obj, up) <- mp_add cfg db up (length (roots k)) x;
      do '(db, added, rows) <- load_tops cfg db up r;
      Ok (db, MPModel.m_pk obj :: added, build_children cfg (MPModel.m_path obj) (MPModel.m_depth obj) 0 k ++ rows)
  end.

(** INSERT of many rows: the primary key and the path are unique. The limit on the length of
    the path column is not modelled (SQLite ignores it, PostgreSQL raises DataError).
    /repo/treebeard/mp_tree.py:703 *)
Fixpoint insert_all (t : list MPModel.mprow) (l : list MPModel.mprow) : res (list MPModel.mprow) :=
  match l with
  | [] => Ok t
  | r :: l =>
      if existsb (fun x => (MPModel.m_pk x =? MPModel.m_pk r) || MPModel.peq (MPModel.m_path x) (MPModel.m_path r)) t
      then Err IntegrityError
      else insert_all (r :: t) l
  end.

(** /repo/treebeard/mp_tree.py:614-711 *)
Definition mp_load_bulk_create cfg next (keep_ids : bool) (db : MPModel.mp_db) (data : forest item)
  (parent : option MPModel.mprow) : res (MPModel.mp_db * list nat) :=
  do g <- prepare_tops keep_ids next 0 (length (roots data)) data;
  do '(db, added, rows) <- load_tops cfg db parent g;
  do t <- insert_all (MPModel.db_rows db) rows;
  Ok (MPModel.mkDB t (MPModel.db_sig db), added ++ map MPModel.m_pk rows).
