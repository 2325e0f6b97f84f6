(** Model of /repo/treebeard/al_tree.py with the related objects that Django caches.

    ALModel.v looks up [node.parent] in the database every time.  In Django the instance keeps
    the object that was found, and later accesses return this object without a query.  Here
    instances live in a heap: an instance has its columns, its _cached_depth and the address of
    the cached parent object.

    Django (not part of /repo): [node.parent] is ForwardManyToOneDescriptor.__get__, assigning
    it stores the object, assigning [parent_id] drops a cached object, refresh_from_db reloads
    the columns and drops the cached object.  The proxy model branch of get_parent is left out. *)
From Coq Require Import String List Arith Bool ZArith.
From Verif Require Import Prelude Forest CommonModel ALModel.
Import ListNotations.
Local Open Scope nat_scope.

(** An instance, /repo/treebeard/al_tree.py:292-303: [i_obj] has the columns and _cached_depth,
    [i_up] is the cached parent object. *)
Record inst := mkInst { i_obj : alobj; i_up : option nat }.
Notation heap := (list inst).

(** The columns of an instance: /repo/treebeard/al_tree.py:290-303 *)
Definition i_row (i : inst) : alrow := o_row (i_obj i).

(** Following a reference to an instance; a dangling one is an error (not reachable from the
    calls of /repo/treebeard/al_tree.py:78-153) *)
Definition look (h : heap) (a : nat) : res inst :=
  match nth_error h a with Some i => Ok i | None => Err AttributeError end.
(** Assigning attributes of an instance in place: /repo/treebeard/al_tree.py:149-151 *)
Definition put (h : heap) (a : nat) (i : inst) : heap := firstn a h ++ i :: skipn (S a) h.

(** A new instance of a row that a query returned. /repo/treebeard/al_tree.py:16-22, 194-196 *)
Definition alloc (h : heap) (r : alrow) : heap * nat := (h ++ [mkInst (fresh r) None], length h).

(** Model.objects.get(pk=k). /repo/treebeard/al_tree.py:248-250 *)
Definition load (t : al_table) (h : heap) (k : nat) : res (heap * nat) :=
  do r <- get_by_pk t k; Ok (alloc h r).

(** refresh_from_db, /repo/treebeard/models.py:105-112 *)
Definition refresh (t : al_table) (h : heap) (a : nat) : res heap :=
  do i <- look h a;
  do r <- get_by_pk t (a_pk (i_row i));
  Ok (put h a (mkInst (fresh r) None)).

(** [node.parent]. /repo/treebeard/al_tree.py:149, 250, 257-263 *)
Definition follow (t : al_table) (h : heap) (a : nat) : res (heap * option nat) :=
  do i <- look h a;
  match a_parent (i_row i) with
  | None => Ok (h, None)
  | Some p =>
      match i_up i with
      | Some b => Ok (h, Some b)
      | None =>
          do '(h, b) <- load t h p;
          Ok (put h a (mkInst (i_obj i) (Some b)), Some b)
      end
  end.

(** /repo/treebeard/al_tree.py:238-250; the argument update is not used. *)
Definition h_get_parent (t : al_table) (h : heap) (a : nat) (update : bool) : res (heap * option nat) := follow t h a.

(** The loop of /repo/treebeard/al_tree.py:257-263; it is also that of get_depth. *)
Fixpoint climb (fuel : nat) (t : al_table) (h : heap) (a : nat) : res (heap * list nat) :=
  match fuel with
  | O => Err OutOfFuel
  | S k =>
      do '(h, b) <- follow t h a;
      match b with
      | None => Ok (h, [])
      | Some b => do '(h, l) <- climb k t h b; Ok (h, l ++ [b])
      end
  end.

(** /repo/treebeard/al_tree.py:252-263 *)
Definition h_get_ancestors (t : al_table) (h : heap) (a : nat) : res (heap * list nat) :=
  climb (S (length t + length h)) t h a.

(** /repo/treebeard/al_tree.py:232-236 *)
Definition h_get_root (t : al_table) (h : heap) (a : nat) : res (heap * nat) :=
  do '(h, l) <- h_get_ancestors t h a; Ok (h, hd a l).

(** /repo/treebeard/al_tree.py:324-330: the loop of get_depth and the new cached value *)
Definition h_count_depth (t : al_table) (h : heap) (a : nat) : res (heap * Z) :=
  do '(h, l) <- h_get_ancestors t h a;
  do i <- look h a;
  let d := (1 + Z.of_nat (length l))%Z in
  Ok (put h a (mkInst (mkAObj (i_row i) (Some d)) (i_up i)), d).

(** /repo/treebeard/al_tree.py:305-330 *)
Definition h_get_depth (t : al_table) (h : heap) (a : nat) (update : bool) : res (heap * Z) :=
  do i <- look h a;
  match a_parent (i_row i), update, o_depth (i_obj i) with
  | None, _, _ => Ok (h, 1%Z)
  | Some _, false, Some d => Ok (h, d)
  | Some _, _, _ => h_count_depth t h a
  end.

Section AL.
Variable order_by : ordering.

(** /repo/treebeard/al_tree.py:64-74 add_root and 95-106 add_sibling: no parent object is stored. *)
Definition h_add_root (t : al_table) (h : heap) (x : node) : res (al_table * heap * nat) :=
  do '(t, obj) <- add_root order_by t x;
  Ok (t, h ++ [mkInst obj None], length h).
(** /repo/treebeard/al_tree.py:97-107 *)
Definition h_add_sibling (t : al_table) (h : heap) (b : nat) (p : option string) (x : node) : res (al_table * heap * nat) :=
  do g <- look h b;
  do '(t, obj) <- add_sibling order_by t (i_row g) p x;
  Ok (t, h ++ [mkInst obj None], length h).

(** /repo/treebeard/al_tree.py:76-93 add_child: [newobj.parent = target]. *)
Definition h_add_child (t : al_table) (h : heap) (b : nat) (x : node) : res (al_table * heap * nat) :=
  do g <- look h b;
  do '(t, obj) <- add_child order_by t (i_obj g) x;
  Ok (t, h ++ [mkInst obj (Some b)], length h).

(** /repo/treebeard/al_tree.py:108-153 move of the instance [a], the target is the instance [b].
    The depth of the node is computed (is_descendant_of, get_descendants, get_tree); the rows
    written are those of ALModel.move, which then needs no parents; the new parent object is the
    target if this is a leaf, and otherwise [target.parent], where the target is now the last
    child of the given one for child positions. *)
Definition h_move (t : al_table) (h : heap) (a b : nat) (p : option string) : res (al_table * heap) :=
  do i <- look h a;
  do g <- look h b;
  do p0 <- prepare_pos_move (is_sorted order_by) p;
  do '(tg, parent, p', s) <- move_target order_by t (i_row i) (i_row g) p0;
  do '(h, _) <- h_get_depth t h a false;
  do i <- look h a;
  do '(t', n') <- move order_by t (i_obj i) (i_row g) p;
  if move_is_noop order_by t (i_row i) tg p' then Ok (t', h)
  else
  do '(h, up) <-
    match parent with
    | Some _ => Ok (h, Some b)
    | None =>
        match p0 with
        | FirstChild | LastChild | SortedChild => do '(h, c) <- load t h (a_pk (i_row g)); Ok (h, Some c)
        | _ => follow t h b
        end
    end;
  Ok (t', put h a (mkInst n' up)).
End AL.
