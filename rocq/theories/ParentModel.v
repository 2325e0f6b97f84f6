(** Node objects that remember their parent: node.get_parent() of a materialized path tree.

    /repo/treebeard/mp_tree.py:918-935: get_parent keeps its answer in the attribute
    _cached_parent_obj of the node object, and answers from there unless it is called with
    update=True.  The attribute is set by add_child (431) as well, and dropped by refresh_from_db
    (/repo/treebeard/models.py:105-112), which move calls (533-534).

    The programs are those of SessionModel with two statements more. *)
From Coq Require Import String List Arith Bool ZArith.
From Verif Require Import Prelude Forest CommonModel SessionModel MPModel.
Import ListNotations.

(** [Do c]: a statement as before; [Parent u update]: obj_u.get_parent(update),
    /repo/treebeard/mp_tree.py:918-935; [Reload u]: obj_u.refresh_from_db(),
    /repo/treebeard/models.py:110-112. *)
Inductive pcmd := Do (c : cmd) | Parent (u : nat) (update : bool) | Reload (u : nat).

(** Running a program; it stops at the first exception. /repo/docs/source/caveats.rst:4-12 *)
Fixpoint pplay {St} (step : St -> pcmd -> res St) (s : St) (cs : list pcmd) : res St :=
  match cs with
  | [] => Ok s
  | c :: cs => do s <- step s c; pplay step s cs
  end.

(** The attribute _cached_parent_obj: not there; the very object that add_child was called on
    (/repo/treebeard/mp_tree.py:431); one that get_parent has queried (934). *)
Inductive mp_up := MNone | MShared (u : nat) | MOwn (r : mprow).
(** The database, the variables, their cached parents, and the primary keys of what the calls of
    get_parent have returned so far. /repo/treebeard/mp_tree.py:918-935, 1042-1045 *)
Record mp_psess := mkMPP { mpp_s : mp_sess; mpp_up : list mp_up; mpp_out : list (option nat) }.

(** move has nothing to do and returns before the two refresh_from_db.
    /repo/treebeard/mp_tree.py:499-525 *)
Definition mp_returns (cfg : mp_cfg) (db : mp_db) (n t : mprow) (p : option string) : bool :=
  let r :=
    do p <- prepare_pos_move (is_sorted cfg) p;
    do '(target1, newdepth, siblings, newpos, p1, _) <- move_to_child_vars cfg (db_rows db) n t p;
    move_prepare cfg (db_rows db) n target1 newdepth p1 newpos siblings in
  match r with
  | Ok None => true
  | _ => false
  end.
(** The target that move refreshes is not the one of the caller, but its last child.
    /repo/treebeard/mp_tree.py:549-579 *)
Definition mp_other (cfg : mp_cfg) (t : mprow) (p : option string) : bool :=
  match prepare_pos_move (is_sorted cfg) p with
  | Ok (FirstChild | LastChild | SortedChild) => negb (is_leaf t)
  | _ => false
  end.

(** What the statements do to the cached parents: /repo/treebeard/mp_tree.py:431 (not on the way
    through 400-405), 533-534 with /repo/treebeard/models.py:105-112. *)
Definition mp_ups (cfg : mp_cfg) (s : mp_sess) (ups : list mp_up) (c : cmd) : res (list mp_up) :=
  let l := mp_objs s in
  match c with
  | Fetch _ | NewRoot _ | NewSib _ _ _ => Ok (ups ++ [MNone])
  | NewChild u _ =>
      do t <- obj l u; do stored <- get_by_pk (db_rows (mp_now s)) (m_pk t);
      Ok (ups ++ [if is_sorted cfg && negb (is_leaf stored) then MNone else MShared u])
  | MoveTo u w p =>
      do n <- obj l u; do t <- obj l w;
      Ok (if mp_returns cfg (mp_now s) n t p then ups
          else put (if mp_other cfg t p then ups else put ups w MNone) u MNone)
  | Remove _ => Ok ups
  end.

(** The primary key of the cached parent. /repo/treebeard/mp_tree.py:930 *)
Definition mp_up_pk (l : list mprow) (up : mp_up) : option nat :=
  match up with
  | MNone => None
  | MShared v => option_map m_pk (nth_error l v)
  | MOwn r => Some (m_pk r)
  end.

(** /repo/treebeard/mp_tree.py:918-935 (where the query raises the program stops, so the deleted
    attribute of line 928 does not matter) *)
Definition mp_parent (cfg : mp_cfg) (st : mp_psess) (u : nat) (update : bool) : res mp_psess :=
  let s := mpp_s st in
  do n <- obj (mp_objs s) u; do up <- obj (mpp_up st) u;
  let depth := length (m_path n) / steplen cfg in
  if depth <=? 1 then Ok (mkMPP s (mpp_up st) (mpp_out st ++ [None]))
  else
    match up, update with
    | (MShared _ | MOwn _), false => Ok (mkMPP s (mpp_up st) (mpp_out st ++ [mp_up_pk (mp_objs s) up]))
    | _, _ =>
        do r <- get_by_path (db_rows (mp_now s)) (get_basepath cfg (m_path n) (depth - 1));
        Ok (mkMPP s (put (mpp_up st) u (MOwn r)) (mpp_out st ++ [Some (m_pk r)]))
    end.

(** /repo/treebeard/mp_tree.py:341-534, 918-935 and /repo/treebeard/models.py:97-112 *)
Definition mp_pstep (cfg : mp_cfg) (st : mp_psess) (c : pcmd) : res mp_psess :=
  let s := mpp_s st in
  match c with
  | Do c => do s' <- mp_step cfg s c; do ups <- mp_ups cfg s (mpp_up st) c; Ok (mkMPP s' ups (mpp_out st))
  | Parent u update => mp_parent cfg st u update
  | Reload u =>
      do n <- obj (mp_objs s) u; do r <- get_by_pk (db_rows (mp_now s)) (m_pk n);
      Ok (mkMPP (mkMPS (mp_now s) (put (mp_objs s) u r)) (put (mpp_up st) u MNone) (mpp_out st))
  end.
