(** Model of a site that works on a tree for a long time: programs call the API, people use
    the admin, data is loaded and the tree is repaired.  A request names its nodes by primary
    key; the rows are fetched when the request is served.  A request that is not served to
    its end leaves the tables as they were: its transaction is rolled back
    (/repo/treebeard/mp_tree.py:339-480 and 613, ns_tree.py:112-257, al_tree.py:64-108 and models.py:438 are
    atomic, a form is saved in the transaction of the admin's view, for the rest see C40).
    Not modelled: permissions, the validation of the other fields of a form. *)
From Coq Require Import String List Arith Bool ZArith.
From Verif Require Import Prelude Forest CommonModel History FormModel AdminModel BulkModel MPFixModel.
From Verif Require MPModel NSModel ALModel LTModel MPHist NSHist ALHist LTHist.
Import ListNotations.

(** A call of the API; a node dragged in the admin's list onto ([below]) or before another
    one, /repo/treebeard/admin.py:106-158; the change form of the admin with the position and the reference
    node that were sent and the other values, and its form for a new node,
    /repo/treebeard/forms.py:149-190; load_bulk, /repo/treebeard/models.py:438-487;
    fix_tree, /repo/treebeard/mp_tree.py:125-238. *)
Inductive request :=
| Call (c : call)
| Drag (n t : nat) (below : bool)
| Edit (n : nat) (d : fields) (ref : option nat) (p : string)
| Create (x : node) (ref : option nat) (p : string)
| LoadBulk (keep_ids : bool) (next : nat -> nat) (data : forest item) (parent : option nat)
| Fix (fix_paths : bool).

(** Served, or an exception. /repo/treebeard/admin.py:82-157 *)
Definition answer {A} (r : res A) : reply A := match r with Ok a => Done a | Err e => Failed e end.

(** /repo/treebeard/forms.py:70-76 with Django's ChoiceField and ModelChoiceField: the position is one of the
    choices, the reference node is empty or in the queryset of the field; otherwise the form is
    shown again with an error and nothing is saved. *)
Definition picked {R} (pk : R -> nat) (rows : list R) (ref : option nat) : option (option R) :=
  match ref with
  | None => Some None
  | Some k => option_map Some (find (fun r => pk r =? k) rows)
  end.

(** /repo/treebeard/forms.py:96-125; Django accepts only values that are among the choices *)
Definition checked {R DB} (pk : R -> nat) (sorted : bool) (rows : list R) (ref : option nat) (p : string)
  (save : option R -> res DB) : reply DB :=
  if str_in p (form_positions sorted) then
    match picked pk rows ref with Some r => answer (save r) | None => Refused end
  else Refused.

(** The parent of load_bulk. /repo/treebeard/models.py:439-487 *)
Definition fetched {R} (get : nat -> res R) (k : option nat) : res (option R) :=
  match k with Some k => do r <- get k; Ok (Some r) | None => Ok None end.

(** ** Materialized paths *)
Section MP.
Import MPModel.
Variable cfg : mp_cfg.

(** /repo/treebeard/admin.py:115-119: an unknown node is refused; the form of an unknown
    instance is not shown. *)
Definition mp_serve (db : mp_db) (r : request) : reply mp_db :=
  let t := db_rows db in
  match r with
  | Call c => answer (MPHist.mp_exec cfg db c)
  | Drag n q below =>
      match get_by_pk t n, get_by_pk t q with Ok n, Ok q => mp_drag cfg db n q below | _, _ => Refused end
  | Edit n d ref p =>
      match get_by_pk t n with
      | Ok n => checked m_pk (is_sorted cfg) (mp_choices t (Some n)) ref p (fun r => mp_form_edit cfg db n d r p)
      | Err _ => Refused
      end
  | Create x ref p =>
      checked m_pk (is_sorted cfg) (mp_choices t None) ref p
        (fun r => mp_form_create cfg db (mkNew (nid x) 0 (ndata x)) r p)
  | LoadBulk keep_ids next data parent =>
      answer (do p <- fetched (get_by_pk t) parent; do '(db, _) <- mp_load_bulk cfg next keep_ids db data p; Ok db)
  | Fix fix_paths => answer (fix_tree cfg db fix_paths None)
  end.
End MP.

(** ** Nested sets *)
Section NS.
Import NSModel.
Variable o : ordering.

(** As above; nested sets have no fix_tree. /repo/treebeard/forms.py:149-191,
    /repo/treebeard/admin.py:106-157, /repo/treebeard/models.py:439-487 *)
Definition ns_serve (db : ns_db) (r : request) : reply ns_db :=
  let t := ns_rows db in
  match r with
  | Call c => answer (NSHist.ns_exec o db c)
  | Drag n q below =>
      match get_by_pk t n, get_by_pk t q with Ok n, Ok q => ns_drag o db n q below | _, _ => Refused end
  | Edit n d ref p =>
      match get_by_pk t n with
      | Ok n => checked n_pk (is_sorted o) (ns_choices t (Some n)) ref p (fun r => ns_form_edit o db n d r p)
      | Err _ => Refused
      end
  | Create x ref p => checked n_pk (is_sorted o) (ns_choices t None) ref p (fun r => ns_form_create o db x r p)
  | LoadBulk keep_ids next data parent =>
      answer (do p <- fetched (get_by_pk t) parent; do '(db, _) <- ns_load_bulk o next keep_ids db data p; Ok db)
  | Fix _ => Failed AttributeError
  end.
End NS.

(** ** Adjacency lists *)
Section AL.
Import ALModel.
Variable o : ordering.

(** As above, but /repo/treebeard/forms.py:117 makes all rows the queryset of the field. *)
Definition al_serve (t : al_table) (r : request) : reply al_table :=
  match r with
  | Call c => answer (ALHist.al_exec o t c)
  | Drag n q below =>
      match get_by_pk t n, get_by_pk t q with Ok n, Ok q => al_drag o t n q below | _, _ => Refused end
  | Edit n d ref p =>
      match get_by_pk t n with
      | Ok n => checked a_pk (is_sorted o) t ref p (fun r => al_form_edit o t n d r p)
      | Err _ => Refused
      end
  | Create x ref p => checked a_pk (is_sorted o) t ref p (fun r => al_form_create o t x r p)
  | LoadBulk keep_ids next data parent =>
      answer (do p <- fetched (get_by_pk t) parent;
              do '(t, _) <- al_load_bulk o next keep_ids t data (option_map fresh p); Ok t)
  | Fix _ => Failed AttributeError
  end.
End AL.

(** ** Ltree *)
Section LT.
Import LTModel.
Variable cfg : lt_cfg.

(** As for materialized paths; ltree has no fix_tree. /repo/treebeard/forms.py:149-191,
    /repo/treebeard/admin.py:106-157, /repo/treebeard/models.py:439-487 *)
Definition lt_serve (db : lt_db) (r : request) : reply lt_db :=
  let t := lt_rows db in
  match r with
  | Call c => answer (LTHist.lt_exec cfg db c)
  | Drag n q below =>
      match get_by_pk t n, get_by_pk t q with Ok n, Ok q => lt_drag cfg db n q below | _, _ => Refused end
  | Edit n d ref p =>
      match get_by_pk t n with
      | Ok n => checked l_pk (is_sorted cfg) (lt_choices t (Some n)) ref p (fun r => lt_form_edit cfg db n d r p)
      | Err _ => Refused
      end
  | Create x ref p =>
      checked l_pk (is_sorted cfg) (lt_choices t None) ref p
        (fun r => lt_form_create cfg db (mkNew (nid x) (ndata x)) r p)
  | LoadBulk keep_ids next data parent =>
      answer (do p <- fetched (get_by_pk t) parent; do '(db, _) <- lt_load_bulk cfg next keep_ids db data p; Ok db)
  | Fix _ => Failed AttributeError
  end.
End LT.

(** ** A long time: one request after the other *)
Section Days.
Variable DB : Type.
Variable serve : DB -> request -> reply DB.

(** The tables after a request. /repo/treebeard/admin.py:54-64 *)
Definition after (db : DB) (a : reply DB) : DB := match a with Done db' => db' | _ => db end.

(** Many requests, /repo/treebeard/admin.py:66-75 *)
Fixpoint days (db : DB) (rs : list request) : DB :=
  match rs with
  | [] => db
  | r :: rs => days (after db (serve db r)) rs
  end.
End Days.
Arguments days {DB} _ _ _. Arguments after {DB} _ _.
