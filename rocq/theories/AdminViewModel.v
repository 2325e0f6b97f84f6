(** Model of the views of the admin with permissions and transactions: the forms and the
    deletion of a node, dragging, and the lists, /repo/treebeard/admin.py:22-158 on top of Django's
    ModelAdmin.

    What a request does to the table is SiteModel.v.  Here it is decided whether it may be
    made, and whether what it did is kept.  Not modelled: the GET requests for forms,
    messages and redirects, permissions of inlines, admin actions. *)
From Coq Require Import String List Arith Bool ZArith.
From Verif Require Import Prelude Forest CommonModel History FormModel AdminModel SiteModel.
From Verif Require MPModel NSModel ALModel LTModel.
Import ListNotations.

(** What has_view_permission(request), has_add_permission(request),
    has_change_permission(request, obj) and has_delete_permission(request, obj) say about the
    user of a request; no object is None. /repo/treebeard/admin.py:90, 107, 125 *)
Record user := mkUser { may_view : bool; may_add : bool; may_change : option nat -> bool; may_delete : option nat -> bool }.

(** The requests. A form has other fields and inlines that may be wrong; the relation of a
    dragged node may be none of the two choices. /repo/treebeard/admin.py:54-75 *)
Inductive view :=
| ChangeForm (n : nat) (d : fields) (ref : option nat) (p : string) (valid inlines : bool)
| AddForm (x : node) (ref : option nat) (p : string) (valid inlines : bool)
| MoveNode (n t : nat) (below : option bool)
| DeleteNode (n : nat)
| ListOf (parent : option nat).

(** The answers: done; the form again with its errors; 403; 404 or the redirect for an unknown
    object; 400; the list, where "can-change" is beside the entry; 500 by an exception, or by
    Django's TransactionManagementError. /repo/treebeard/admin.py:54-157 *)
Inductive response :=
| Saved | FormShown | Denied | Missing | BadRequest | Listed (l : list (entry * bool)) | Crash (e : exn) | NoRollback.

(** A site: what it does, its objects, saving an object that was just read, its lists, and the
    objects of the same model that Django's deletion finds to be deleted with one.
    /repo/treebeard/admin.py:82-157 *)
Record site (DB : Type) := mkSite {
  s_serve : DB -> request -> reply DB; s_has : DB -> nat -> bool; s_resave : DB -> nat -> res DB;
  s_context : DB -> option nat -> res (list entry); s_collected : DB -> nat -> res (list nat) }.
Arguments mkSite {DB} _ _ _ _ _. Arguments s_serve {DB} _ _ _. Arguments s_has {DB} _ _ _. Arguments s_resave {DB} _ _ _.
Arguments s_context {DB} _ _ _. Arguments s_collected {DB} _ _ _.

(** How the project is set up: is the model in the default database, has the default database
    ATOMIC_REQUESTS. /repo/treebeard/admin.py:54-64, 106-108 *)
Record setup := mkSetup { default_db : bool; atomic_requests : bool }.

Section Views.
Variable DB : Type.
Variable s : site DB.
Variable st : setup.

(** /repo/treebeard/admin.py:54-65 for a response with errors, after the form has made the table
    [work] of [db].  The view runs in a transaction of the database of the model, but
    set_rollback marks that of the default database, and raises outside of one; an exception
    rolls the transaction of the view back. *)
Definition with_errors (db work : DB) : DB * response :=
  if default_db st then (db, FormShown)
  else if atomic_requests st then (work, FormShown)
  else (db, NoRollback).

(** Django's _changeform_view: a valid form is saved (forms.py:149-190), the inlines are checked afterwards;
    without errors save_model saves the object again.  Simplification: the values of
    a form without changes of the tree are already written by the form, not by save_model. *)
Definition form_view (db : DB) (saved : reply DB) (obj : nat) (inlines : bool) : DB * response :=
  match saved with
  | Failed e => (db, Crash e)
  | Refused => with_errors db db
  | Done db1 =>
      if inlines then match s_resave s db1 obj with Ok db2 => (db2, Saved) | Err e => (db, Crash e) end
      else with_errors db db1
  end.

(** Django's get_object. /repo/treebeard/admin.py:54-60 *)
Definition object (db : DB) (n : nat) : option nat := if s_has s db n then Some n else None.

(** /repo/treebeard/admin.py:106-158 move_node; 81-104 the lists, with
    /repo/treebeard/templatetags/admin_tree.py:66; Django's changeform_view and delete_view, in which
    the permission is checked before an unknown object is reported. *)
Definition visit (u : user) (db : DB) (v : view) : DB * response :=
  match v with
  | ChangeForm n d ref p valid inlines =>
      if negb (may_change u (object db n)) then (db, Denied)
      else if negb (s_has s db n) then (db, Missing)
      else form_view db (if valid then s_serve s db (Edit n d ref p) else Refused) n inlines
  | AddForm x ref p valid inlines =>
      if negb (may_add u) then (db, Denied)
      else form_view db (if valid then s_serve s db (Create x ref p) else Refused) (nid x) inlines
  | MoveNode n t below =>
      if negb (may_view u || may_change u None) then (db, Denied)
      else match below with
           | None => (db, BadRequest)
           | Some below =>
               if negb (s_has s db n && s_has s db t) then (db, BadRequest)
               else if negb (may_change u (Some n)) then (db, Denied)
               else match s_serve s db (Drag n t below) with
                    | Done db' => (db', Saved)
                    | Refused => (db, BadRequest)
                    | Failed e => (db, Crash e)
                    end
           end
  | DeleteNode n =>
      if negb (may_delete u (object db n)) then (db, Denied)
      else if negb (s_has s db n) then (db, Missing)
      else match s_collected s db n with
           | Err e => (db, Crash e)
           | Ok l =>
               if negb (forallb (fun i => may_delete u (Some i)) l) then (db, Denied)
               else match s_serve s db (Call (CDelete [n])) with
                    | Done db' => (db', Saved)
                    | Refused => (db, BadRequest)
                    | Failed e => (db, Crash e)
                    end
           end
  | ListOf parent =>
      if negb (may_view u) then (db, Denied)
      else match s_context s db parent with
           | Ok l => (db, Listed (map (fun e => (e, may_change u (Some (e_node e)))) l))
           | Err DoesNotExist => (db, Missing)
           | Err e => (db, Crash e)
           end
  end.

(** The table after the requests of many users. /repo/treebeard/admin.py:66-75 *)
Fixpoint visits (db : DB) (l : list (user * view)) : DB :=
  match l with
  | [] => db
  | (u, v) :: l => visits (fst (visit u db v)) l
  end.
End Views.
Arguments visit {DB} _ _ _ _ _. Arguments visits {DB} _ _ _ _. Arguments form_view {DB} _ _ _ _ _ _. Arguments with_errors {DB} _ _ _.
Arguments object {DB} _ _ _.

(** ** The four kinds of trees.  Rows of materialized paths, nested sets and ltree have no foreign key to
    other rows; the children of an adjacency list have one, /repo/docs/source/al_tree.rst:57-68 (with on_delete=CASCADE), and
    Django's deletion follows it. *)
Definition mp_site (cfg : MPModel.mp_cfg) : site MPModel.mp_db :=
  mkSite (mp_serve cfg) (fun db n => existsb (fun r => MPModel.m_pk r =? n) (MPModel.db_rows db))
    (fun db n => do r <- MPModel.get_by_pk (MPModel.db_rows db) n; MPModel.save_row db r)
    (fun db => mp_context cfg (MPModel.db_rows db)) (fun _ n => Ok [n]).

(** The site of a nested sets model: /repo/treebeard/admin.py:22-157 with
    /repo/treebeard/ns_tree.py *)
Definition ns_site (o : ordering) : site NSModel.ns_db :=
  mkSite (ns_serve o) (fun db n => existsb (fun r => NSModel.n_pk r =? n) (NSModel.ns_rows db))
    (fun db n => do r <- NSModel.get_by_pk (NSModel.ns_rows db) n; Ok (NSModel.save_row db r))
    (fun db => ns_context (NSModel.ns_rows db)) (fun _ n => Ok [n]).

(** The site of an adjacency list model: /repo/treebeard/admin.py:22-157 with
    /repo/treebeard/al_tree.py *)
Definition al_site (o : ordering) : site ALModel.al_table :=
  mkSite (al_serve o) (fun t n => existsb (fun r => ALModel.a_pk r =? n) t)
    (fun t n => do r <- ALModel.get_by_pk t n; Ok (ALModel.save_row t r))
    (al_context o)
    (fun t n => do r <- ALModel.get_by_pk t n;
                do l <- ALModel.get_descendants o t (ALModel.fresh r) true None;
                Ok (map (fun x => ALModel.a_pk (ALModel.o_row x)) l)).

(** The site of an ltree model: /repo/treebeard/admin.py:22-157 with
    /repo/treebeard/ltree/__init__.py *)
Definition lt_site (cfg : LTModel.lt_cfg) : site LTModel.lt_db :=
  mkSite (lt_serve cfg) (fun db n => existsb (fun r => LTModel.l_pk r =? n) (LTModel.lt_rows db))
    (fun db n => do r <- LTModel.get_by_pk (LTModel.lt_rows db) n; lt_save cfg db r)
    (fun db => lt_context (LTModel.lt_rows db)) (fun _ n => Ok [n]).
