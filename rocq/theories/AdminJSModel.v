(** Model of the part of the admin list that runs in the browser: expanding and
    collapsing rows, /repo/treebeard/static/treebeard/treebeard-admin.js:7-106,133-141,219-230.

    The page is the list of table rows in document order, with the data attributes that the
    script reads, whether the row is shown, and the classes of the link that expands it.
    The browser calls the handlers one after the other; the answer to a request arrives
    as an event of its own, at any later time.

    Not modelled: the columns and the look of a row, the pages of an answer (all pages of
    the children of a node arrive as one answer, see PagesModel.v), dragging and dropping
    (treebeard-admin.js:108-217, see DragModel.v), and rows with equal primary keys. *)
From Coq Require Import List Arith Bool ZArith.
From Verif Require Import Prelude AdminModel.
Import ListNotations.

(** A table row: data-node-id, data-parent-id, data-level, whether there is a link of class
    treebeard-collapse (treebeard-admin.js:100-102), whether the row is shown, data-children-loaded
    (:11, :52) and the classes treebeard-collapsed, treebeard-expanded and treebeard-loading
    of the link. *)
Record urow := mkU {
  u_id : nat; u_parent : nat; u_level : Z; u_link : bool;
  u_shown : bool; u_loaded : bool; u_coll : bool; u_exp : bool; u_wait : bool }.

(** The page: its rows, and the nodes whose children are asked for.
    /repo/treebeard/static/treebeard/treebeard-admin.js:51-71 *)
Record page := mkPage { p_rows : list urow; p_asked : list nat }.

(** /repo/treebeard/static/treebeard/treebeard-admin.js:74-106 setupData: new rows are shown,
    and those with children get a collapsed link *)
Definition setup (e : entry) : urow :=
  mkU (e_node e) (e_parent e) (e_level e) (e_kids e) true false (e_kids e) false false.

(** treebeard-admin.js:14-16 isCollapsed *)
Definition is_collapsed (r : urow) : bool := u_link r && u_coll r.

(** treebeard-admin.js:18-20 children *)
Definition u_children (rows : list urow) (id : nat) : list urow := filter (fun r => u_parent r =? id) rows.

(** jQuery hide and show, treebeard-admin.js:26 and :34 *)
Definition set_shown (b : bool) (r : urow) : urow :=
  mkU (u_id r) (u_parent r) (u_level r) (u_link r) b (u_loaded r) (u_coll r) (u_exp r) (u_wait r).

(** The classes of the link; nothing happens to a row without a link.
    /repo/treebeard/static/treebeard/treebeard-admin.js:29, 36, 54, 69 *)
Definition set_link (coll exp wait : bool) (r : urow) : urow :=
  if u_link r
  then mkU (u_id r) (u_parent r) (u_level r) (u_link r) (u_shown r) (u_loaded r) coll exp wait
  else r.

(** treebeard-admin.js:52 *)
Definition set_loaded (r : urow) : urow :=
  mkU (u_id r) (u_parent r) (u_level r) (u_link r) (u_shown r) true (u_coll r) (u_exp r) (u_wait r).

(** Change the rows that satisfy [P]. /repo/treebeard/static/treebeard/treebeard-admin.js:18-20
    and the jQuery calls on the result *)
Definition where_ (P : urow -> bool) (f : urow -> urow) (rows : list urow) : list urow :=
  map (fun r => if P r then f r else r) rows.

(** jQuery each, treebeard-admin.js:24 *)
Definition each (f : list urow -> nat -> res (list urow)) : list nat -> list urow -> res (list urow) :=
  fix each l rows :=
    match l with
    | [] => Ok rows
    | id :: l => do rows <- f rows id; each l rows
    end.

(** treebeard-admin.js:22-30 collapse: first every child, then the children are hidden, then
    the link is changed.  The fuel stands for the stack of the browser. *)
Fixpoint collapse (fuel : nat) (rows : list urow) (id : nat) : res (list urow) :=
  match fuel with
  | 0 => Err OutOfFuel
  | S fuel =>
      do rows <- each (collapse fuel) (map u_id (u_children rows id)) rows;
      let rows := where_ (fun r => u_parent r =? id) (set_shown false) rows in
      Ok (where_ (fun r => u_id r =? id) (fun r => set_link true false (u_wait r) r) rows)
  end.

(** treebeard-admin.js:32-41 expand, with the first part of loadChildren, :51-58 *)
Definition expand (p : page) (r : urow) : page :=
  if u_loaded r then
    let rows := where_ (fun x => u_parent x =? u_id r) (set_shown true) (p_rows p) in
    mkPage (where_ (fun x => u_id x =? u_id r) (fun x => set_link false true (u_wait x) x) rows) (p_asked p)
  else
    let rows := where_ (fun x => u_id x =? u_id r) set_loaded (p_rows p) in
    mkPage (where_ (fun x => u_id x =? u_id r) (fun x => set_link false (u_exp x) true x) rows)
      (p_asked p ++ [u_id r]).

(** treebeard-admin.js:68 insertAfter *)
Fixpoint insert_after (id : nat) (new rows : list urow) : list urow :=
  match rows with
  | [] => []
  | r :: rest => if u_id r =? id then r :: new ++ rest else r :: insert_after id new rest
  end.

(** treebeard-admin.js:66-69, the answer of a request *)
Definition arrive (p : page) (id : nat) (new : list entry) : page :=
  let rows := insert_after id (map setup new) (p_rows p) in
  mkPage (where_ (fun x => u_id x =? id) (fun x => set_link (u_coll x) true false x) rows)
    (filter (fun x => negb (x =? id)) (p_asked p)).

(** What can happen: a click on the link of a row (:225-228), a row that is dragged enters
    another one (:133-141), the answer of a request arrives, a request fails (there is only a
    handler for successful requests, :58).
    /repo/treebeard/static/treebeard/treebeard-admin.js:58-70, 133-141, 225-228 *)
Inductive event := Click (id : nat) | Enter (id : nat) | Answer (id : nat) | Lost (id : nat).

(** The row under the mouse; hidden rows get no events.
    /repo/treebeard/static/treebeard/treebeard-admin.js:225-228 *)
Definition row_at (p : page) (id : nat) : option urow :=
  find (fun r => (u_id r =? id) && u_shown r) (p_rows p).

Section Browser.
(** the children view and the list of the roots, /repo/treebeard/admin.py:33-52,76-104; see the contexts of AdminModel.v *)
Variable serve : option nat -> res (list entry).

(** treebeard-admin.js:219-223 *)
Definition open_page : res page := do es <- serve None; Ok (mkPage (map setup es) []).

(** treebeard-admin.js:43-49 toggle, :133-141, :58-70; an event that cannot occur changes nothing *)
Definition happen (p : page) (e : event) : res page :=
  match e with
  | Click id =>
      match row_at p id with
      | Some r =>
          if u_link r then
            if is_collapsed r then Ok (expand p r)
            else do rows <- collapse (S (length (p_rows p))) (p_rows p) id; Ok (mkPage rows (p_asked p))
          else Ok p
      | None => Ok p
      end
  | Enter id =>
      match row_at p id with
      | Some r => if is_collapsed r then Ok (expand p r) else Ok p
      | None => Ok p
      end
  | Answer id =>
      if existsb (Nat.eqb id) (p_asked p) then
        match serve (Some id) with
        | Ok es => Ok (arrive p id es)
        | Err _ => Ok (mkPage (p_rows p) (filter (fun x => negb (x =? id)) (p_asked p)))
        end
      else Ok p
  | Lost id => Ok (mkPage (p_rows p) (filter (fun x => negb (x =? id)) (p_asked p)))
  end.

(** a visit of the page. /repo/treebeard/static/treebeard/treebeard-admin.js:133-141, 225-228 *)
Fixpoint happens (p : page) (es : list event) : res page :=
  match es with
  | [] => Ok p
  | e :: es => do p <- happen p e; happens p es
  end.
(** Opening the page and what happens on it:
    /repo/treebeard/static/treebeard/treebeard-admin.js:219-231 *)
Definition visit (es : list event) : res page := do p <- open_page; happens p es.
End Browser.
