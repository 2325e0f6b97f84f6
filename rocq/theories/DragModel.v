(** Model of dragging rows in the admin list, /repo/treebeard/static/treebeard/treebeard-admin.js:108-217,
    in the browser.  The handlers are called one after the other with the events of the browser;
    the rows of the page are those of AdminJSModel.v, where dragenter also expands the row.

    Not modelled: the pictures and the classes of the rows; the page is loaded again after the
    answer of the server (treebeard-admin.js:212-215). *)
From Coq Require Import List Arith Bool ZArith.
From Verif Require Import Prelude AdminModel SiteModel.
Import ListNotations.

(** The events: dragstart on an element in the row of a node, or on one that is in no such row
    (treebeard-admin.js:153-163); dragenter on a row (:133-141); dragover with the height of the
    pointer (:128); drag, with the top and the height of the row of targetNode at that time
    (:165-194); drop on some row (:196); dragend (:143-151). *)
Inductive event :=
| Start (n : option nat)
| Enter (n : nat)
| Over (y : Z)
| Drag (top height : Z)
| Drop
| End.

(** The text beside the row, treebeard-admin.js:174, 179, 184 *)
Inductive text := Abort | AsSibling | AsChild.

(** The variables, treebeard-admin.js:116-119: dragPageY (null counts as 0 in comparisons);
    draggedNode: null, or the node of the row ([Some None]: a node without id); targetNode;
    relation, as whether it is "child"; and the text. *)
Record vars := mkVars { v_y : Z; v_dragged : option (option nat); v_target : option nat; v_child : bool; v_text : option text }.
(** /repo/treebeard/static/treebeard/treebeard-admin.js:116-119 *)
Definition vars0 : vars := mkVars 0 None None true None.

(** What a handler does apart from the variables: nothing, the request of treebeard-admin.js:202-211,
    or an exception because a variable is null (:197, :148) *)
Inductive effect := Nothing | Post (node : option nat) (target : nat) (child : bool) | TypeError.

(** treebeard-admin.js:175: in the upper half of the row; the numbers are halves of pixels *)
Definition upper_half (y top height : Z) : bool := (Z.leb top y && Z.leb (2 * y) (2 * top + height))%Z.

(** targetNode.id == draggedNode.id, treebeard-admin.js:173 and :197 *)
Definition same_node (t : nat) (d : option nat) : bool := match d with Some d => t =? d | None => false end.

(** treebeard-admin.js:128-215 *)
Definition handle (v : vars) (e : event) : vars * effect :=
  match e with
  | Over y => (mkVars y (v_dragged v) (v_target v) (v_child v) (v_text v), Nothing)
  | Enter n => (mkVars (v_y v) (v_dragged v) (Some n) (v_child v) (v_text v), Nothing)
  | Start n => (mkVars (v_y v) (Some n) (v_target v) (v_child v) (v_text v), Nothing)
  | End =>
      match v_dragged v with
      | Some d => (mkVars (v_y v) (v_dragged v) None (v_child v) (v_text v), Nothing)
      | None => (mkVars (v_y v) (v_dragged v) None (v_child v) (v_text v), TypeError)
      end
  | Drag top height =>
      match v_target v, v_dragged v with
      | None, _ => (v, Nothing)
      | Some t, None => (v, TypeError)
      | Some t, Some d =>
          if same_node t d then (mkVars (v_y v) (v_dragged v) (v_target v) (v_child v) (Some Abort), Nothing)
          else if upper_half (v_y v) top height then (mkVars (v_y v) (v_dragged v) (v_target v) false (Some AsSibling), Nothing)
          else (mkVars (v_y v) (v_dragged v) (v_target v) true (Some AsChild), Nothing)
      end
  | Drop =>
      match v_target v, v_dragged v with
      | Some t, Some d => if same_node t d then (v, Nothing) else (v, Post d t (v_child v))
      | _, _ => (v, TypeError)
      end
  end.

(** The events of a visit one after the other.
    /repo/treebeard/static/treebeard/treebeard-admin.js:128-200 *)
Fixpoint handled (v : vars) (es : list event) : vars :=
  match es with [] => v | e :: es => handled (fst (handle v e)) es end.

(** The request that move_node gets, /repo/treebeard/admin.py:110-119: without a node the form is
    not valid *)
Definition posted {DB} (serve : DB -> request -> reply DB) (db : DB) (e : effect) : reply DB :=
  match e with
  | Post (Some n) t child => serve db (SiteModel.Drag n t child)
  | Post None _ _ => Refused
  | _ => Done db
  end.
