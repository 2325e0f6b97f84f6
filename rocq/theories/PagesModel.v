(** Model of how the browser gets the children of a node in pages:
    /repo/treebeard/static/treebeard/treebeard-admin.js:51-71 (loadChildren) asks for page after page,
    /repo/treebeard/admin.py:81-104 (children_view) answers with one page of Django's ChangeList.

    [A] is a row of the list; that the two lists of an answer (the HTML and the context) are
    lists of the same rows is not modelled but assumed.  The children of the node at the time of the
    request number [i] are [children i], so that the tree may change while pages are loaded. *)
From Coq Require Import List Arith Bool.
From Verif Require Import Prelude.
Import ListNotations.

Section Pages.
Variable A : Type.
Variable per_page : nat.  (* ModelAdmin.list_per_page *)
Variable max_all : nat.   (* ModelAdmin.list_max_show_all *)
Variable show_all : bool. (* the parameter "all" is in the address of the page, and so in that of the request (treebeard-admin.js:55) *)

(** django/core/paginator.py Paginator.num_pages: orphans is 0, an empty list has one page *)
Definition num_pages (count : nat) : nat := (Nat.max 1 count + per_page - 1) / per_page.

(** django/core/paginator.py Paginator.page; [None] is EmptyPage *)
Definition paginator_page (l : list A) (number : nat) : option (list A) :=
  if (number <? 1) || (num_pages (length l) <? number) then None
  else
    let bottom := (number - 1) * per_page in
    let top := if length l <=? bottom + per_page then length l else bottom + per_page in
    Some (firstn (top - bottom) (skipn bottom l)).

(** django/contrib/admin/views/main.py ChangeList.get_results *)
Definition get_results (l : list A) (number : nat) : option (list A) :=
  let can_show_all := length l <=? max_all in
  let multi_page := per_page <? length l in
  if (show_all && can_show_all) || negb multi_page then Some l else paginator_page l number.

(** The answer of children_view, /repo/treebeard/admin.py:97-104: rows, "page" and "num_pages".
    [None]: IncorrectLookupParameters is not caught in this view, so the request fails. *)
Definition children_view (l : list A) (number : nat) : option (list A * nat * nat) :=
  match get_results l number with
  | Some rows => Some (rows, number, num_pages (length l))
  | None => None
  end.

(** What becomes of a call of loadChildren: the rows that are inserted, or a request failed and
    the row goes on waiting, or [fuel] was too small.
    /repo/treebeard/static/treebeard/treebeard-admin.js:51-71 *)
Inductive outcome := Inserted (rows : list A) | Stuck | OutOfFuel.

(** /repo/treebeard/static/treebeard/treebeard-admin.js:51-71 loadChildren; [i] is the number of the request *)
Fixpoint load_children (fuel : nat) (children : nat -> list A) (i : nat) (result : list A) (number : nat) : outcome :=
  match fuel with
  | 0 => OutOfFuel
  | S fuel =>
      match children_view (children i) number with
      | None => Stuck
      | Some (rows, page, pages) =>
          let result := result ++ rows in
          if page <? pages then load_children fuel children (S i) result (page + 1)
          else Inserted result
      end
  end.

(** treebeard-admin.js:41, the call without arguments *)
Definition load (fuel : nat) (children : nat -> list A) : outcome := load_children fuel children 0 [] 1.
End Pages.
Arguments Inserted {A} _. Arguments Stuck {A}. Arguments OutOfFuel {A}.
Arguments paginator_page {A}. Arguments get_results {A}. Arguments children_view {A}. Arguments load_children {A}. Arguments load {A}.
