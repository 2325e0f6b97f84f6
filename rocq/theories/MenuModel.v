(** Model of the menu "Relative to" of MoveNodeForm: the options that a browser gets,
    /repo/treebeard/forms.py:12-28, 70-76 and 96-122, with the parts of Django they go through.

    A text is a list of code points.  [safe] tells Django's SafeString from plain strings.
    The methods __str__ of the project are given by a function [str_of] of the values of a
    row.  Not modelled: the translation of "-- root --", and the selected option. *)
From Coq Require Import String Ascii List Arith Bool ZArith.
From Verif Require Import Prelude Forest AnnModel FormModel.
From Verif Require MPModel NSModel ALModel LTModel.
From Verif Require MPReads NSReads ALReads LTReads.
Import ListNotations.

(** A Python str as its code points, /repo/treebeard/forms.py:23-28 *)
Definition text := list nat.

(** The code points of an ASCII literal. /repo/treebeard/forms.py:23-24 *)
Definition lit (s : string) : text := map nat_of_ascii (list_ascii_of_string s).

(** django/utils/safestring.py: SafeString is a subclass of str *)
Record str := mkStr { safe : bool; chars : text }.

(** django/utils/safestring.py mark_safe *)
Definition mark_safe (s : str) : str := mkStr true (chars s).

(** Python's s.replace(c, new) for a single character c. Used by html.escape,
    /repo/treebeard/forms.py:26-28 *)
Definition replace (c : nat) (new : text) (s : text) : text := flat_map (fun d => if d =? c then new else [d]) s.

(** Python's html.escape, which replaces one character after the other: ampersand, less-than,
    greater-than, the double and the single quote. /repo/treebeard/forms.py:26-28 *)
Definition html_escape (s : text) : text :=
  replace 39 (lit "&#x27;") (replace 34 (lit "&quot;") (replace 62 (lit "&gt;") (replace 60 (lit "&lt;") (replace 38 (lit "&amp;") s)))).

(** django/utils/html.py escape and conditional_escape *)
Definition conditional_escape (s : str) : str := if safe s then s else mkStr true (html_escape (chars s)).

(** Python's s * k, a plain string also for a SafeString. /repo/treebeard/forms.py:23-24 *)
Definition times (s : str) (k : Z) : str := mkStr false (concat (repeat (chars s) (Z.to_nat k))).

(** django/utils/safestring.py __add__: safe if both are *)
Definition plus (s t : str) : str := mkStr (safe s && safe t) (chars s ++ chars t).

(** /repo/treebeard/forms.py:21 *)
Definition depth_separator : str := mkStr true (lit "&nbsp;&nbsp;&nbsp;&nbsp;").

(** /repo/treebeard/forms.py:23-24 _get_indent *)
Definition get_indent (depth : Z) : str := mark_safe (times (conditional_escape depth_separator) (depth - 1)).

(** /repo/treebeard/forms.py:26-28 label_from_instance; that of Django is str(obj) *)
Definition label_from_instance (s : str) (depth : Z) : str :=
  mark_safe (plus (conditional_escape (get_indent depth)) (conditional_escape s)).

(** An option: its value (empty for the first one) and the HTML between the tags, which the
    template django/forms/widgets/select_option.html makes of the label by autoescaping. *)
Definition option_html (o : option nat * str) : option nat * text := (fst o, chars (conditional_escape (snd o))).

Section Menu.
Variable str_of : node -> str.

(** One choice: django/forms/models.py ModelChoiceIterator.choice; the value is the primary key. *)
Definition choice (x : node * Z) : option nat * str :=
  (Some (nid (fst x)), label_from_instance (str_of (fst x)) (snd x)).

(** django/forms/models.py ModelChoiceIterator.__iter__: the field is not required, so that the
    empty label comes first; /repo/treebeard/forms.py:73-74 *)
Definition queryset_choices (rows : list (node * Z)) : list (option nat * text) :=
  map option_html ((None, mkStr false (lit "-- root --")) :: map choice rows).

(** /repo/treebeard/forms.py:117-122; get_depth is the column depth (mp_tree.py:1060-1062) *)
Definition mp_menu (t : list MPModel.mprow) (n : option MPModel.mprow) : list (option nat * text) :=
  queryset_choices (map (fun r => (MPReads.node_of r, Z.of_nat (MPModel.m_depth r))) (mp_choices t n)).

(** ... the column depth (ns_tree.py:614-616) *)
Definition ns_menu (t : list NSModel.nsrow) (n : option NSModel.nsrow) : list (option nat * text) :=
  queryset_choices (map (fun r => (NSReads.row_node r, NSModel.n_depth r)) (ns_choices t n)).

(** ... the number of labels (ltree/__init__.py:551-553) *)
Definition lt_menu (t : list LTModel.ltrow) (n : option LTModel.ltrow) : list (option nat * text) :=
  queryset_choices (map (fun r => (LTReads.node_of r, Z.of_nat (LTModel.get_depth r))) (lt_choices t n)).

(** /repo/treebeard/forms.py:105-116: another first option *)
Definition al_menu o (t : list ALModel.alrow) (n : option ALModel.alrow) : res (list (option nat * text)) :=
  do l <- al_choices o t n;
  do l <- al_depths t l;
  Ok (map option_html ((None, mkStr false (lit "--------")) :: map (fun x => choice (ALReads.obj_node (fst x), snd x)) l)).
End Menu.
