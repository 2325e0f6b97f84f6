(** Model of /repo/treebeard/ltree/fields.py: path values, their text and the validator.

    A str is a list of 8-bit characters.  Simplifications: characters beyond 8 bits are
    left out; a PathValue made from another iterable is its list of strings. *)
From Coq Require Import String Ascii List Arith Lia Bool.
From Verif Require Import Prelude PathTab LTModel.
Import ListNotations.

Notation text := (list ascii).
(** A Python str of characters below 256, /repo/treebeard/ltree/fields.py:22-37 *)
Definition txt (s : string) : text := list_ascii_of_string s.

(** /repo/treebeard/ltree/fields.py:25, 37 *)
Definition dot : ascii := "."%char.
(** The $ of the validator matches before it, /repo/treebeard/ltree/fields.py:13-18 *)
Definition newline : ascii := ascii_of_nat 10.

(** ** str methods *)

(** str.isspace() of an 8-bit character. /repo/treebeard/ltree/fields.py:25 *)
Definition is_space (c : ascii) : bool :=
  let n := nat_of_ascii c in
  (9 <=? n) && (n <=? 13) || (28 <=? n) && (n <=? 32) || (n =? 133) || (n =? 160).

(** str.lstrip(), str.rstrip(), str.strip() *)
Fixpoint lstrip (s : text) : text :=
  match s with
  | c :: s' => if is_space c then lstrip s' else s
  | [] => []
  end.
(** str.rstrip(), /repo/treebeard/ltree/fields.py:25 *)
Definition rstrip (s : text) : text := rev (lstrip (rev s)).
(** str.strip(), /repo/treebeard/ltree/fields.py:25 *)
Definition strip (s : text) : text := rstrip (lstrip s).

(** s.split("."): never empty. /repo/treebeard/ltree/fields.py:25 *)
Fixpoint split (s : text) : list text :=
  match s with
  | [] => [[]]
  | c :: s' =>
      if Ascii.eqb c dot then [] :: split s'
      else match split s' with
           | l :: r => (c :: l) :: r
           | [] => [[c]]
           end
  end.

(** ".".join(l). /repo/treebeard/ltree/fields.py:36-37 *)
Fixpoint join (l : list text) : text :=
  match l with
  | [] => []
  | [x] => x
  | x :: r => x ++ dot :: join r
  end.

(** ** PathValue *)

(** What a path attribute may be given. /repo/treebeard/ltree/fields.py:23-31 *)
Inductive value := VNone | VStr (s : text) | VList (l : list text) | VOther.

(** PathValue.__init__, /repo/treebeard/ltree/fields.py:22-31 *)
Definition path_value (v : value) : res (list text) :=
  match v with
  | VStr [] => Ok []
  | VStr s => Ok (split (strip s))
  | VList l => Ok l
  | _ => Err ValueError
  end.

(** PathValue.__str__, /repo/treebeard/ltree/fields.py:36-37 *)
Definition path_str (p : list text) : text := join p.

(** /repo/treebeard/ltree/fields.py:80-83 *)
Definition from_db_value (v : option text) : res (option (list text)) :=
  match v with None => Ok None | Some s => do p <- path_value (VStr s); Ok (Some p) end.

(** /repo/treebeard/ltree/fields.py:85-88 *)
Definition get_prep_value (v : value) : res (option text) :=
  match v with VNone => Ok None | v => do p <- path_value v; Ok (Some (path_str p)) end.

(** /repo/treebeard/ltree/fields.py:90-97 *)
Definition to_python (v : value) : res (option (list text)) :=
  match v with VNone => Ok None | v => do p <- path_value v; Ok (Some p) end.

(** /repo/treebeard/ltree/fields.py:99-109 *)
Definition get_db_prep_value (v : value) : res (option text) :=
  match v with
  | VNone => Ok None
  | VStr _ | VList _ => do p <- path_value v; Ok (Some (path_str p))
  | VOther => Err ValueError
  end.

(** ** The validator *)

(** Regular expressions as used by the validator. /repo/treebeard/ltree/fields.py:13-18 *)
Inductive regex :=
| RSet (f : ascii -> bool)
| RSeq (a b : regex)
| RStar (a : regex).
(** The + of /repo/treebeard/ltree/fields.py:13-18 *)
Definition RPlus (a : regex) : regex := RSeq a (RStar a).

(** What it means to match /repo/treebeard/ltree/fields.py:13-18 *)
Inductive rmatch : regex -> text -> Prop :=
| M_set f c : f c = true -> rmatch (RSet f) [c]
| M_seq a b s s' : rmatch a s -> rmatch b s' -> rmatch (RSeq a b) (s ++ s')
| M_nil a : rmatch (RStar a) []
| M_star a s s' : rmatch a s -> rmatch (RStar a) s' -> rmatch (RStar a) (s ++ s').

(** A range of characters in /repo/treebeard/ltree/fields.py:13-18 *)
Definition between (a b : ascii) (c : ascii) : bool :=
  (nat_of_ascii a <=? nat_of_ascii c) && (nat_of_ascii c <=? nat_of_ascii b).

(** [a-zA-Z0-9_-]. /repo/treebeard/ltree/fields.py:13-18 *)
Definition label_char (c : ascii) : bool :=
  between "a" "z" c || between "A" "Z" c || between "0" "9" c || Ascii.eqb c "_" || Ascii.eqb c "-".

(** path_label_validator, /repo/treebeard/ltree/fields.py:15-19: [a-zA-Z0-9_-]+(?:\.[a-zA-Z0-9_-]+)* *)
Definition path_regex : regex :=
  RSeq (RPlus (RSet label_char)) (RStar (RSeq (RSet (Ascii.eqb dot)) (RPlus (RSet label_char)))).

(** ^...$ under re.search: $ also matches before a newline at the end.
    /repo/treebeard/ltree/fields.py:13-18 *)
Definition accepted (s : text) : Prop :=
  exists m, rmatch path_regex m /\ (s = m \/ s = m ++ [newline]).

(** ** The characters of generated labels *)

(** string.digits + string.ascii_uppercase, /repo/treebeard/ltree/__init__.py:42-47 *)
Definition char_of (i : nat) : ascii := ascii_of_nat (if i <? 10 then 48 + i else 55 + i).
(** The label of /repo/treebeard/ltree/__init__.py:68 as text *)
Definition label_text (l : label) : text := map char_of l.
(** The path of /repo/treebeard/ltree/__init__.py:89 as text *)
Definition path_text (p : lpath) : list text := map label_text p.
