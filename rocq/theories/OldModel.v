(** Model of entry points around the managers: the deprecated methods and handlers
    (models.py, mp_tree.py), movenodeform_factory (forms.py), and the path attribute of ltree
    nodes (ltree/fields.py). *)
From Coq Require Import String List Arith Bool Ascii.
From Verif Require Import Prelude Forest CommonModel LTText.
Import ListNotations.
Local Open Scope list_scope.

(** ** Deprecated ways to add nodes *)

(** The keyword arguments: "instance", if given, and the others. Simplification: a field has a
    number in place of a name. /repo/treebeard/models.py:58-66 *)
Record pykw := mkKw { kw_instance : option (option instance); kw_fields : list (nat * option ZArith.BinInt.Z) }.

(** kwargs.pop("instance", None): the value and what is left. /repo/treebeard/models.py:65 *)
Definition pop_instance (k : pykw) : option instance * pykw :=
  (match kw_instance k with Some i => i | None => None end, mkKw None (kw_fields k)).

(** The object that the manager adds for Node.add_root, Node.add_child and Node.add_sibling:
    the rest of the keyword arguments is create_kwargs.
    /repo/treebeard/models.py:58-66, 68-76, 78-86 *)
Definition old_add (model : list (nat * option ZArith.BinInt.Z) -> fields) (k : pykw) : res fields :=
  let '(i, rest) := pop_instance k in new_object model i (Some (kw_fields rest)).

(** process() of MP_AddRootHandler, MP_AddChildHandler and MP_AddSiblingHandler: the object, and
    the dictionary that the handler keeps.  MP_AddChildHandler and MP_AddSiblingHandler keep the
    dictionary of the caller.  After a successful call the instance is saved.
    /repo/treebeard/mp_tree.py:964-976, 979-991, 994-1007 *)
Definition process (model : list (nat * option ZArith.BinInt.Z) -> fields) (k : pykw) : res fields * pykw :=
  let '(i, rest) := pop_instance k in (new_object model i (Some (kw_fields rest)), rest).

(** The dictionary as the caller sees it after an add: the instance is saved.
    /repo/treebeard/mp_tree.py:379-381 (newobj.save()) *)
Definition saved (k : pykw) : pykw :=
  mkKw (match kw_instance k with Some (Some i) => Some (Some (mkInst false (in_data i))) | x => x end) (kw_fields k).

(** ** movenodeform_factory *)

(** The exclude argument: a list is changed in place by +=, a tuple is not.
    /repo/treebeard/forms.py:196-213 *)
Inductive exclude := ENone | ETuple (l : list string) | EList (l : list string).

(** What modelform_factory gets as exclude, and what the caller's object is afterwards.
    /repo/treebeard/forms.py:210-212 *)
Definition factory_exclude (tree_fields : list string) (e : exclude) : list string * exclude :=
  match e with
  | ENone => (tree_fields, ENone)
  | ETuple l => (l ++ tree_fields, ETuple l)
  | EList l => (l ++ tree_fields, EList (l ++ tree_fields))
  end.

(** modelform_factory of Django: the fields of the model that the form shows, then the fields
    that the form declares. /repo/treebeard/forms.py:213 *)
Definition form_fields (model_fields : list string) (only : option (list string)) (excluded declared : list string) : list string :=
  filter (fun f => match only with Some l => existsb (String.eqb f) l | None => true end && negb (existsb (String.eqb f) excluded)) model_fields
  ++ declared.

(** The fields of the form that movenodeform_factory makes.
    /repo/treebeard/forms.py:196-213 *)
Definition movenodeform_factory (model_fields tree_fields : list string) (only : option (list string)) (e : exclude) : list string :=
  form_fields model_fields only (fst (factory_exclude tree_fields e)) ["_position"; "_ref_node_id"]%string.

(** MOVENODE_FORM_EXCLUDED_FIELDS. /repo/treebeard/mp_tree.py:1035 *)
Definition mp_tree_fields : list string := ["path"; "depth"; "numchild"]%string.
(** /repo/treebeard/ns_tree.py:604 *)
Definition ns_tree_fields : list string := ["depth"; "lft"; "rgt"; "tree_id"]%string.
(** /repo/treebeard/al_tree.py:297 *)
Definition al_tree_fields : list string := ["sib_order"; "parent"]%string.
(** /repo/treebeard/ltree/__init__.py:544 *)
Definition lt_tree_fields : list string := ["path"]%string.

(** ** The path attribute of ltree nodes *)

(** instance.__dict__ at "path": nothing for a deferred field.
    /repo/treebeard/ltree/fields.py:40-59 *)
Definition slot := option value.

(** PathValueProxy.__get__; the lookup in __dict__ fails for a deferred field, and no query is
    made. /repo/treebeard/ltree/fields.py:44-53 *)
Definition proxy_get (s : slot) : res (option (list text)) :=
  match s with
  | None => Err KeyError
  | Some VNone => Ok None
  | Some v => do p <- path_value v; Ok (Some p)
  end.

(** PathValueProxy.__set__. /repo/treebeard/ltree/fields.py:55-59 *)
Definition proxy_set (s : slot) (v : value) : slot := Some v.

(** A row is read: Django sets the fields that are not deferred, through from_db_value.
    /repo/treebeard/ltree/fields.py:80-83 *)
Definition load (deferred : bool) (column : option text) : res slot :=
  if deferred then Ok None
  else do v <- from_db_value column; Ok (Some (match v with Some p => VList p | None => VNone end)).

(** save() of Django: the column, given what it was; deferred fields are not written; the others
    are read through the attribute and written with get_db_prep_value.
    /repo/treebeard/ltree/fields.py:44-53, 99-109 *)
Definition save (s : slot) (column : option text) : res (option text) :=
  match s with
  | None => Ok column
  | Some _ => do v <- proxy_get s; get_db_prep_value (match v with Some p => VList p | None => VNone end)
  end.
