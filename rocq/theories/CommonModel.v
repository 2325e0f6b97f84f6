(** Model of the storage independent parts of /repo/treebeard/models.py:
    position validation and the sorted-position filter. *)
From Coq Require Import String List Arith Bool ZArith.
From Verif Require Import Prelude Forest.
Import ListNotations.
Local Open Scope string_scope.

(** /repo/treebeard/models.py:642-643, 650-651 *)
Definition valid_pos_for_add_sibling : list string :=
  ["first-sibling"; "left"; "right"; "last-sibling"; "sorted-sibling"].
(** /repo/treebeard/models.py:643 *)
Definition valid_pos_for_sorted_add_sibling : list string := ["sorted-sibling"].
(** /repo/treebeard/models.py:650 *)
Definition valid_pos_for_move : list string :=
  (valid_pos_for_add_sibling ++ ["first-child"; "last-child"; "sorted-child"])%list.
(** /repo/treebeard/models.py:651 *)
Definition valid_pos_for_sorted_move : list string :=
  (valid_pos_for_sorted_add_sibling ++ ["sorted-child"])%list.

(** [pos in valid_pos], /repo/treebeard/models.py:632-638 *)
Definition str_in (s : string) (l : list string) : bool := existsb (String.eqb s) l.

(** /repo/treebeard/models.py:626-640 _prepare_pos_var.  [sorted] is the truth
    value of [model.node_order_by]; [p = None] is an omitted argument. *)
Definition prepare_pos_var (sorted : bool) (valid valid_sorted : list string) (p : option string)
  : res string :=
  let p := match p with
           | None => if sorted then "sorted-sibling" else "last-sibling"
           | Some p => p
           end in
  if negb (str_in p valid) then Err InvalidPosition
  else if sorted && negb (str_in p valid_sorted) then Err InvalidPosition
  else if str_in p valid_sorted && negb sorted then Err MissingNodeOrderBy
  else Ok p.

(** The string constants as the enumeration used by the models (not in the source; the source
    compares strings). /repo/treebeard/models.py:642-651 *)
Definition pos_of_string (s : string) : option pos :=
  if s =? "first-sibling" then Some FirstSibling
  else if s =? "left" then Some Left
  else if s =? "right" then Some Right
  else if s =? "last-sibling" then Some LastSibling
  else if s =? "sorted-sibling" then Some SortedSibling
  else if s =? "first-child" then Some FirstChild
  else if s =? "last-child" then Some LastChild
  else if s =? "sorted-child" then Some SortedChild
  else None.

(** The validated string as the enumeration, /repo/treebeard/models.py:645-654 *)
Definition to_pos (s : res string) : res pos :=
  match s with
  | Err e => Err e
  | Ok s => match pos_of_string s with Some p => Ok p | None => Err KeyError end
  end.

(** /repo/treebeard/models.py:645-648 *)
Definition prepare_pos_add (sorted : bool) (p : option string) : res pos :=
  to_pos (prepare_pos_var sorted valid_pos_for_add_sibling valid_pos_for_sorted_add_sibling p).

(** /repo/treebeard/models.py:653-654 *)
Definition prepare_pos_move (sorted : bool) (p : option string) : res pos :=
  to_pos (prepare_pos_var sorted valid_pos_for_move valid_pos_for_sorted_move p).

(** node_order_by: columns by index, [true] for a leading "-" (descending).
    /repo/treebeard/models.py:671-675 *)
Definition ordering := list (nat * bool).

(** [getattr(newobj, field)], /repo/treebeard/models.py:677 *)
Definition fval (d : fields) (i : nat) : option Z := nth i d None.

(** One AND-clause: equalities on the earlier columns and a comparison. A comparison with a
    NULL column is not true (SQL). /repo/treebeard/models.py:687-688 *)
Record clause := mkClause { cl_eqs : list (nat * Z); cl_field : nat; cl_desc : bool; cl_value : Z }.

(** /repo/treebeard/models.py:670-688: the loop building [filters].  A NULL value
    of the new object skips the column (the warning is not modelled). *)
Fixpoint build_filters (o : ordering) (eqs : list (nat * Z)) (newobj : fields) : list clause :=
  match o with
  | [] => []
  | (field, desc) :: o' =>
      match fval newobj field with
      | None => build_filters o' eqs newobj
      | Some v => mkClause eqs field desc v :: build_filters o' (eqs ++ [(field, v)])%list newobj
      end
  end.

(** What the database makes of a clause of /repo/treebeard/models.py:687 *)
Definition clause_holds (sib : fields) (c : clause) : bool :=
  forallb (fun fv => match fval sib (fst fv) with Some x => Z.eqb x (snd fv) | None => false end)
          (cl_eqs c) &&
  match fval sib (cl_field c) with
  | Some x => if cl_desc c then Z.ltb x (cl_value c) else Z.ltb (cl_value c) x
  | None => false
  end.

(** /repo/treebeard/models.py:656-693 get_sorted_pos_queryset, as the predicate
    that the returned queryset applies to a sibling. *)
Definition sorted_after (o : ordering) (newobj sib : fields) : bool :=
  match build_filters o [] newobj with
  | [] => true
  | fs => existsb (clause_holds sib) fs
  end.

(** ** Arguments of the add calls *)

(** A model instance: its data and [_state.adding] (true while unsaved). Simplification: an
    instance is truthy (no __bool__ / __len__ on the model). /repo/treebeard/utils.py:54-69 *)
Record instance := mkInst { in_adding : bool; in_data : fields }.

(** [create_kwargs]: None, or a dict; the dict is truthy when it has entries.
    /repo/treebeard/utils.py:54-69 *)
Definition kwargs := option (list (nat * option Z)).
(** [if instance and create_kwargs], /repo/treebeard/utils.py:59 *)
Definition truthy (k : kwargs) : bool := match k with Some (_ :: _) => true | _ => false end.

(** /repo/treebeard/utils.py:44-70 check_create_args (the decorator of add_root,
    add_child and add_sibling): the checks before the call. *)
Definition check_create_args (inst : option instance) (k : kwargs) : res unit :=
  match inst, k with
  | Some _, Some (_ :: _) => Err ValueError
  | None, None => Err ValueError
  | Some i, _ => if in_adding i then Ok tt else Err NodeAlreadySaved
  | None, Some _ => Ok tt
  end.

(** The new object of a decorated call: [instance or self.model with create_kwargs],
    e.g. /repo/treebeard/mp_tree.py:376, 407, 455; ns_tree.py:132, 165, 188;
    al_tree.py:68, 80, 101; ltree/__init__.py:178, 212, 243.  [model] stands for the
    constructor of the model class. *)
Definition new_object (model : list (nat * option Z) -> fields) (inst : option instance) (k : kwargs) : res fields :=
  do _ <- check_create_args inst k;
  match inst, k with
  | Some i, _ => Ok (in_data i)
  | None, Some kw => Ok (model kw)
  | None, None => Err TypeError
  end.
