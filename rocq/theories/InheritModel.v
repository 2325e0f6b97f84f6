(** Model of the tree views of the admin for a model that inherits from a concrete tree model
    (multi-table inheritance), /repo/treebeard/admin.py:48-52.

    The tree is in the table of the tree model; the rows that have an instance of the inherited
    model are those whose primary key satisfies [cls].  Everything else is as in AdminModel.v. *)
From Coq Require Import String List Arith Bool ZArith.
From Verif Require Import Prelude Forest CommonModel AdminModel.
From Verif Require MPModel NSModel ALModel LTModel.
Import ListNotations.

(** /repo/treebeard/admin.py:38-39: get_object_or_404(self.model, pk), where self.model is the
    inherited model: a node without an instance of it is not found. *)
Definition of_class {R} (cls : nat -> bool) (k : nat) (r : res R) : res R :=
  if cls k then r else Err DoesNotExist.

(** /repo/treebeard/admin.py:50-52: qs = self.model.objects.filter(ptr__in=qs), in the order of
    the managers (/repo/treebeard/mp_tree.py:95-97, ns_tree.py:82-84, al_tree.py:16-22,
    ltree/__init__.py:137-139), which is the order of [get_children] and [get_root_nodes]. *)
Definition specific {R} (cls : nat -> bool) (pk : R -> nat) (rows : list R) : list R := filter (fun r => cls (pk r)) rows.

Section MP.
Import MPModel.
Variable cfg : mp_cfg.
Variable cls : nat -> bool.

(** /repo/treebeard/admin.py:33-54 *)
Definition mp_list_in (t : mp_table) (parent : option nat) : res (option mprow * mp_table) :=
  match parent with
  | Some k => do p <- of_class cls k (get_by_pk t k); Ok (Some p, specific cls m_pk (get_children cfg t p))
  | None => Ok (None, specific cls m_pk (get_root_nodes t))
  end.

(** /repo/treebeard/templatetags/admin_tree.py:31-32, 49-69 *)
Definition mp_context_in (t : mp_table) (parent : option nat) : res (list entry) :=
  do '(p, rows) <- mp_list_in t parent;
  let level := match p with Some p => Z.of_nat (m_depth p) + 1 | None => 1 end%Z in
  Ok (map (fun r => mkEntry (m_pk r) match p with Some p => m_pk p | None => 0 end level (mp_has_children r)) rows).
End MP.

Section NS.
Import NSModel.
Variable cls : nat -> bool.

(** /repo/treebeard/admin.py:33-54 *)
Definition ns_list_in (t : ns_table) (parent : option nat) : res (option nsrow * ns_table) :=
  match parent with
  | Some k => do p <- of_class cls k (get_by_pk t k); Ok (Some p, specific cls n_pk (get_children t p))
  | None => Ok (None, specific cls n_pk (get_root_nodes t))
  end.

(** /repo/treebeard/templatetags/admin_tree.py:33-36, 49-69 *)
Definition ns_context_in (t : ns_table) (parent : option nat) : res (list entry) :=
  do '(p, rows) <- ns_list_in t parent;
  let level := match p with Some p => n_depth p + 1 | None => 1 end%Z in
  Ok (map (fun r => mkEntry (n_pk r) match p with Some p => n_pk p | None => 0 end level (ns_has_children r)) rows).
End NS.

Section AL.
Import ALModel.
Variable o : ordering.
Variable cls : nat -> bool.

(** /repo/treebeard/admin.py:33-54 *)
Definition al_list_in (t : al_table) (parent : option nat) : res (option alrow * al_table) :=
  match parent with
  | Some k => do p <- of_class cls k (get_by_pk t k); Ok (Some p, specific cls a_pk (get_children o t p))
  | None => Ok (None, specific cls a_pk (get_root_nodes o t))
  end.

(** /repo/treebeard/templatetags/admin_tree.py:37-38: cl.model is the inherited model. *)
Definition al_has_children_in (t : al_table) (r : alrow) : bool :=
  existsb (fun x => par_eqb (a_parent x) (Some (a_pk r))) (specific cls a_pk t).

(** /repo/treebeard/templatetags/admin_tree.py:49-69 *)
Definition al_context_in (t : al_table) (parent : option nat) : res (list entry) :=
  do '(p, rows) <- al_list_in t parent;
  do level <- match p with Some p => do '(d, _) <- get_depth t (fresh p) false; Ok (d + 1)%Z | None => Ok 1%Z end;
  Ok (map (fun r => mkEntry (a_pk r) match p with Some p => a_pk p | None => 0 end level (al_has_children_in t r)) rows).
End AL.

Section LT.
Import LTModel.
Variable cls : nat -> bool.

(** /repo/treebeard/admin.py:33-54 *)
Definition lt_list_in (t : lt_table) (parent : option nat) : res (option ltrow * lt_table) :=
  match parent with
  | Some k => do p <- of_class cls k (get_by_pk t k); Ok (Some p, specific cls l_pk (get_children t p))
  | None => Ok (None, specific cls l_pk (get_root_nodes t))
  end.

(** /repo/treebeard/templatetags/admin_tree.py:39-44: cl.model is the inherited model. *)
Definition lt_has_children_in (t : lt_table) (r : ltrow) : bool :=
  existsb (fun x => ppre (l_path r) (l_path x) && negb (l_pk x =? l_pk r)) (specific cls l_pk t).

(** /repo/treebeard/templatetags/admin_tree.py:49-69 *)
Definition lt_context_in (t : lt_table) (parent : option nat) : res (list entry) :=
  do '(p, rows) <- lt_list_in t parent;
  let level := match p with Some p => Z.of_nat (get_depth p) + 1 | None => 1 end%Z in
  Ok (map (fun r => mkEntry (l_pk r) match p with Some p => l_pk p | None => 0 end level (lt_has_children_in t r)) rows).
End LT.
