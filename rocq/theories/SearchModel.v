(** Model of the lists of the admin with a search, filters or an ordering chosen by the user:
    /repo/treebeard/admin.py:33-56 (get_queryset), 75-104 (changelist_view, children_view) and
    /repo/treebeard/templatetags/admin_tree.py:24-69.  The parameters are those in the address of
    the page; treebeard-admin.js:55 repeats them in every request for children.

    [found] tells whether the search and the filters of Django's ChangeList accept the values
    of a node; searches over related objects are not modelled. *)
From Coq Require Import String List Arith Bool ZArith.
From Verif Require Import Prelude Forest CommonModel AdminModel.
From Verif Require MPModel MPFixModel NSModel ALModel LTModel.
Import ListNotations.

(** django/contrib/admin/views/main.py ChangeList.get_queryset and get_ordering: the chosen
    columns come before the ordering of the queryset, so that rows with equal values stay in the
    order of the queryset.  NULLs compare as smallest here; databases differ. *)
Definition changelist {R} (data : R -> fields) (found : fields -> bool) (o : ordering) (rows : list R) : list R :=
  isort (fun a b => negb (MPFixModel.col_lt o (data b) (data a))) (filter (fun r => found (data r)) rows).

Section Views.
Variable found : fields -> bool.
Variable chosen : ordering.

(** /repo/treebeard/admin.py:33-56, templatetags/admin_tree.py:49-69, with [changelist] in between:
    the flags for children are annotations and do not know the search (admin_tree.py:24-46) *)
Definition mp_search cfg (t : list MPModel.mprow) (parent : option nat) : res (list entry) :=
  do '(p, rows) <- mp_list cfg t parent;
  let level := match p with Some p => Z.of_nat (MPModel.m_depth p) + 1 | None => 1 end%Z in
  Ok (map (fun r => mkEntry (MPModel.m_pk r) match p with Some p => MPModel.m_pk p | None => 0 end level (mp_has_children r))
        (changelist MPModel.m_data found chosen rows)).

(** the same for nested sets. /repo/treebeard/admin.py:33-52, 82-104 with
    /repo/treebeard/ns_tree.py *)
Definition ns_search (t : list NSModel.nsrow) (parent : option nat) : res (list entry) :=
  do '(p, rows) <- ns_list t parent;
  let level := match p with Some p => NSModel.n_depth p + 1 | None => 1 end%Z in
  Ok (map (fun r => mkEntry (NSModel.n_pk r) match p with Some p => NSModel.n_pk p | None => 0 end level (ns_has_children r))
        (changelist NSModel.n_data found chosen rows)).

(** the same for adjacency lists. /repo/treebeard/admin.py:33-52, 82-104 with
    /repo/treebeard/al_tree.py *)
Definition al_search o (t : list ALModel.alrow) (parent : option nat) : res (list entry) :=
  do '(p, rows) <- al_list o t parent;
  do level <- match p with Some p => do '(d, _) <- ALModel.get_depth t (ALModel.fresh p) false; Ok (d + 1)%Z | None => Ok 1%Z end;
  Ok (map (fun r => mkEntry (ALModel.a_pk r) match p with Some p => ALModel.a_pk p | None => 0 end level (al_has_children t r))
        (changelist ALModel.a_data found chosen rows)).

(** the same for ltree. /repo/treebeard/admin.py:33-52, 82-104 with
    /repo/treebeard/ltree/__init__.py *)
Definition lt_search (t : list LTModel.ltrow) (parent : option nat) : res (list entry) :=
  do '(p, rows) <- lt_list t parent;
  let level := match p with Some p => Z.of_nat (LTModel.get_depth p) + 1 | None => 1 end%Z in
  Ok (map (fun r => mkEntry (LTModel.l_pk r) match p with Some p => LTModel.l_pk p | None => 0 end level (lt_has_children t r))
        (changelist LTModel.l_data found chosen rows)).
End Views.

(** Opening everything: the list of [parent], and below each row with an expander the list of its
    node (treebeard-admin.js:31-74), over and over.  [fuel] bounds the depth. *)
Fixpoint open_rows (open : nat -> res (list entry)) (l : list entry) : res (list entry) :=
  match l with
  | [] => Ok []
  | e :: l =>
      do below <- (if e_kids e then open (e_node e) else Ok []);
      do rest <- open_rows open l;
      Ok (e :: below ++ rest)
  end.
(** Expanding every row of the list: /repo/treebeard/static/treebeard/treebeard-admin.js:32-71 *)
Fixpoint open_all (fuel : nat) (answer : option nat -> res (list entry)) (parent : option nat) : res (list entry) :=
  match fuel with
  | 0 => Err OutOfFuel
  | S fuel => do l <- answer parent; open_rows (fun n => open_all fuel answer (Some n)) l
  end.
