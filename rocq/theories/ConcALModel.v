(** The calls on adjacency lists as transactions, statement by statement (see ConcModel.v): all
    of them, at all positions, with and without node_order_by.

    Simplifications: the queries that one test sends to read nodes (is_descendant_of walks the
    tree with many) are one SELECT here. The objects given to a call are fetched at its begin.
    Foreign keys are not checked. [fuel] bounds the recursion of the walks and the rounds of
    Django's collector; a transaction that uses it up raises OutOfFuel. *)
From Coq Require Import String List Arith Bool ZArith.
From Verif Require Import Prelude Forest CommonModel Order History ConcModel.
From Verif Require Import ALModel.
Import ListNotations.
Local Open Scope Z_scope.

(** A method that reads nodes, e.g. /repo/treebeard/models.py:545-577 *)
Definition reads {A} (f : al_table -> res A) (c : A -> prog alrow) : prog alrow :=
  Select (fun t => or_raise (f t) c).

Section AL.
Variable fuel : nat.
Variable o : ordering.

(** The nodes below [n], /repo/treebeard/al_tree.py:24-62, 207-216, 305-330 *)
Definition al_below (t : al_table) (n : alrow) : res (list alobj) :=
  do d <- match a_parent n with
          | None => Ok 1
          | Some _ => do l <- up_chain fuel t n; Ok (1 + Z.of_nat (length l))
          end;
  tree_rec o fuel t (Some (a_pk n)) (negb (is_leaf o t n)) (d + 1) None.

(** /repo/treebeard/al_tree.py:341-346 is_descendant_of *)
Definition al_descendant (t : al_table) (r n : alrow) : res bool :=
  do l <- al_below t n; Ok (existsb (fun x => (a_pk (o_row x) =? a_pk r)%nat) l).

(** The smallest sib_order to shift (0 if none) and the sib_order of the hole:
    /repo/treebeard/al_tree.py:268-277 *)
Definition al_hole (t : al_table) (p : pos) (target : alrow) : res (Z * Z) :=
  do '(siblings, sib_order) <-
    match p with
    | Left => Ok (filter (fun r => a_sib target <=? a_sib r) (get_siblings o t target), a_sib target)
    | Right => Ok (filter (fun r => a_sib target <? a_sib r) (get_siblings o t target), a_sib target + 1)
    | FirstSibling => Ok (get_siblings o t target, 1)
    | _ => Err KeyError
    end;
  Ok (or0 (agg Z.min (map a_sib siblings)), sib_order).

(** /repo/treebeard/al_tree.py:265-287 _get_new_sibling_order; the UPDATE is 278-280 *)
Definition al_new_order (p : pos) (target : alrow) (c : Z -> prog alrow) : prog alrow :=
  reads (fun t => Ok (is_target_pos_the_last_sibling o t p target)) (fun b =>
  if b : bool then reads (fun t => match get_last_sibling o t target with Some l => Ok l | None => Err AttributeError end) (fun l => c (a_sib l + 1))
  else reads (fun t => al_hole t p target) (fun '(m, s) =>
       if m =? 0 then c s
       else Update (fun r => (m <=? a_sib r) && par_eqb (a_parent r) (a_parent target)) inc_sib (c s))).

(** /repo/treebeard/al_tree.py:64-74, 76-93: the new row below [p] *)
Definition al_new (p : option nat) (x : node) : prog alrow :=
  if is_sorted o then Insert (mkAL (nid x) p 0 (ndata x)) Commit
  else reads (fun t => Ok (next_sib t p)) (fun s => Insert (mkAL (nid x) p s (ndata x)) Commit).

(** /repo/treebeard/al_tree.py:76-93 add_child of a node fetched before *)
Definition al_add_child_by (k : nat) (x : node) : prog alrow :=
  reads (fun t => get_by_pk t k) (fun nd => al_new (Some (a_pk nd)) x).

(** /repo/treebeard/al_tree.py:95-106 add_sibling of a node fetched before *)
Definition al_add_sibling (k : nat) (p : option string) (x : node) : prog alrow :=
  reads (fun t => get_by_pk t k) (fun target =>
  or_raise (prepare_pos_add (is_sorted o) p) (fun p =>
  let insert s := Insert (mkAL (nid x) (a_parent target) s (ndata x)) Commit in
  if is_sorted o then insert 0 else al_new_order p target insert)).

(** save() of a node that was read before: UPDATE, and INSERT if there is no such row.
    /repo/treebeard/al_tree.py:153 *)
Definition al_save (row : alrow) : prog alrow :=
  Select (fun t => if existsb (fun r => (a_pk r =? a_pk row)%nat) t
                   then Update (fun r => (a_pk r =? a_pk row)%nat) (fun _ => row) Commit
                   else Insert row Commit).

(** /repo/treebeard/al_tree.py:108-153 move of a node fetched before *)
Definition al_move (n q : nat) (p : option string) : prog alrow :=
  reads (fun t => get_by_pk t n) (fun nd =>
  reads (fun t => get_by_pk t q) (fun target =>
  or_raise (prepare_pos_move (is_sorted o) p) (fun p =>
  reads (fun t => move_target o t nd target p) (fun '(tg, parent, p, sib_order) =>
  reads (fun t => al_descendant t tg nd) (fun d =>
  if d : bool then Raise InvalidMoveToDescendant
  else
  reads (fun t => Ok (move_is_noop o t nd tg p)) (fun noop =>
  if noop : bool then Commit
  else
  let up := match parent with Some q => Some (a_pk q) | None => a_parent tg end in
  let save s := al_save (mkAL (a_pk nd) up s (a_data nd)) in
  match p with
  | SortedSibling => save (a_sib nd)
  | _ => match sib_order with
         | Some s => save s
         | None => al_new_order p tg save
         end
  end)))))).

(** QuerySet.delete() of Django, which /repo/treebeard/al_tree.py does not override (see
    [al_delete] in ConcModel.v) *)
Definition al_delete_by (l : list nat) : prog alrow :=
  Select (fun t =>
    al_collect fuel (map a_pk (filter (fun r => existsb (Nat.eqb (a_pk r)) l) t)) (fun s =>
      Delete (fun r => in_pks s (a_pk r)) Commit)).

(** All calls: /repo/treebeard/al_tree.py:64-153 and /repo/treebeard/models.py:97-103 *)
Definition al_tx (c : call) : prog alrow :=
  match c with
  | CAddRoot x => al_new None x
  | CAddChild k x => al_add_child_by k x
  | CAddSibling k p x => al_add_sibling k p x
  | CMove n q p => al_move n q p
  | CDelete l => al_delete_by l
  end.
End AL.
