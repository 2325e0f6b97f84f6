(** Model of the reads of adjacency lists that take several queries,
    /repo/treebeard/al_tree.py:24-62, 207-224, 252-263 and 305-330, while others change the table.

    At the isolation level READ COMMITTED (see ConcModel.v) every query of a reader sees the rows
    that are committed at that moment: [env k] are the rows that the query number [k] sees.
    [get_tree], [get_descendants], [get_ancestors] and [get_depth] of the other implementations
    are one query each. *)
From Coq Require Import String List Arith Bool ZArith.
From Verif Require Import Prelude Forest CommonModel ALModel.
Import ListNotations.
Local Open Scope Z_scope.

Section Env.
Variable o : ordering.
Variable env : nat -> al_table.

(** A for loop whose body makes queries; [k] is the number of queries so far.
    /repo/treebeard/al_tree.py:52-62 *)
Fixpoint collect_over {A B} (f : A -> nat -> res (list B * nat)) (l : list A) (k : nat) : res (list B * nat) :=
  match l with
  | [] => Ok ([], k)
  | x :: l => do '(a, k) <- f x k; do '(b, k) <- collect_over f l k; Ok (a ++ b, k)
  end.

(** /repo/treebeard/al_tree.py:47-62 _get_tree_recursively: the children and the annotation
    node_has_children come with one query, none() makes no query. *)
Fixpoint tree_over (fuel : nat) (k : nat) (parent : option nat) (nhc : bool) (depth : Z) (max_depth : option Z)
  : res (list alobj * nat) :=
  match fuel with
  | O => Err OutOfFuel
  | S fuel =>
      if too_deep max_depth depth then Ok ([], k)
      else
        let t := env k in
        let query (qs : al_table) :=
          collect_over (fun n k => do '(sub, k) <- tree_over fuel k (Some (a_pk n)) (has_children t (a_pk n)) (depth + 1) max_depth;
                                   Ok (mkAObj n (Some depth) :: sub, k)) qs (S k) in
        match parent with
        | Some _ => if nhc then query (kids o t parent) else Ok ([], k)
        | None => query (get_root_nodes o t)
        end
  end.

(** The loops of /repo/treebeard/al_tree.py:257-263 and 324-328: one query for each parent *)
Fixpoint chain_over (fuel : nat) (k : nat) (r : alrow) : res (al_table * nat) :=
  match fuel with
  | O => Err OutOfFuel
  | S fuel =>
      match a_parent r with
      | None => Ok ([], k)
      | Some p => do q <- get_by_pk (env k) p; do '(l, k) <- chain_over fuel (S k) q; Ok (l ++ [q], k)
      end
  end.

(** /repo/treebeard/al_tree.py:252-263 *)
Definition ancestors_over (fuel k : nat) (n : alrow) : res (al_table * nat) := chain_over fuel k n.

(** /repo/treebeard/al_tree.py:305-330, without [update] *)
Definition depth_over (fuel k : nat) (n : alobj) : res (Z * nat) :=
  match a_parent (o_row n), o_depth n with
  | None, _ => Ok (1, k)
  | Some _, Some d => Ok (d, k)
  | Some _, None => do '(l, k) <- chain_over fuel k (o_row n); Ok (1 + Z.of_nat (length l), k)
  end.

(** /repo/treebeard/al_tree.py:24-45; is there a child (36) is a query of its own *)
Definition get_tree_over (fuel k : nat) (parent : option alobj) (max_depth : option Z) : res (list alobj * nat) :=
  match parent with
  | Some p =>
      do '(d, k) <- depth_over fuel k p;
      let p := mkAObj (o_row p) (match a_parent (o_row p) with None => o_depth p | Some _ => Some d end) in
      let nhc := negb (is_leaf o (env k) (o_row p)) in
      let m := match max_depth with
               | Some v => if v =? 0 then Some v else Some (v + d)
               | None => None
               end in
      do '(l, k) <- tree_over fuel (S k) (Some (a_pk (o_row p))) nhc (d + 1) m;
      Ok (p :: l, k)
  | None => tree_over fuel k None true 1 max_depth
  end.

(** /repo/treebeard/al_tree.py:207-224 *)
Definition descendants_over (fuel k : nat) (n : alobj) (max_depth : option Z) : res (list alobj * nat) :=
  do '(l, k) <- get_tree_over fuel k (Some n) max_depth; Ok (tl l, k).
End Env.
