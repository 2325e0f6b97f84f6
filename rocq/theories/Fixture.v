(** Concrete histories used by the examples beside the theorems. *)
From Coq Require Import String List Arith Bool ZArith.
From Verif Require Import Prelude Forest SpecFacts CommonModel Order History.
Import ListNotations.
Local Open Scope string_scope.

Definition nd (i : nat) (z : Z) : node := mkNode i [Some z].
Arguments nd _ _%Z_scope.

(** An unsorted tree with holes left by a move and a deletion. *)
Definition ex_calls : list call :=
  [CAddRoot (nd 1 10); CAddRoot (nd 2 20); CAddChild 1 (nd 3 30); CAddChild 1 (nd 4 40);
   CAddSibling 3 (Some "right") (nd 5 50); CAddChild 4 (nd 6 60);
   CMove 4 2 (Some "first-child"); CAddSibling 1 (Some "first-sibling") (nd 7 70);
   CAddChild 2 (nd 8 80); CAddChild 2 (nd 9 90); CDelete [8]; CAddChild 9 (nd 10 100)].

(** The forest it leads to: 7, 1(3, 5), 2(4(6), 9(10)). *)
Definition ex_F : forest node :=
  Cons (nd 7 70) Nil
 (Cons (nd 1 10) (Cons (nd 3 30) Nil (Cons (nd 5 50) Nil Nil))
 (Cons (nd 2 20) (Cons (nd 4 40) (Cons (nd 6 60) Nil Nil) (Cons (nd 9 90) (Cons (nd 10 100) Nil Nil) Nil)) Nil)).

Example ex_calls_F : run (sp_exec []) Nil ex_calls = (ex_F, ex_calls).
Proof. vm_compute. reflexivity. Qed.

(** A tree sorted by the first column, descending; the second call is refused. *)
Definition so : ordering := [(0, true)].
Definition so_calls : list call :=
  [CAddRoot (nd 1 10); CAddSibling 1 (Some "left") (nd 9 9); CAddRoot (nd 2 20); CAddChild 1 (nd 3 5);
   CAddChild 1 (nd 4 7); CAddSibling 3 None (nd 5 6); CAddRoot (nd 6 15); CMove 3 6 (Some "sorted-child");
   CMove 1 3 (Some "sorted-sibling"); CMove 6 4 (Some "sorted-child")].

(** 2, 6(1(4, 5), 3). *)
Definition so_F : forest node :=
  Cons (nd 2 20) Nil
 (Cons (nd 6 15) (Cons (nd 1 10) (Cons (nd 4 7) Nil (Cons (nd 5 6) Nil Nil)) (Cons (nd 3 5) Nil Nil)) Nil).

Example so_calls_F : run (sp_exec so) Nil so_calls =
  (so_F, [CAddRoot (nd 1 10); CAddRoot (nd 2 20); CAddChild 1 (nd 3 5);
   CAddChild 1 (nd 4 7); CAddSibling 3 None (nd 5 6); CAddRoot (nd 6 15); CMove 3 6 (Some "sorted-child");
   CMove 1 3 (Some "sorted-sibling")]).
Proof. vm_compute. reflexivity. Qed.

Lemma nodup_b (l : list nat) : (fix f l := match l with [] => true | x :: l => negb (existsb (Nat.eqb x) l) && f l end) l = true ->
  NoDup l.
Proof.
  induction l as [|x l IH]; intros H; [constructor|]. apply andb_true_iff in H. destruct H as (H1 & H2).
  constructor; auto. intros Hx. apply negb_true_iff in H1. 
  assert (existsb (Nat.eqb x) l = true) by (apply existsb_exists; exists x; rewrite Nat.eqb_refl; auto). congruence.
Qed.

Lemma ex_new : NoDup (flat_map new_ids ex_calls).
Proof. apply nodup_b. vm_compute. reflexivity. Qed.
Lemma so_new : NoDup (flat_map new_ids so_calls).
Proof. apply nodup_b. vm_compute. reflexivity. Qed.

Lemma so_values : Forall (call_values so) so_calls.
Proof.
  repeat constructor; cbn; auto; intros i d [E|[]]; injection E as <- <-; discriminate.
Qed.
