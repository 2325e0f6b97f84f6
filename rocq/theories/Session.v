(** Programs that keep node objects: the specification, and the generic part of the proof (C53). *)
From Coq Require Import String List Arith Lia Bool ZArith.
From Verif Require Import Prelude Forest SpecFacts SpecSane SpecKids SpecRun CommonModel Order History SessionModel.
Import ListNotations.

(** ** Specification

    The state of a program: the tree, the primary key of the node of each object it holds, and what
    it may expect of each object.  [Held]: the fields are those stored.  [Tied]: they are, and the
    object remembers a parent object which is in order, too.  [Stale]: nothing is promised. *)
Inductive status := Stale | Held | Tied.
Definition current (x : status) : bool := match x with Stale => false | _ => true end.

Record sess := mkSess { s_tree : forest node; s_names : list nat; s_stat : nat -> status }.

(** A program that has fetched nothing yet. *)
Definition start (F : forest node) : sess := mkSess F [] (fun _ => Stale).

(** The call of a statement, with primary keys instead of objects. *)
Definition call_of (names : list nat) (c : cmd) : option call :=
  match c with
  | Fetch _ => None
  | NewRoot x => Some (CAddRoot x)
  | NewChild u x => option_map (fun k => CAddChild k x) (nth_error names u)
  | NewSib u p x => option_map (fun k => CAddSibling k p x) (nth_error names u)
  | MoveTo u w p =>
      match nth_error names u, nth_error names w with
      | Some n, Some t => Some (CMove n t p)
      | _, _ => None
      end
  | Remove u => option_map (fun k => CDelete [k]) (nth_error names u)
  end.

(** One statement; [after] tells which objects are in order afterwards. *)
Definition sp_step (o : ordering) (after : sess -> cmd -> nat -> status) (s : sess) (c : cmd) : res sess :=
  match c with
  | Fetch k =>
      if has k (s_tree s) then Ok (mkSess (s_tree s) (s_names s ++ [k]) (after s c)) else Err DoesNotExist
  | _ =>
      match call_of (s_names s) c with
      | Some call => do F <- sp_exec o (s_tree s) call; Ok (mkSess F (s_names s ++ new_ids call) (after s c))
      | None => Err AttributeError
      end
  end.

Definition only (l : list (nat * status)) (u : nat) : status :=
  match find (fun e => fst e =? u) l with Some e => snd e | None => Stale end.
Definition also (f : nat -> status) (n : nat) (x : status) (u : nat) : status := if u =? n then x else f u.

Definition has_kids (F : forest node) (k : nat) : bool := match kl (Some k) F with [] => false | _ => true end.
Definition who (s : sess) (u : nat) : nat := nth u (s_names s) 0.
Definition to_child (o : ordering) (p : option string) : bool :=
  match prepare_pos_move (sorts o) p with Ok P => is_child_pos P | Err _ => false end.

(** Materialized path: the new object, the parent of a new child, the moved object and its target
    (unless the target had children and the move was to a child position). *)
Definition mp_after (o : ordering) (s : sess) (c : cmd) : nat -> status :=
  let n := length (s_names s) in
  match c with
  | Fetch _ => also (s_stat s) n Held
  | NewRoot _ | NewSib _ _ _ => only [(n, Held)]
  | NewChild u _ => only [(n, Held); (u, s_stat s u)]
  | MoveTo u w p => only [(u, Held); (w, if to_child o p && has_kids (s_tree s) (who s w) then Stale else Held)]
  | Remove _ => only []
  end.

(** Nested sets: the new object (its remembered parent is the object it was made with, if that
    had no children), the parent of a first child, the moved object and its target. *)
Definition ns_after (s : sess) (c : cmd) : nat -> status :=
  let n := length (s_names s) in
  match c with
  | Fetch _ => also (s_stat s) n Held
  | NewRoot _ | NewSib _ _ _ => only [(n, Held)]
  | NewChild u _ =>
      if has_kids (s_tree s) (who s u) then only [(n, Held)]
      else only [(n, if current (s_stat s u) then Tied else Stale);
                 (u, match s_stat s u with Held => Held | _ => Stale end)]
  | MoveTo u w _ => only [(u, s_stat s u); (w, s_stat s w)]
  | Remove _ => only []
  end.

(** Adjacency list: new roots and children change no other row, deletions none of those that
    stay; with node_order_by new siblings change none, either, and moves only the row of the node
    moved. *)
Definition al_after (o : ordering) (s : sess) (c : cmd) : nat -> status :=
  let n := length (s_names s) in
  match c with
  | Fetch _ | NewRoot _ | NewChild _ _ => also (s_stat s) n Held
  | NewSib _ _ _ => if sorts o then also (s_stat s) n Held else only [(n, Held)]
  | MoveTo u _ _ =>
      if sorts o then fun v => if v =? u then Held else if who s v =? who s u then Stale else s_stat s v
      else only [(u, Held)]
  | Remove u => fun v => if has (who s v) (sp_call o (s_tree s) (CDelete [who s u])) then s_stat s v else Stale
  end.

(** Ltree: without node_order_by new roots and children change no other row; with it the parent of
    a new child is as before.  After a move the node moved; deletions change no row that stays. *)
Definition lt_after (o : ordering) (s : sess) (c : cmd) : nat -> status :=
  let n := length (s_names s) in
  match c with
  | Fetch _ => also (s_stat s) n Held
  | NewRoot _ => if sorts o then only [(n, Held)] else also (s_stat s) n Held
  | NewChild u _ => if sorts o then only [(n, Held); (u, s_stat s u)] else also (s_stat s) n Held
  | NewSib _ _ _ => only [(n, Held)]
  | MoveTo u _ _ => only [(u, Held)]
  | Remove u => fun v => if has (who s v) (sp_call o (s_tree s) (CDelete [who s u])) then s_stat s v else Stale
  end.

(** What a careful program does: it uses objects it has; siblings are added to, and moves made
    with, objects in order; children may be added to ANY object it has ([any]) or to one in order;
    new nodes have new keys and values for the columns of node_order_by. *)
Definition new_node (c : cmd) : option node :=
  match c with NewRoot x | NewChild _ x | NewSib _ _ x => Some x | _ => None end.
Definition careful (any : bool) (o : ordering) (s : sess) (c : cmd) : Prop :=
  match c with
  | Fetch _ | NewRoot _ => True
  | NewChild u _ => In (who s u) (ids (s_tree s)) /\ u < length (s_names s) /\ (any = true \/ current (s_stat s u) = true)
  | NewSib u _ _ => u < length (s_names s) /\ current (s_stat s u) = true
  | MoveTo u w _ => u < length (s_names s) /\ w < length (s_names s) /\ current (s_stat s u) = true /\ current (s_stat s w) = true
  | Remove u => u < length (s_names s)
  end /\
  match new_node c with
  | Some x => ~ In (nid x) (ids (s_tree s)) /\ (o <> [] -> has_values o (ndata x))
  | None => True
  end.

(** A program that is careful at each statement, as far as it gets. *)
Fixpoint careful_run (any : bool) (o : ordering) (after : sess -> cmd -> nat -> status) (s : sess) (cs : list cmd) : Prop :=
  match cs with
  | [] => True
  | c :: cs => careful any o s c /\
      match sp_step o after s c with Ok s => careful_run any o after s cs | Err _ => True end
  end.

(** What the documentation promises (/repo/docs/source/caveats.rst:7-12): the object created or
    moved and the target are refreshed; nothing is said about others. *)
Definition doc_after (s : sess) (c : cmd) : nat -> status :=
  let n := length (s_names s) in
  match c with
  | Fetch _ => also (s_stat s) n Held
  | NewRoot _ => only [(n, Held)]
  | NewChild u _ | NewSib u _ _ => only [(n, Held); (u, Held)]
  | MoveTo u w _ => only [(u, Held); (w, Held)]
  | Remove _ => only []
  end.

(** ** The run of the implementation beside the one of the specification *)
Section Play.
Variables (St : Type) (step : St -> cmd -> res St) (o : ordering) (after : sess -> cmd -> nat -> status).
Variable ok : St -> sess -> cmd -> Prop.

Fixpoint all_ok (st : St) (s : sess) (cs : list cmd) : Prop :=
  match cs with
  | [] => True
  | c :: cs => ok st s c /\
      match step st c, sp_step o after s c with
      | Ok st, Ok s => all_ok st s cs
      | _, _ => True
      end
  end.

(** The condition holds at each statement if the program is careful and each state that it gets to
    in the implementation is as wanted. *)
Fixpoint all_along (P : St -> cmd -> Prop) (st : St) (cs : list cmd) : Prop :=
  match cs with
  | [] => True
  | c :: cs => P st c /\ match step st c with Ok st => all_along P st cs | Err _ => True end
  end.

Variable rel : St -> sess -> Prop.
Variable full : exn -> Prop.

(** Same outcome, or the implementation has run out of key space. *)
Definition same (x : res St) (y : res sess) : Prop :=
  match x with
  | Ok st => exists s, y = Ok s /\ rel st s
  | Err e => y = Err e \/ (full e /\ exists s, y = Ok s)
  end.

Hypothesis step_ok : forall st s c, rel st s -> ok st s c -> same (step st c) (sp_step o after s c).

Theorem play_ok cs : forall st s, rel st s -> all_ok st s cs ->
  match play step st cs with
  | Ok st' => exists s', play (sp_step o after) s cs = Ok s' /\ rel st' s'
  | Err e => play (sp_step o after) s cs = Err e \/ full e
  end.
Proof.
  induction cs as [|c cs IH]; intros st s R A; cbn [play]; [eauto|]. cbn [all_ok] in A. destruct A as [K A].
  assert (H := step_ok st s c R K). destruct (step st c) as [st'|e]; cbn [same bind] in *.
  - destruct H as (s' & E & R'). rewrite E in *. cbn [bind]. apply IH; auto.
  - destruct H as [->|[H _]]; cbn [bind]; auto.
Qed.

Lemma all_ok_of any (P : St -> cmd -> Prop) cs : (forall st s c, rel st s -> careful any o s c -> P st c -> ok st s c) -> forall st s, rel st s ->
  careful_run any o after s cs -> all_along P st cs -> all_ok st s cs.
Proof.
  intros K. induction cs as [|c cs IH]; intros st s R C A; cbn [all_ok]; auto. cbn in C, A. destruct C as [C C'], A as [A A'].
  assert (H := step_ok st s c R (K _ _ _ R C A)). split; auto. destruct (step st c) as [st'|]; auto. destruct H as (s' & E & R').
  rewrite E in *. auto.
Qed.
End Play.

(** ** Facts *)
Lemma obj_ok {A} (l : list A) u : u < length l -> exists a, nth_error l u = Some a /\ obj l u = Ok a.
Proof.
  intros H. destruct (nth_error l u) as [a|] eqn:E.
  - exists a. unfold obj. rewrite E. auto.
  - apply nth_error_None in E. lia.
Qed.
Lemma put_length {A} (l : list A) u a : length (put l u a) = length l.
Proof. revert u. induction l as [|b l IH]; intros [|u]; cbn; auto. Qed.
Lemma put_nth {A} (l : list A) u a v : nth_error (put l u a) v = if (v =? u) && (v <? length l) then Some a else nth_error l v.
Proof.
  revert u v. induction l as [|b l IH]; intros [|u] [|v]; cbn; auto.
  - rewrite andb_false_r. auto.
  - rewrite IH. auto.
Qed.
Lemma put_map {A B} (f : A -> B) l u a b : nth_error l u = Some b -> f a = f b -> map f (put l u a) = map f l.
Proof.
  revert u. induction l as [|c l IH]; intros [|u]; cbn; try discriminate.
  - intros E1 E2. injection E1 as ->. congruence.
  - intros E1 E2. f_equal. auto.
Qed.
Lemma nth_names {A} (f : A -> nat) l names u a : map f l = names -> nth_error l u = Some a ->
  nth_error names u = Some (f a) /\ nth u names 0 = f a /\ u < length names.
Proof.
  intros <- E. assert (H := map_nth_error f u l E). split; auto. split; [apply nth_error_nth; auto|].
  rewrite map_length. apply nth_error_Some. congruence.
Qed.
Lemma only_cases l u x : only l u = x -> x <> Stale -> In (u, x) l.
Proof.
  unfold only. destruct (find _ l) as [[v y]|] eqn:E; [|congruence]. apply find_some in E. destruct E as [H E].
  cbn in E. apply Nat.eqb_eq in E. subst v. cbn. intros -> _. auto.
Qed.
Lemma only_current l u : current (only l u) = true -> exists x, In (u, x) l /\ current x = true.
Proof.
  intros H. exists (only l u). split; auto. apply only_cases; auto. destruct (only l u); cbn in H; congruence.
Qed.
Lemma snoc_nth {A} (l : list A) a u b : nth_error (l ++ [a]) u = Some b -> (u < length l /\ nth_error l u = Some b) \/ (u = length l /\ b = a).
Proof.
  intros E. destruct (Nat.lt_ge_cases u (length l)) as [H|H].
  - left. rewrite nth_error_app1 in E; auto.
  - right. rewrite nth_error_app2 in E by lia. destruct (u - length l) as [|m] eqn:D; cbn in E; [|destruct m; discriminate].
    injection E as ->. split; auto. lia.
Qed.
Lemma current_true x : current x = true <-> x <> Stale.
Proof. destruct x; cbn; split; congruence. Qed.
