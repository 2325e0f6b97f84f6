(** Histories of API calls: the calls, their meaning on forests, and running a
    list of calls on any implementation.  Nodes are named by primary key, i.e. every
    call fetches its nodes freshly. *)
From Coq Require Import String List Arith Lia Bool ZArith Sorted.
From Verif Require Import Prelude Forest SpecFacts CommonModel Order.
Import ListNotations.

(** The mutating calls of the API, /repo/treebeard/models.py:143-343. *)
Inductive call :=
| CAddRoot (x : node)
| CAddChild (parent : nat) (x : node)
| CAddSibling (target : nat) (p : option string) (x : node)
| CMove (n target : nat) (p : option string)
| CDelete (l : list nat).

Definition sorts (o : ordering) : bool := match o with [] => false | _ => true end.
Definition gt_opt (o : ordering) (d : fields) : option (node -> bool) :=
  if sorts o then Some (gt_of o d) else None.
Definition data_of (n : nat) (F : forest node) : fields :=
  match find (fun a => nid a =? n) (preorder F) with Some a => ndata a | None => [] end.

(** What a successful call does to the forest. *)
Definition sp_call (o : ordering) (F : forest node) (c : call) : forest node :=
  match c with
  | CAddRoot x => sp_add_root (gt_opt o (ndata x)) x F
  | CAddChild p x => sp_add_child (gt_opt o (ndata x)) p x F
  | CAddSibling t p x =>
      match prepare_pos_add (sorts o) p with
      | Ok P => sp_add_sibling t P (gt_of o (ndata x)) x F
      | Err _ => F
      end
  | CMove n t p =>
      match prepare_pos_move (sorts o) p with
      | Ok P => sp_move n t P (gt_of o (data_of n F)) F
      | Err _ => F
      end
  | CDelete l => remove_all (fun i => existsb (Nat.eqb i) l) F
  end.

(** Running calls; a call that raises leaves the state alone.  The second component
    lists the calls that succeeded. *)
Fixpoint run {St : Type} (exec : St -> call -> res St) (s : St) (cs : list call) : St * list call :=
  match cs with
  | [] => (s, [])
  | c :: cs =>
      match exec s c with
      | Ok s' => let (s2, done) := run exec s' cs in (s2, c :: done)
      | Err _ => run exec s cs
      end
  end.

(** The primary keys handed out by a call. *)
Definition new_ids (c : call) : list nat :=
  match c with CAddRoot x | CAddChild _ x | CAddSibling _ _ x => [nid x] | _ => [] end.

(** The new objects have values in the columns of node_order_by. *)
Definition call_values (o : ordering) (c : call) : Prop :=
  match c with CAddRoot x | CAddChild _ x | CAddSibling _ _ x => has_values o (ndata x) | _ => True end.

(** Siblings are sorted if there is an order. *)
Definition ordered (o : ordering) (F : forest node) : Prop := o <> [] -> sorted_f o F /\ values_f o F.

(** ** Facts *)
Lemma sorts_true o : sorts o = true <-> o <> [].
Proof. destruct o; simpl; split; congruence. Qed.

Lemma prepare_add_sorted p P : prepare_pos_add true p = Ok P -> P = SortedSibling.
Proof.
  unfold prepare_pos_add, to_pos, prepare_pos_var.
  set (s := match p with Some p => p | None => _ end).
  destruct (str_in s valid_pos_for_add_sibling); cbn [negb]; [|discriminate]. cbn [andb].
  destruct (str_in s valid_pos_for_sorted_add_sibling) eqn:E; cbn [negb andb]; [|discriminate].
  unfold str_in in E. simpl in E. apply orb_true_iff in E. destruct E as [E|E]; [|discriminate].
  apply String.eqb_eq in E. rewrite E. vm_compute. congruence.
Qed.

Lemma prepare_move_sorted p P : prepare_pos_move true p = Ok P -> P = SortedSibling \/ P = SortedChild.
Proof.
  unfold prepare_pos_move, to_pos, prepare_pos_var.
  set (s := match p with Some p => p | None => _ end).
  destruct (str_in s valid_pos_for_move); cbn [negb]; [|discriminate]. cbn [andb].
  destruct (str_in s valid_pos_for_sorted_move) eqn:E; cbn [negb andb]; [|discriminate].
  unfold str_in in E. simpl in E. rewrite !orb_true_iff in E. destruct E as [E|[E|E]]; [| |discriminate];
  apply String.eqb_eq in E; rewrite E; vm_compute; intros Eq; injection Eq as <-; auto.
Qed.

(* without node_order_by the sorted positions are refused *)
Lemma prepare_add_unsorted p P : prepare_pos_add false p = Ok P -> P <> SortedSibling.
Proof.
  unfold prepare_pos_add, to_pos, prepare_pos_var.
  set (s := match p with Some p => p | None => _ end).
  destruct (str_in s valid_pos_for_add_sibling); cbn [negb]; [|discriminate]. cbn [andb].
  destruct (str_in s valid_pos_for_sorted_add_sibling) eqn:E; cbn [negb andb]; [discriminate|].
  intros E1 ->. unfold str_in in E. simpl in E. rewrite orb_false_r in E.
  unfold pos_of_string in E1. rewrite E in E1.
  destruct (s =? "first-sibling")%string; [discriminate|]. destruct (s =? "left")%string; [discriminate|].
  destruct (s =? "right")%string; [discriminate|]. destruct (s =? "last-sibling")%string; [discriminate|].
  destruct (s =? "first-child")%string; [discriminate|]. destruct (s =? "last-child")%string; [discriminate|].
  destruct (s =? "sorted-child")%string; discriminate.
Qed.

Lemma prepare_move_unsorted p P : prepare_pos_move false p = Ok P -> P <> SortedSibling /\ P <> SortedChild.
Proof.
  unfold prepare_pos_move, to_pos, prepare_pos_var.
  set (s := match p with Some p => p | None => _ end).
  destruct (str_in s valid_pos_for_move); cbn [negb]; [|discriminate]. cbn [andb].
  destruct (str_in s valid_pos_for_sorted_move) eqn:E; cbn [negb andb]; [discriminate|].
  unfold str_in in E. simpl in E. rewrite orb_false_r in E. apply orb_false_iff in E. destruct E as [E0 E].
  unfold pos_of_string. rewrite E, E0.
  destruct (s =? "first-sibling")%string; [intros E1; injection E1 as <-; split; discriminate|].
  destruct (s =? "left")%string; [intros E1; injection E1 as <-; split; discriminate|].
  destruct (s =? "right")%string; [intros E1; injection E1 as <-; split; discriminate|].
  destruct (s =? "last-sibling")%string; [intros E1; injection E1 as <-; split; discriminate|].
  destruct (s =? "first-child")%string; [intros E1; injection E1 as <-; split; discriminate|].
  destruct (s =? "last-child")%string; [intros E1; injection E1 as <-; split; discriminate|discriminate].
Qed.

(** *** The ids after a call *)
Lemma ids_at_node p h f i : (forall l, In i (ids (h l)) -> In i (ids l) \/ In i (ids (h Nil))) ->
  In i (ids (at_node p h f)) -> In i (ids f) \/ In i (ids (h Nil)).
Proof.
  intros H. induction f as [|a k IHk r IHr]; cbn [at_node]; auto.
  destruct (nid a =? p); rewrite !ids_cons; simpl; rewrite !in_app_iff; intros [E|[E|E]]; auto.
  - apply H in E. tauto.
  - apply IHk in E. tauto.
  - apply IHr in E. tauto.
Qed.

Lemma ids_ins w t l i : In i (ids (ins w t l)) -> In i (ids l) \/ In i (ids t).
Proof.
  assert (Hb : forall P l, In i (ids (ins_before P t l)) -> In i (ids l) \/ In i (ids t)).
  { intros P l0. induction l0 as [|a k _ r IH]; cbn [ins_before]; auto. destruct (P a).
    - rewrite ids_fapp, in_app_iff. tauto.
    - rewrite !ids_cons. simpl. rewrite !in_app_iff. tauto. }
  assert (Ha : forall P l, In i (ids (ins_after P t l)) -> In i (ids l) \/ In i (ids t)).
  { intros P l0. induction l0 as [|a k _ r IH]; cbn [ins_after]; auto. destruct (P a).
    - rewrite !ids_cons, ids_fapp. simpl. rewrite !in_app_iff. tauto.
    - rewrite !ids_cons. simpl. rewrite !in_app_iff. tauto. }
  destruct w; cbn [ins]; [| |apply Hb|apply Ha|apply Hb]; rewrite ids_fapp, in_app_iff; tauto.
Qed.

Lemma ids_at_ins up w t f i : In i (ids (at_kids up (ins w t) f)) -> In i (ids f) \/ In i (ids t).
Proof.
  destruct up as [p|]; simpl at_kids; [|apply ids_ins].
  intros H. apply ids_at_node in H.
  - destruct H as [H|H]; auto. apply ids_ins in H. destruct H as [[]|H]; auto.
  - intros l Hl. apply ids_ins in Hl. destruct Hl as [Hl|Hl]; auto.
    right. clear - Hl. destruct w; cbn [ins ins_before ins_after]; auto; rewrite ids_fapp, in_app_iff; auto.
Qed.

Lemma subtree_ids s f i : In i (ids (subtree s f)) -> In i (ids f).
Proof.
  induction f as [|a k IHk r IHr]; cbn [subtree]; auto. rewrite ids_cons. simpl. rewrite in_app_iff.
  destruct (nid a =? s).
  - rewrite ids_cons. simpl. rewrite in_app_iff. simpl. tauto.
  - destruct (subtree s k); auto.
Qed.

Lemma remove_ids s f i : In i (ids (remove s f)) -> In i (ids f).
Proof.
  induction f as [|a k IHk r IHr]; cbn [remove]; auto. destruct (nid a =? s); rewrite !ids_cons; simpl;
    rewrite !in_app_iff; tauto.
Qed.

Lemma sp_call_ids o F c i : In i (ids (sp_call o F c)) -> In i (ids F) \/ In i (new_ids c).
Proof.
  destruct c as [x|p x|t p x|n t p|l]; simpl sp_call; simpl new_ids.
  - unfold sp_add_root. intros H. apply ids_ins in H. destruct H as [H|[H|[]]]; [left; exact H|right; left; exact H].
  - unfold sp_add_child. intros H. apply ids_at_ins in H. destruct H as [H|[H|[]]]; [left; exact H|right; left; exact H].
  - destruct (prepare_pos_add (sorts o) p) as [p0|]; auto. unfold sp_add_sibling.
    destruct (resolve t p0 (gt_of o (ndata x)) F) as [up w]. intros H. apply ids_at_ins in H. destruct H as [H|[H|[]]]; [left; exact H|right; left; exact H].
  - destruct (prepare_pos_move (sorts o) p) as [p0|]; auto. unfold sp_move.
    destruct (resolve t p0 (gt_of o (data_of n F)) F) as [up w]. destruct (place_is_self n w); auto.
    intros H. apply ids_at_ins in H. destruct H as [H|H]; [apply remove_ids in H|apply subtree_ids in H]; auto.
  - intros H. left. clear - H. induction F as [|a k IHk r IHr]; [auto|]. cbn [remove_all] in H.
    destruct (existsb (Nat.eqb (nid a)) l); rewrite ?ids_cons in *; simpl in *; rewrite in_app_iff in *; tauto.
Qed.

(** *** Sorted siblings *)
Lemma data_of_spec n F x : wf_ids F -> In x (preorder F) -> nid x = n -> data_of n F = ndata x.
Proof.
  intros W Hx <-. unfold data_of. destruct (find (fun a => nid a =? nid x) (preorder F)) as [y|] eqn:E.
  - apply find_some in E. destruct E as [Hy E]. apply Nat.eqb_eq in E.
    rewrite (NoDup_map_inj nid (preorder F) y x); auto.
  - apply (find_none _ _ E) in Hx. rewrite Nat.eqb_refl in Hx. discriminate.
Qed.

Theorem sp_call_ordered o F c : wf_ids F -> ordered o F -> (o <> [] -> call_values o c) ->
  ordered o (sp_call o F c).
Proof.
  intros W O V No. assert (Hs := proj2 (sorts_true o) No). specialize (V No).
  destruct (O No) as [S1 S2].
  destruct c as [x|p x|t p x|n t p|l]; simpl; unfold gt_opt; rewrite ?Hs; simpl in V.
  - apply sorted_add_root; auto.
  - apply sorted_add_child; auto.
  - destruct (prepare_pos_add true p) as [P|] eqn:E; auto.
    apply prepare_add_sorted in E. subst P. apply sorted_add_sibling; auto.
  - destruct (prepare_pos_move true p) as [P|] eqn:E; auto.
    apply prepare_move_sorted in E. apply sorted_move; auto.
    intros x Hx Ex. symmetry. apply data_of_spec; auto.
  - split; [apply sorted_remove_all|apply values_remove_all]; auto.
Qed.

Lemma sorted_kids o up F l : sorted_f o F -> values_f o F -> kids_of up F = Some l ->
  sorted_f o l /\ values_f o l.
Proof.
  destruct up as [p|]; simpl; [|intros ? ? E; injection E as <-; auto].
  induction F as [|a k IHk r IHr]; simpl; [discriminate|]. intros (S1 & S2 & S3) V E.
  apply values_cons in V. destruct V as (V1 & V2 & V3).
  destruct (nid a =? p); [injection E as <-; auto|].
  destruct (children_of p k) eqn:Ek; auto.
Qed.

Lemma siblings_sorted o s F : sorted_f o F -> values_f o F ->
  StronglySorted (not_after o) (siblings_of s F) /\
  Forall (fun a => has_values o (ndata a)) (siblings_of s F).
Proof.
  intros S V. unfold siblings_of. destruct (parent_of s F) as [up|]; [|split; constructor].
  destruct (kids_of up F) as [l|] eqn:E; [|split; constructor].
  destruct (sorted_kids o up F l S V E). split; [apply roots_sorted|apply roots_values]; auto.
Qed.

(** *** Running *)
Lemma run_app {St} (exec : St -> call -> res St) s a b :
  run exec s (a ++ b) = let (s1, d1) := run exec s a in let (s2, d2) := run exec s1 b in (s2, d1 ++ d2).
Proof.
  revert s. induction a as [|c a IH]; intros s; simpl.
  - destruct (run exec s b); auto.
  - destruct (exec s c) as [s'|e]; rewrite ?IH; auto.
    destruct (run exec s' a) as [s1 d1]. destruct (run exec s1 b). auto.
Qed.

(** *** Position arguments *)
Lemma prepare_var_err s v vs p e : prepare_pos_var s v vs p = Err e -> e = InvalidPosition \/ e = MissingNodeOrderBy.
Proof.
  unfold prepare_pos_var. set (x := match p with Some p => p | None => _ end).
  destruct (negb (str_in x v)); [intros E; injection E as <-; auto|].
  destruct (s && negb (str_in x vs)); [intros E; injection E as <-; auto|].
  destruct (str_in x vs && negb s); [intros E; injection E as <-; auto|discriminate].
Qed.

Lemma str_in_pos x : str_in x valid_pos_for_move = true -> exists P, pos_of_string x = Some P.
Proof.
  unfold str_in. simpl. rewrite !orb_true_iff.
  intros [E|[E|[E|[E|[E|[E|[E|[E|E]]]]]]]]; try discriminate; apply String.eqb_eq in E; subst x;
    vm_compute; eauto.
Qed.

Lemma str_in_add x : str_in x valid_pos_for_add_sibling = true -> str_in x valid_pos_for_move = true.
Proof. unfold str_in. simpl. rewrite !orb_true_iff. tauto. Qed.

Lemma prepare_var_in s v vs p x : prepare_pos_var s v vs p = Ok x -> str_in x v = true.
Proof.
  unfold prepare_pos_var. set (y := match p with Some p => p | None => _ end).
  destruct (str_in y v) eqn:E; cbn [negb]; [|discriminate].
  destruct (s && negb (str_in y vs)); [discriminate|].
  destruct (str_in y vs && negb s); [discriminate|]. congruence.
Qed.

Lemma prepare_add_err s p e : prepare_pos_add s p = Err e -> e = InvalidPosition \/ e = MissingNodeOrderBy.
Proof.
  unfold prepare_pos_add, to_pos. destruct (prepare_pos_var _ _ _ p) as [x|e'] eqn:E.
  - apply prepare_var_in, str_in_add, str_in_pos in E. destruct E as [P ->]. discriminate.
  - intros H. injection H as <-. apply prepare_var_err in E. auto.
Qed.

Lemma prepare_move_err s p e : prepare_pos_move s p = Err e -> e = InvalidPosition \/ e = MissingNodeOrderBy.
Proof.
  unfold prepare_pos_move, to_pos. destruct (prepare_pos_var _ _ _ p) as [x|e'] eqn:E.
  - apply prepare_var_in, str_in_pos in E. destruct E as [P ->]. discriminate.
  - intros H. injection H as <-. apply prepare_var_err in E. auto.
Qed.

Lemma prepare_add_sib s p P : prepare_pos_add s p = Ok P -> is_sib_pos P.
Proof.
  unfold prepare_pos_add, prepare_pos_var.
  set (x := match p with None => _ | Some p => p end).
  destruct (str_in x valid_pos_for_add_sibling) eqn:E; cbn [negb]; [|discriminate].
  destruct (s && negb (str_in x valid_pos_for_sorted_add_sibling)); [discriminate|].
  destruct (str_in x valid_pos_for_sorted_add_sibling && negb s); [discriminate|].
  cbn [to_pos]. unfold str_in in E. apply existsb_exists in E. destruct E as (y & Hy & Ey).
  apply String.eqb_eq in Ey. rewrite Ey. simpl in Hy.
  repeat (destruct Hy as [<-|Hy]; [simpl; intros E; injection E as <-; exact I|]). destruct Hy.
Qed.

(** ** The forest as a machine of its own: every call with its outcome *)
Definition has (n : nat) (F : forest node) : bool := existsb (Nat.eqb n) (ids F).

Definition insideb (F : forest node) (n t : nat) (P : pos) : bool :=
  (match children_of n F with Some l => has t l | None => false end) || ((n =? t) && is_child_pos P).

(** The nodes are looked up first, then the position is checked, then the target. *)
Definition sp_exec (o : ordering) (F : forest node) (c : call) : res (forest node) :=
  match c with
  | CAddRoot _ | CDelete _ => Ok (sp_call o F c)
  | CAddChild p _ => if has p F then Ok (sp_call o F c) else Err DoesNotExist
  | CAddSibling t p _ =>
      if has t F then do P <- prepare_pos_add (sorts o) p; Ok (sp_call o F c) else Err DoesNotExist
  | CMove n t p =>
      if has n F && has t F then
        do P <- prepare_pos_move (sorts o) p;
        if insideb F n t P then Err InvalidMoveToDescendant else Ok (sp_call o F c)
      else Err DoesNotExist
  end.

(** Same outcome, related states. *)
Definition agree {St} (R : St -> forest node -> Prop) (x : res St) (y : res (forest node)) : Prop :=
  match x, y with
  | Ok s, Ok F => R s F
  | Err e, Err e' => e = e'
  | _, _ => False
  end.

(** The primary keys of the new nodes are unused. *)
Definition fresh_call (F : forest node) (c : call) : Prop := forall i, In i (new_ids c) -> ~ In i (ids F).

Lemma has_spec n F : has n F = true <-> In n (ids F).
Proof.
  unfold has. rewrite existsb_exists. split.
  - intros (x & Hx & E). apply Nat.eqb_eq in E. subst. auto.
  - intros H. exists n. rewrite Nat.eqb_refl. auto.
Qed.

Lemma has_false n F : has n F = false <-> ~ In n (ids F).
Proof. rewrite <- has_spec. destruct (has n F); split; congruence. Qed.

Lemma insideb_spec F n t P : insideb F n t P = true <-> inside F n t P.
Proof.
  unfold insideb, inside, descends. rewrite orb_true_iff, andb_true_iff, Nat.eqb_eq.
  destruct (children_of n F) as [l|].
  - rewrite has_spec. split; intros [H|H]; auto.
    + left. exists l. auto.
    + destruct H as (l' & E & H). injection E as <-. auto.
  - split; intros [H|H]; auto; [discriminate|]. destruct H as (l' & E & _). discriminate.
Qed.

Lemma insideb_false F n t P : insideb F n t P = false <-> ~ inside F n t P.
Proof. rewrite <- insideb_spec. destruct (insideb F n t P); split; congruence. Qed.

Lemma sp_exec_ok o F c F' : sp_exec o F c = Ok F' -> F' = sp_call o F c.
Proof.
  destruct c as [x|p x|t p x|n t p|l]; cbn [sp_exec]; try congruence.
  - destruct (has p F); congruence.
  - destruct (has t F); [|discriminate]. destruct (prepare_pos_add (sorts o) p); cbn [bind]; congruence.
  - destruct (has n F && has t F); [|discriminate]. destruct (prepare_pos_move (sorts o) p); cbn [bind]; [|discriminate].
    destruct (insideb F n t a); congruence.
Qed.

(** An implementation that agrees on every call agrees on every history. *)
Section Sim.
Variables (St : Type) (exec : St -> call -> res St) (o : ordering).
Variable R : St -> forest node -> Prop.
Variable good : call -> Prop.
Hypothesis step : forall s F c, R s F -> fresh_call F c -> good c -> agree R (exec s c) (sp_exec o F c).

Theorem sim cs : forall s F, R s F -> Forall good cs ->
  NoDup (flat_map new_ids cs) -> (forall i, In i (flat_map new_ids cs) -> ~ In i (ids F)) ->
  let (s', done) := run exec s cs in let (F', done') := run (sp_exec o) F cs in done = done' /\ R s' F'.
Proof.
  induction cs as [|c cs IH]; intros s F HR G ND Fr; [simpl; auto|].
  cbn [flat_map] in ND, Fr. apply NoDup_app_iff in ND. destruct ND as (ND1 & ND2 & ND3).
  inversion G; subst.
  assert (Hc := step s F c HR (fun i Hi => Fr i (proj2 (in_app_iff _ _ _) (or_introl Hi))) H1).
  cbn [run]. destruct (exec s c) as [s1|e], (sp_exec o F c) as [F1|e'] eqn:E1; cbn [agree] in Hc; try tauto.
  - assert (Fr1 : forall i, In i (flat_map new_ids cs) -> ~ In i (ids F1)).
    { intros i Hi Hin. apply sp_exec_ok in E1. subst F1. apply sp_call_ids in Hin. destruct Hin as [Hin|Hin].
      - apply (Fr i); auto. apply in_app_iff; auto.
      - apply (ND3 i); auto. }
    specialize (IH s1 F1 Hc H2 ND2 Fr1). destruct (run exec s1 cs), (run (sp_exec o) F1 cs).
    destruct IH as [-> IH]. auto.
  - apply IH; auto. intros i Hi. apply Fr, in_app_iff. auto.
Qed.
End Sim.
