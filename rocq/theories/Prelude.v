(** General list facts, the result type used by all models, and the few
    "database" primitives (ORDER BY as a sort, prefix tests on paths). *)
From Coq Require Import List Arith Lia Bool Permutation Sorted ZArith.
Import ListNotations.
Set Implicit Arguments.

(** Exceptions that a treebeard call can raise.
    /repo/treebeard/exceptions.py:4-30 plus the Django / Python exceptions
    ValueError, KeyError, IntegrityError and DoesNotExist. *)
Inductive exn :=
| InvalidPosition | MissingNodeOrderBy | InvalidMoveToDescendant | PathOverflow
| NodeAlreadySaved | InvalidLabelConstraints
| ValueError | KeyError | IntegrityError | DoesNotExist | AttributeError | IndexError
| DataError | FieldError | TypeError
| OutOfFuel. (* never a real outcome: marks an exhausted recursion budget *)

(** A call either returns or raises. *)
Inductive res (A : Type) := Ok (a : A) | Err (e : exn).
Arguments Ok {A} _.
Arguments Err {A} _.

Definition bind {A B} (x : res A) (f : A -> res B) : res B :=
  match x with Ok a => f a | Err e => Err e end.

Notation "'do' x <- e1 ; e2" := (bind e1 (fun x => e2))
  (at level 200, x name, e1 at level 100, e2 at level 200, right associativity).
Notation "'do' ' p <- e1 ; e2" := (bind e1 (fun p => e2))
  (at level 200, p strict pattern, e1 at level 100, e2 at level 200, right associativity).

Definition is_ok {A} (x : res A) : bool := match x with Ok _ => true | Err _ => false end.

(** The columns of a node that the library does not interpret, except for
    sorting.  A column value is an integer or NULL (simplification: one value
    type; the library only uses equality and the order of values). *)
Definition fields := list (option Z).

(** What the user calls "a node": its primary key and its own columns. *)
Record node := mkNode { nid : nat; ndata : fields }.

Section ListFacts.
Variables A B : Type.

Lemma filter_all (P : A -> bool) l : (forall x, In x l -> P x = true) -> filter P l = l.
Proof.
  induction l as [|x l IH]; simpl; intros H; auto.
  rewrite H by auto. f_equal; auto.
Qed.

Lemma filter_none (P : A -> bool) l : (forall x, In x l -> P x = false) -> filter P l = [].
Proof.
  induction l as [|x l IH]; simpl; intros H; auto.
  rewrite H by auto. auto.
Qed.

Lemma filter_ext_In (P Q : A -> bool) l :
  (forall x, In x l -> P x = Q x) -> filter P l = filter Q l.
Proof.
  induction l as [|x l IH]; simpl; intros H; auto.
  rewrite (H x) by auto. rewrite IH by auto. reflexivity.
Qed.

Lemma filter_map (f : A -> B) (P : B -> bool) l :
  filter P (map f l) = map f (filter (fun x => P (f x)) l).
Proof.
  induction l as [|x l IH]; simpl; auto. destruct (P (f x)); simpl; rewrite IH; auto.
Qed.

Lemma filter_filter (P Q : A -> bool) l :
  filter P (filter Q l) = filter (fun x => Q x && P x) l.
Proof.
  induction l as [|x l IH]; simpl; auto.
  destruct (Q x) eqn:E; simpl; rewrite ?IH; destruct (P x); auto.
Qed.

Lemma Permutation_filter (P : A -> bool) l l' :
  Permutation l l' -> Permutation (filter P l) (filter P l').
Proof.
  induction 1; simpl; auto.
  - destruct (P x); auto.
  - destruct (P x), (P y); auto. apply perm_swap.
  - etransitivity; eauto.
Qed.

Lemma Permutation_filter_split (P : A -> bool) l :
  Permutation l (filter P l ++ filter (fun x => negb (P x)) l).
Proof.
  induction l as [|x l IH]; simpl; auto.
  destruct (P x); simpl; auto. apply Permutation_cons_app; auto.
Qed.

Lemma existsb_false (P : A -> bool) l :
  existsb P l = false <-> forall x, In x l -> P x = false.
Proof.
  split.
  - intros H x Hx. destruct (P x) eqn:E; auto.
    assert (existsb P l = true) by (apply existsb_exists; eauto). congruence.
  - intros H. destruct (existsb P l) eqn:E; auto.
    apply existsb_exists in E. destruct E as [x [Hx Px]]. rewrite H in Px; auto.
Qed.

Lemma Permutation_existsb (P : A -> bool) l l' :
  Permutation l l' -> existsb P l = existsb P l'.
Proof.
  induction 1; simpl; auto; try congruence.
  destruct (P x), (P y); auto.
Qed.

Lemma Permutation_forallb (P : A -> bool) l l' :
  Permutation l l' -> forallb P l = forallb P l'.
Proof.
  induction 1; simpl; auto; try congruence.
  destruct (P x), (P y); auto.
Qed.

Lemma NoDup_map_inj (f : A -> B) l x y :
  NoDup (map f l) -> In x l -> In y l -> f x = f y -> x = y.
Proof.
  induction l as [|z l IH]; simpl; intros ND Hx Hy E; [tauto|].
  inversion ND; subst.
  destruct Hx as [->|Hx], Hy as [->|Hy]; auto.
  - exfalso. apply H1. rewrite E. apply in_map; auto.
  - exfalso. apply H1. rewrite <- E. apply in_map; auto.
Qed.

Lemma NoDup_app_iff (l1 l2 : list A) :
  NoDup (l1 ++ l2) <-> NoDup l1 /\ NoDup l2 /\ (forall x, In x l1 -> In x l2 -> False).
Proof.
  induction l1 as [|x l1 IH]; simpl.
  - split; [intros H|intros [_ [H _]]]; auto. repeat split; auto. constructor.
  - split.
    + intros H. inversion H; subst. apply IH in H3. destruct H3 as [H3 [H4 H5]].
      rewrite in_app_iff in H2. repeat split; auto.
      * constructor; auto.
      * intros y [->|Hy] Hy2; eauto.
    + intros [H [H1 H2]]. inversion H; subst. constructor.
      * rewrite in_app_iff. intros [?|?]; eauto.
      * apply IH. repeat split; eauto.
Qed.

Lemma last_app_cons (l : list A) x d : last (l ++ [x]) d = x.
Proof. induction l as [|y [|z l] IH]; simpl in *; auto. Qed.

End ListFacts.

(** [last_opt]: QuerySet.last(); [hd_error] is QuerySet.first(). *)
Definition last_opt {A} (l : list A) : option A := hd_error (rev l).

Lemma last_opt_app {A} (l : list A) x : last_opt (l ++ [x]) = Some x.
Proof. unfold last_opt. rewrite rev_app_distr. reflexivity. Qed.

Lemma last_opt_map {A B} (g : A -> B) l : last_opt (map g l) = option_map g (last_opt l).
Proof. unfold last_opt. rewrite <- map_rev. destruct (rev l); reflexivity. Qed.

Lemma last_opt_cons {A} (x y : A) l : last_opt (x :: y :: l) = last_opt (y :: l).
Proof.
  unfold last_opt. cbn [rev]. destruct (rev l ++ [y]) as [|z l'] eqn:E; auto.
  destruct (rev l); discriminate.
Qed.

Lemma last_opt_None {A} (l : list A) : last_opt l = None -> l = [].
Proof.
  unfold last_opt. intros H. destruct (rev l) eqn:E; [|discriminate].
  rewrite <- (rev_involutive l), E. reflexivity.
Qed.

Lemma last_opt_Some {A} (l : list A) x : last_opt l = Some x -> exists l', l = l' ++ [x].
Proof.
  unfold last_opt. intros H. destruct (rev l) as [|y l'] eqn:E; [discriminate|].
  simpl in H. inversion H; subst. exists (rev l').
  rewrite <- (rev_involutive l), E. reflexivity.
Qed.

Lemma filter_length_le {A} (P : A -> bool) l : length (filter P l) <= length l.
Proof. induction l as [|x l IH]; simpl; auto. destruct (P x); simpl; lia. Qed.

Lemma filter_negb_length {A} (P : A -> bool) l :
  length (filter (fun x => negb (P x)) l) = length l - length (filter P l).
Proof.
  induction l as [|x l IH]; auto. cbn [filter length]. assert (H := filter_length_le P l).
  destruct (P x); cbn [negb length]; rewrite IH; [rewrite Nat.sub_succ; auto|lia].
Qed.

Lemma hd_error_map {A B} (g : A -> B) l : hd_error (map g l) = option_map g (hd_error l).
Proof. destruct l; reflexivity. Qed.

(** ORDER BY: insertion sort with a boolean "not after" test (stable). *)
Section Sort.
Variable A : Type.
Variable le : A -> A -> bool.

Fixpoint insert (x : A) (l : list A) : list A :=
  match l with
  | [] => [x]
  | y :: l' => if le x y then x :: l else y :: insert x l'
  end.

Fixpoint isort (l : list A) : list A :=
  match l with [] => [] | x :: l' => insert x (isort l') end.

Lemma insert_perm x l : Permutation (insert x l) (x :: l).
Proof.
  induction l as [|y l IH]; simpl; auto.
  destruct (le x y); auto.
  rewrite IH. apply perm_swap.
Qed.

Lemma isort_perm l : Permutation (isort l) l.
Proof.
  induction l as [|x l IH]; simpl; auto.
  rewrite insert_perm, IH. reflexivity.
Qed.

End Sort.

Lemma insert_comm {A} (le : A -> A -> bool) (x y : A) l :
  (forall a b c, In a (x :: y :: l) -> In b (x :: y :: l) -> In c (x :: y :: l) ->
     le a b = true -> le b c = true -> le a c = true) ->
  (forall a b, In a (x :: y :: l) -> In b (x :: y :: l) -> le a b = false -> le b a = true) ->
  (forall a b, In a (x :: y :: l) -> In b (x :: y :: l) ->
     le a b = true -> le b a = true -> a = b) ->
  insert le x (insert le y l) = insert le y (insert le x l).
Proof.
  induction l as [|z l IH]; intros tr tot anti; simpl.
  - destruct (le x y) eqn:E1, (le y x) eqn:E2; auto.
    + rewrite (anti x y); auto; simpl; auto.
    + apply tot in E1; simpl; auto. congruence.
  - destruct (le y z) eqn:Eyz, (le x z) eqn:Exz; simpl; rewrite ?Eyz, ?Exz; simpl.
    + destruct (le x y) eqn:E1, (le y x) eqn:E2; auto.
      * rewrite (anti x y); auto; simpl; auto.
      * apply tot in E1; simpl; auto. congruence.
    + destruct (le x y) eqn:E1; auto.
      rewrite (tr x y z) in Exz; simpl; auto; discriminate.
    + destruct (le y x) eqn:E1; auto.
      rewrite (tr y x z) in Eyz; simpl; auto; discriminate.
    + f_equal. apply IH.
      * intros; eapply (tr a b c); simpl in *; intuition.
      * intros; eapply tot; simpl in *; intuition.
      * intros; eapply anti; simpl in *; intuition.
Qed.

(** For a strict total order on a key, sorting any permutation of a strictly
    sorted list gives that list. *)
Section SortKey.
Variables A K : Type.
Variable key : A -> K.
Variable lt : K -> K -> Prop.
Variable ltb : K -> K -> bool.
Hypothesis ltb_spec : forall x y, ltb x y = true <-> lt x y.
Hypothesis lt_irr : forall x, ~ lt x x.
Hypothesis lt_trans : forall x y z, lt x y -> lt y z -> lt x z.

Definition le_key (x y : A) : bool := negb (ltb (key y) (key x)).

Lemma insert_hd x l :
  Forall (fun y => lt (key x) (key y)) l -> insert le_key x l = x :: l.
Proof.
  destruct l as [|y l]; simpl; auto. intros H. inversion H; subst.
  unfold le_key. destruct (ltb (key y) (key x)) eqn:E; simpl; auto.
  apply ltb_spec in E. exfalso. eapply lt_irr. eapply lt_trans; eauto.
Qed.

Lemma insert_sorted_mid l1 x l2 :
  Forall (fun y => lt (key y) (key x)) l1 ->
  Forall (fun y => lt (key x) (key y)) l2 ->
  insert le_key x (l1 ++ l2) = l1 ++ x :: l2.
Proof.
  induction l1 as [|y l1 IH]; simpl; intros H1 H2.
  - apply insert_hd; auto.
  - inversion H1; subst. unfold le_key at 1.
    assert (ltb (key y) (key x) = true) as -> by (apply ltb_spec; auto). simpl.
    f_equal; auto.
Qed.

Definition ssorted (l : list A) := StronglySorted (fun x y => lt (key x) (key y)) l.

Lemma ssorted_app l1 l2 :
  ssorted (l1 ++ l2) <->
  ssorted l1 /\ ssorted l2 /\ (forall x y, In x l1 -> In y l2 -> lt (key x) (key y)).
Proof.
  unfold ssorted. induction l1 as [|x l1 IH]; simpl.
  - split; [intros H; repeat split; auto; try constructor; tauto | tauto].
  - split.
    + intros H. inversion H; subst. apply IH in H2. destruct H2 as [H2 [H4 H5]].
      rewrite Forall_app in H3. destruct H3 as [H6 H7]. repeat split; auto.
      * constructor; auto.
      * intros a b [->|Ha] Hb; auto. rewrite Forall_forall in H7; auto.
    + intros [H1 [H2 H3]]. inversion H1; subst. constructor.
      * apply IH. repeat split; auto.
      * apply Forall_app. split; auto. apply Forall_forall. auto.
Qed.

Lemma isort_unique s l : ssorted s -> Permutation l s -> isort le_key l = s.
Proof.
  revert s. induction l as [|x l IH]; intros s Hs Hp.
  - apply Permutation_nil in Hp. subst; auto.
  - assert (Hin : In x s) by (eapply Permutation_in; [apply Hp|simpl; auto]).
    apply in_split in Hin. destruct Hin as [s1 [s2 ->]].
    apply Permutation_cons_app_inv in Hp.
    apply ssorted_app in Hs. destruct Hs as [H1 [H2 H3]].
    unfold ssorted in H2. apply StronglySorted_inv in H2. destruct H2 as [H2 H4].
    simpl. rewrite (IH (s1 ++ s2)); auto.
    + apply insert_sorted_mid; auto. apply Forall_forall. intros; apply H3; simpl; auto.
    + apply ssorted_app. repeat split; auto. intros; apply H3; simpl; auto.
Qed.

Lemma ssorted_NoDup s : ssorted s -> NoDup (map key s).
Proof.
  induction s as [|x s IH]; simpl; intros H; [constructor|].
  apply StronglySorted_inv in H. destruct H as [H1 H2].
  constructor; auto. rewrite in_map_iff. intros [y [E Hy]].
  rewrite Forall_forall in H2. specialize (H2 _ Hy). rewrite E in H2. eapply lt_irr; eauto.
Qed.

Lemma ssorted_filter P s : ssorted s -> ssorted (filter P s).
Proof.
  induction s as [|x s IH]; simpl; intros H; auto.
  apply StronglySorted_inv in H. destruct H as [H1 H2].
  destruct (P x); auto. constructor; [apply IH; auto|].
  apply Forall_forall. intros y Hy. apply filter_In in Hy.
  rewrite Forall_forall in H2. apply H2; tauto.
Qed.

End SortKey.
