(** Tables whose rows are addressed by paths: the layout of a forest whose
    sibling lists carry strictly increasing path segments of one fixed width.
    Used for materialized paths (a segment is an encoded step) and for ltree
    (a segment is one label).  This file is proof infrastructure only; it does
    not model any treebeard code. *)
From Coq Require Import List Arith Lia Bool Permutation Sorted.
From Verif Require Import Prelude Forest.
Import ListNotations.
Set Implicit Arguments.

(** ** Lexicographic order and prefixes of lists *)
Section Lex.
Variable C : Type.
Variable ltb : C -> C -> bool.

(** String comparison "less than" (SQL text comparison, Python str <). *)
Fixpoint llt (a b : list C) : bool :=
  match a, b with
  | _, [] => false
  | [], _ :: _ => true
  | x :: a, y :: b => ltb x y || (negb (ltb y x) && llt a b)
  end.

Definition ceq (x y : C) : bool := negb (ltb x y) && negb (ltb y x).

(** [strip p l]: the rest of [l] after the prefix [p]. *)
Fixpoint strip (p l : list C) : option (list C) :=
  match p, l with
  | [], l => Some l
  | _ :: _, [] => None
  | x :: p, y :: l => if ceq x y then strip p l else None
  end.

(** Python str.startswith / SQL LIKE 'p%'. *)
Definition prefixb (p l : list C) : bool :=
  match strip p l with Some _ => true | None => false end.

Definition leq (a b : list C) : bool := negb (llt a b) && negb (llt b a).

Hypothesis ltb_irr : forall x, ltb x x = false.
Hypothesis ltb_tr : forall x y z, ltb x y = true -> ltb y z = true -> ltb x z = true.
Hypothesis ltb_tot : forall x y, ltb x y = false -> ltb y x = false -> x = y.

Lemma ltb_asym x y : ltb x y = true -> ltb y x = false.
Proof.
  intros H. destruct (ltb y x) eqn:E; auto. rewrite <- (ltb_irr x). symmetry. eauto.
Qed.

Lemma ceq_iff x y : ceq x y = true <-> x = y.
Proof.
  unfold ceq. rewrite andb_true_iff, !negb_true_iff. split.
  - intros [? ?]; auto.
  - intros ->. auto.
Qed.

Lemma llt_irr a : llt a a = false.
Proof. induction a as [|x a IH]; simpl; auto. rewrite ltb_irr, IH. auto. Qed.

Lemma llt_trans a : forall b c, llt a b = true -> llt b c = true -> llt a c = true.
Proof.
  induction a as [|x a IH]; intros [|y b] [|z c]; simpl; auto; try discriminate.
  rewrite !orb_true_iff, !andb_true_iff, !negb_true_iff.
  intros [H1|[H1 H2]] [H3|[H3 H4]].
  - left; eauto.
  - left. destruct (ltb y z) eqn:E; [eauto|]. rewrite <- (@ltb_tot y z); auto.
  - left. destruct (ltb x y) eqn:E; [eauto|]. rewrite (@ltb_tot x y); auto.
  - destruct (ltb x z) eqn:E; auto. right. split; [|eauto].
    destruct (ltb z x) eqn:E2; auto.
    destruct (ltb x y) eqn:E3.
    + assert (ltb z y = true) by eauto. congruence.
    + assert (x = y) by auto. subst. destruct (ltb y z) eqn:E4; try congruence.
Qed.

Lemma llt_total a : forall b, llt a b = false -> llt b a = false -> a = b.
Proof.
  induction a as [|x a IH]; intros [|y b]; simpl; auto; try discriminate.
  rewrite !orb_false_iff, !andb_false_iff, !negb_false_iff.
  intros [H1 H2] [H3 H4]. assert (x = y) by auto. subst. f_equal. rewrite ltb_irr in *.
  apply IH; [destruct H2|destruct H4]; auto; congruence.
Qed.

Lemma llt_asym a b : llt a b = true -> llt b a = false.
Proof.
  intros H. destruct (llt b a) eqn:E; auto. rewrite <- (llt_irr a). symmetry.
  eapply llt_trans; eauto.
Qed.

Lemma leq_iff a b : leq a b = true <-> a = b.
Proof.
  unfold leq. rewrite andb_true_iff, !negb_true_iff. split.
  - intros [? ?]. apply llt_total; auto.
  - intros ->. rewrite llt_irr. auto.
Qed.

Lemma leq_refl a : leq a a = true.
Proof. apply leq_iff; auto. Qed.

Lemma leq_false a b : leq a b = false <-> a <> b.
Proof.
  rewrite <- leq_iff. destruct (leq a b); split; intros H; auto; try discriminate; congruence.
Qed.

Lemma llt_pre p a b : llt (p ++ a) (p ++ b) = llt a b.
Proof. induction p as [|x p IH]; simpl; auto. rewrite ltb_irr, IH. auto. Qed.

Lemma llt_self_app p b : b <> [] -> llt p (p ++ b) = true.
Proof.
  intros H. rewrite <- (app_nil_r p) at 1. rewrite llt_pre. destruct b; [congruence|auto].
Qed.

Lemma llt_app_l p b : llt (p ++ b) p = false.
Proof.
  rewrite <- (app_nil_r p) at 2. rewrite llt_pre. destruct b; auto.
Qed.

Lemma llt_fix s : forall t x y, length s = length t -> llt s t = true -> llt (s ++ x) (t ++ y) = true.
Proof.
  induction s as [|c s IH]; intros [|d t] x y L H; simpl in *; try discriminate.
  rewrite orb_true_iff, andb_true_iff in *. destruct H as [H|[H1 H2]]; auto.
Qed.

Lemma strip_iff p : forall l x, strip p l = Some x <-> l = p ++ x.
Proof.
  induction p as [|c p IH]; intros l x; simpl.
  - split; congruence.
  - destruct l as [|d l]; simpl.
    + split; discriminate.
    + destruct (ceq c d) eqn:E.
      * rewrite IH. apply ceq_iff in E. subst. split; congruence.
      * split; [discriminate|]. intros H. injection H as <- H.
        assert (ceq d d = true) by (apply ceq_iff; auto). congruence.
Qed.

Lemma prefixb_iff p l : prefixb p l = true <-> exists x, l = p ++ x.
Proof.
  unfold prefixb. destruct (strip p l) as [x|] eqn:E.
  - apply strip_iff in E. split; eauto.
  - split; [discriminate|]. intros [x H]. apply strip_iff in H. congruence.
Qed.

Lemma prefixb_app p x : prefixb p (p ++ x) = true.
Proof. apply prefixb_iff; eauto. Qed.

Lemma prefixb_refl p : prefixb p p = true.
Proof. apply prefixb_iff. exists []. rewrite app_nil_r; auto. Qed.

Lemma prefixb_false p l : prefixb p l = false <-> forall x, l <> p ++ x.
Proof.
  split.
  - intros H x E. rewrite E, prefixb_app in H. discriminate.
  - intros H. destruct (prefixb p l) eqn:E; auto. apply prefixb_iff in E.
    destruct E as [x E]. exfalso. eapply H; eauto.
Qed.

Lemma prefixb_pre p q l : prefixb (p ++ q) (p ++ l) = prefixb q l.
Proof.
  destruct (prefixb q l) eqn:E.
  - apply prefixb_iff in E. destruct E as [x ->]. apply prefixb_iff. exists x. apply app_assoc.
  - apply prefixb_false. intros x H. rewrite <- app_assoc in H. apply app_inv_head in H.
    rewrite prefixb_false in E. eapply E; eauto.
Qed.

Lemma prefixb_trans p q l : prefixb p q = true -> prefixb q l = true -> prefixb p l = true.
Proof.
  rewrite !prefixb_iff. intros [x ->] [y ->]. exists (x ++ y). rewrite app_assoc; auto.
Qed.

End Lex.

Lemma app_eq_len {A} (a b x y : list A) : length a = length b -> a ++ x = b ++ y -> a = b /\ x = y.
Proof.
  revert b. induction a as [|c a IH]; intros [|d b] L E; simpl in *; try discriminate; auto.
  injection E as <- E. injection L as L. destruct (IH _ L E) as [-> ->]. auto.
Qed.

Section PathTab.
Variable C : Type.
Variable ltb : C -> C -> bool.
Variable w : nat.
Variable A : Type.
Hypothesis ltb_irr : forall x, ltb x x = false.
Hypothesis ltb_tr : forall x y z, ltb x y = true -> ltb y z = true -> ltb x z = true.
Hypothesis ltb_tot : forall x y, ltb x y = false -> ltb y x = false -> x = y.
Hypothesis wpos : 0 < w.

Notation path := (list C).
Notation row := (list C * A)%type.
Notation kforest := (forest (list C * A)).
Notation lt := (llt ltb).
Notation isprefix := (prefixb ltb).

Definition pre (s : path) (r : row) : row := (s ++ fst r, snd r).

(** The rows of a keyed forest in depth-first order. *)
Fixpoint rows (f : kforest) : list row :=
  match f with
  | Nil => []
  | Cons sa k r => sa :: map (pre (fst sa)) (rows k) ++ rows r
  end.

(** Segments have width [w] and increase strictly in every sibling list. *)
Fixpoint pwf (f : kforest) : Prop :=
  match f with
  | Nil => True
  | Cons sa k r =>
      length (fst sa) = w /\ pwf k /\ pwf r /\
      Forall (fun x => lt (fst sa) (fst x) = true) (roots r)
  end.

Definition psorted (l : list row) := ssorted fst (fun a b => lt a b = true) l.

Lemma psorted_eq l l' : psorted l -> psorted l' -> Permutation l l' -> l = l'.
Proof.
  intros H1 H2 P.
  rewrite <- (@isort_unique _ _ fst (fun a b => lt a b = true) lt) with (l := l') (s := l'); auto.
  - symmetry. apply isort_unique with (lt := fun a b => lt a b = true); auto.
    + tauto.
    + intros x. rewrite llt_irr; auto.
    + intros x y z. apply llt_trans; auto.
    + symmetry; auto.
  - tauto.
  - intros x. rewrite llt_irr; auto.
  - intros x y z. apply llt_trans; auto.
Qed.

Lemma pre_app s t r : pre s (pre t r) = pre (s ++ t) r.
Proof. unfold pre. simpl. rewrite app_assoc. auto. Qed.

Lemma map_pre_app s t l : map (pre s) (map (pre t) l) = map (pre (s ++ t)) l.
Proof. rewrite map_map. apply map_ext. intros. apply pre_app. Qed.

Lemma map_pre_nil l : map (pre []) l = l.
Proof. rewrite <- (map_id l) at 2. apply map_ext. intros [p a]. auto. Qed.

Lemma rows_fapp f g : rows (fapp f g) = rows f ++ rows g.
Proof. induction f; simpl; auto. rewrite IHf2, app_assoc. auto. Qed.

Lemma rows_snd f : map snd (rows f) = map snd (preorder f).
Proof.
  induction f as [|sa k IHk r IHr]; simpl; auto.
  rewrite !map_app, map_map. simpl.
  change (map (fun x => snd x) (rows k)) with (map snd (rows k)). rewrite IHk, IHr. auto.
Qed.

(** Every row lies under one of the top segments. *)
Lemma rows_top f r : In r (rows f) -> exists sa, In sa (roots f) /\ exists x, fst r = fst sa ++ x.
Proof.
  induction f as [|sa k IHk rr IHr]; simpl; [tauto|].
  intros [<-|H].
  - exists sa. split; auto. exists []. rewrite app_nil_r. auto.
  - apply in_app_iff in H. destruct H as [H|H].
    + apply in_map_iff in H. destruct H as [y [<- Hy]]. exists sa. split; auto. simpl. eauto.
    + destruct (IHr H) as [sb [H1 H2]]. exists sb. auto.
Qed.

Lemma roots_len f sa : pwf f -> In sa (roots f) -> length (fst sa) = w.
Proof.
  induction f as [|sb k IHk rr IHr]; simpl; [tauto|].
  intros (H1 & H2 & H3 & H4) [<-|H]; auto.
Qed.

Lemma rows_len f r : pwf f -> In r (rows f) -> exists n, length (fst r) = S n * w.
Proof.
  revert r. induction f as [|sb k IHk rr IHr]; simpl; [tauto|].
  intros r (H1 & H2 & H3 & H4) [<-|H].
  - exists 0. simpl. lia.
  - apply in_app_iff in H. destruct H as [H|H]; auto.
    apply in_map_iff in H. destruct H as [y [<- Hy]].
    destruct (IHk _ H2 Hy) as [n E]. exists (S n). unfold pre. simpl. rewrite app_length. simpl in *. lia.
Qed.

Lemma rows_nonempty f r : pwf f -> In r (rows f) -> fst r <> [].
Proof.
  intros H Hr. destruct (rows_len _ _ H Hr) as [n E]. destruct (fst r); simpl in *; [lia|congruence].
Qed.

Lemma psorted_map_pre s l : psorted l -> psorted (map (pre s) l).
Proof.
  unfold psorted, ssorted. induction 1; simpl; constructor; auto.
  apply Forall_forall. intros y Hy. apply in_map_iff in Hy. destruct Hy as [z [<- Hz]].
  rewrite Forall_forall in H0. simpl. rewrite llt_pre; auto.
Qed.

Lemma psorted_app l1 l2 : psorted (l1 ++ l2) <->
  psorted l1 /\ psorted l2 /\ (forall x y, In x l1 -> In y l2 -> lt (fst x) (fst y) = true).
Proof. apply ssorted_app. Qed.

Lemma rows_sorted f : pwf f -> psorted (rows f).
Proof.
  induction f as [|sa k IHk rr IHr]; simpl; intros H; [constructor|].
  destruct H as (H1 & H2 & H3 & H4).
  constructor.
  - apply psorted_app. split; [apply psorted_map_pre; auto|]. split; auto.
    intros x y Hx Hy. apply in_map_iff in Hx. destruct Hx as [z [<- Hz]].
    destruct (rows_top _ _ Hy) as [sb [Hb [u E]]]. simpl. rewrite E.
    rewrite Forall_forall in H4. apply llt_fix; auto.
    rewrite H1. symmetry. apply roots_len with rr; auto.
  - apply Forall_forall. intros y Hy. apply in_app_iff in Hy. destruct Hy as [Hy|Hy].
    + apply in_map_iff in Hy. destruct Hy as [z [<- Hz]]. simpl.
      apply llt_self_app; auto. apply rows_nonempty with k; auto.
    + destruct (rows_top _ _ Hy) as [sb [Hb [u E]]]. rewrite E.
      rewrite Forall_forall in H4. rewrite <- (app_nil_r (fst sa)). apply llt_fix; auto.
      rewrite H1. symmetry. apply roots_len with rr; auto.
Qed.

Lemma rows_NoDup f : pwf f -> NoDup (map fst (rows f)).
Proof.
  intros H. eapply ssorted_NoDup; [|apply rows_sorted; auto].
  intros x. simpl. rewrite llt_irr; auto.
Qed.

Lemma rows_inj f p a b : pwf f -> In (p, a) (rows f) -> In (p, b) (rows f) -> a = b.
Proof.
  intros H H1 H2. assert (E : (p, a) = (p, b)); [|congruence].
  apply NoDup_map_inj with (f := fst) (l := rows f); auto. apply rows_NoDup; auto.
Qed.

(** ** Contexts *)

(** [At q pa l l' f f']: [f] and [f'] agree except that the sibling list below
    path [q] is [l] in [f] and [l'] in [f'], and the payload of the node at [q]
    is [a] in [f] and [a'] in [f'] when [pa = Some (a, a')] ([pa = None] for the
    top level). *)
Inductive At : path -> option (A * A) -> kforest -> kforest -> kforest -> kforest -> Prop :=
| At_top l l' : At [] None l l' l l'
| At_par s a a' l l' r : At s (Some (a, a')) l l' (Cons (s, a) l r) (Cons (s, a') l' r)
| At_down q aa l l' sb k k' r : At q (Some aa) l l' k k' ->
    At (fst sb ++ q) (Some aa) l l' (Cons sb k r) (Cons sb k' r)
| At_right q aa l l' sb k r r' : At q (Some aa) l l' r r' ->
    At q (Some aa) l l' (Cons sb k r) (Cons sb k r').

Definition prow (q : path) (pa : option A) : list row :=
  match pa with None => [] | Some a => [(q, a)] end.
Definition pold (pa : option (A * A)) := option_map fst pa.
Definition pnew (pa : option (A * A)) := option_map snd pa.

Lemma At_pwf_l q pa l l' f f' : At q pa l l' f f' -> pwf f -> pwf l.
Proof. induction 1; simpl; tauto. Qed.

Lemma At_roots_fst q aa l l' f f' : At q (Some aa) l l' f f' ->
  map fst (roots f') = map fst (roots f).
Proof.
  remember (Some aa) as pa. induction 1; simpl; auto; try discriminate.
  f_equal. auto.
Qed.

Lemma Forall_map_fst (P : path -> Prop) (l l' : list row) :
  map fst l = map fst l' -> Forall (fun x => P (fst x)) l -> Forall (fun x => P (fst x)) l'.
Proof.
  intros E H. rewrite <- (Forall_map fst P) in *. congruence.
Qed.

Lemma At_pwf q pa l l' f f' : At q pa l l' f f' -> pwf f -> pwf l' -> pwf f'.
Proof.
  induction 1; simpl; intros H1 H2; auto; try tauto.
  destruct H1 as (E1 & E2 & E3 & E4). repeat split; auto.
  apply (@Forall_map_fst (fun p => lt (fst sb) p = true) (roots r) (roots r')); auto.
  symmetry. eapply At_roots_fst; eauto.
Qed.

Lemma At_nonempty q aa l l' f f' : At q (Some aa) l l' f f' -> pwf f -> q <> [].
Proof.
  remember (Some aa) as pa. induction 1; simpl; intros W; try discriminate.
  - destruct W as [W _]. destruct s; simpl in *; [lia|discriminate].
  - destruct W as [W _]. destruct (fst sb); simpl in *; [lia|discriminate].
  - apply IHAt; tauto.
Qed.

Lemma At_prefix q aa l l' f f' : At q (Some aa) l l' f f' ->
  exists sa x, In sa (roots f) /\ q = fst sa ++ x.
Proof.
  remember (Some aa) as pa. induction 1; simpl; try discriminate.
  - exists (s, a), []. rewrite app_nil_r. auto.
  - exists sb, q. auto.
  - destruct (IHAt Heqpa) as (sa & x & H1 & H2). eauto 6.
Qed.

(** The rows outside the context, and those in it. *)
Lemma At_rows q pa l l' f f' : At q pa l l' f f' ->
  exists R,
    Permutation (rows f) (prow q (pold pa) ++ R ++ map (pre q) (rows l)) /\
    Permutation (rows f') (prow q (pnew pa) ++ R ++ map (pre q) (rows l')) /\
    (pwf f -> pa = None -> R = []) /\
    (pwf f -> pa <> None -> forall r, In r R -> isprefix q (fst r) = false).
Proof.
  induction 1.
  - exists []. simpl. rewrite !map_pre_nil. repeat split; auto; tauto.
  - exists (rows r). simpl. repeat split; try discriminate.
    + constructor. apply Permutation_app_comm.
    + constructor. apply Permutation_app_comm.
    + intros (W1 & W2 & W3 & W4) _ x Hx.
      destruct (rows_top _ _ Hx) as (sb & Hb & u & E).
      apply prefixb_false; auto. intros v E2. rewrite E in E2.
      apply app_eq_len in E2.
      * destruct E2 as [E2 _]. rewrite Forall_forall in W4. specialize (W4 _ Hb).
        rewrite E2, llt_irr in W4; auto. discriminate.
      * simpl in W1. rewrite W1. apply roots_len with r; auto.
  - destruct IHAt as (R & H1 & H2 & _ & H4).
    exists (sb :: map (pre (fst sb)) R ++ rows r). repeat split; try discriminate.
    + simpl. rewrite H1. rewrite !map_app, map_pre_app. simpl.
      apply perm_trans with ((fst sb ++ q, fst aa) :: sb ::
        (map (pre (fst sb)) R ++ map (pre (fst sb ++ q)) (rows l)) ++ rows r); [apply perm_swap|].
      do 2 constructor. rewrite <- !app_assoc. apply Permutation_app_head, Permutation_app_comm.
    + simpl. rewrite H2. rewrite !map_app, map_pre_app. simpl.
      apply perm_trans with ((fst sb ++ q, snd aa) :: sb ::
        (map (pre (fst sb)) R ++ map (pre (fst sb ++ q)) (rows l')) ++ rows r); [apply perm_swap|].
      do 2 constructor. rewrite <- !app_assoc. apply Permutation_app_head, Permutation_app_comm.
    + intros W _ x Hx. assert (W' := W). simpl in W. destruct W as (W1 & W2 & W3 & W4).
      simpl in Hx. destruct Hx as [<-|Hx].
      * apply prefixb_false; auto. intros v E. rewrite <- app_assoc in E.
        rewrite <- (app_nil_r (fst sb)) in E at 1. apply app_inv_head in E.
        symmetry in E. apply app_eq_nil in E. destruct E as [E _].
        revert E. eapply At_nonempty; eauto.
      * apply in_app_iff in Hx. destruct Hx as [Hx|Hx].
        -- apply in_map_iff in Hx. destruct Hx as [y [<- Hy]]. simpl.
           rewrite prefixb_pre; auto. apply H4; auto. discriminate.
        -- destruct (rows_top _ _ Hx) as (sc & Hc & u & E).
           apply prefixb_false; auto. intros v E2. rewrite E, <- app_assoc in E2.
           apply app_eq_len in E2.
           ++ destruct E2 as [E2 _]. rewrite Forall_forall in W4. specialize (W4 _ Hc).
              rewrite E2, llt_irr in W4; auto. discriminate.
           ++ rewrite W1. apply roots_len with r; auto.
  - destruct IHAt as (R & H1 & H2 & _ & H4).
    exists (sb :: map (pre (fst sb)) (rows k) ++ R). repeat split; try discriminate.
    + simpl. rewrite H1. simpl.
      rewrite <- Permutation_middle. rewrite perm_swap. do 2 constructor.
      rewrite <- app_assoc. auto.
    + simpl. rewrite H2. simpl.
      rewrite <- Permutation_middle. rewrite perm_swap. do 2 constructor.
      rewrite <- app_assoc. auto.
    + intros W _ x Hx. simpl in W. destruct W as (W1 & W2 & W3 & W4).
      destruct (At_prefix H) as (sa & u & Ha & Eq).
      assert (Hneq : forall v z, fst sb ++ v <> q ++ z).
      { intros v z E. rewrite Eq, <- app_assoc in E. apply app_eq_len in E.
        - destruct E as [E _]. rewrite Forall_forall in W4. specialize (W4 _ Ha).
          rewrite E, llt_irr in W4; auto. discriminate.
        - rewrite W1. symmetry. apply roots_len with r; auto. }
      simpl in Hx. destruct Hx as [<-|Hx].
      * apply prefixb_false; auto. intros v E. apply (Hneq [] v). rewrite app_nil_r. auto.
      * apply in_app_iff in Hx. destruct Hx as [Hx|Hx].
        -- apply in_map_iff in Hx. destruct Hx as [y [<- Hy]].
           apply prefixb_false; auto. intros v E. apply (Hneq (fst y) v). auto.
        -- apply H4; auto. discriminate.
Qed.

Lemma At_filter_prefix q pa l l' f f' : At q pa l l' f f' -> pwf f ->
  filter (fun r => isprefix q (fst r)) (rows f) = prow q (pold pa) ++ map (pre q) (rows l).
Proof.
  intros H W. destruct (At_rows H) as (R & H1 & _ & H3 & H4).
  apply psorted_eq.
  - apply ssorted_filter. apply rows_sorted; auto.
  - apply psorted_app. repeat split.
    + destruct pa as [[a a']|]; simpl; repeat constructor.
    + apply psorted_map_pre, rows_sorted. eapply At_pwf_l; eauto.
    + intros x y Hx Hy. apply in_map_iff in Hy. destruct Hy as [z [<- Hz]].
      destruct pa as [[a a']|]; simpl in Hx; [|tauto]. destruct Hx as [<-|[]]. simpl.
      apply llt_self_app; auto. eapply rows_nonempty; [|apply Hz]. eapply At_pwf_l; eauto.
  - rewrite (Permutation_filter _ H1), !filter_app.
    rewrite (filter_all (fun r => isprefix q (fst r)) (map (pre q) (rows l))).
    + destruct pa as [[a a']|]; simpl.
      * rewrite prefixb_refl; auto. simpl. rewrite filter_none; [auto|].
        intros x Hx. apply H4; auto. discriminate.
      * rewrite H3 by auto. auto.
    + intros x Hx. apply in_map_iff in Hx. destruct Hx as [z [<- Hz]]. apply prefixb_app; auto.
Qed.

(** Below [q], one level deeper: exactly the sibling list. *)
Lemma rows_level1 l : pwf l -> filter (fun r => length (fst r) =? w) (rows l) = roots l.
Proof.
  induction l as [|sa k IHk r IHr]; simpl; intros H; auto.
  destruct H as (H1 & H2 & H3 & H4). rewrite H1, Nat.eqb_refl. f_equal.
  rewrite filter_app, filter_none; auto.
  intros x Hx. apply in_map_iff in Hx. destruct Hx as [z [<- Hz]].
  destruct (rows_len _ _ H2 Hz) as [n E]. unfold pre. simpl. rewrite app_length, H1, E.
  apply Nat.eqb_neq. simpl. lia.
Qed.

Lemma At_filter_children q pa l l' f f' : At q pa l l' f f' -> pwf f ->
  filter (fun r => isprefix q (fst r) && (length (fst r) =? length q + w)) (rows f)
  = map (pre q) (roots l).
Proof.
  intros H W. rewrite <- filter_filter.
  rewrite (At_filter_prefix H W), filter_app.
  rewrite filter_map.
  assert (E : filter (fun x => length (fst (pre q x)) =? length q + w) (rows l)
            = filter (fun r => length (fst r) =? w) (rows l)).
  { apply filter_ext_In. intros x _. unfold pre. simpl. rewrite app_length.
    destruct (Nat.eqb_spec (length (fst x)) w); [apply Nat.eqb_eq|apply Nat.eqb_neq]; lia. }
  rewrite E, rows_level1 by (eapply At_pwf_l; eauto).
  rewrite filter_none; auto.
  intros x Hx. destruct pa as [[a a']|]; simpl in Hx; [|tauto]. destruct Hx as [<-|[]]. simpl.
  apply Nat.eqb_neq. lia.
Qed.

(** ** Finding the context of a row *)

Lemma row_kids f p a : In (p, a) (rows f) ->
  exists l, forall a' l', exists f', At p (Some (a, a')) l l' f f'.
Proof.
  revert p. induction f as [|sa k IHk r IHr]; intros p; [simpl; tauto|].
  simpl. intros [->|H].
  - exists k. intros. eexists. apply At_par.
  - apply in_app_iff in H. destruct H as [H|H].
    + apply in_map_iff in H. destruct H as [[q b] [E Hy]]. unfold pre in E. simpl in E.
      injection E as <- ->. destruct (IHk _ Hy) as [l Hl]. exists l. intros a' l'.
      destruct (Hl a' l') as [k' Hk]. eexists. apply At_down; eauto.
    + destruct (IHr _ H) as [l Hl]. exists l. intros a' l'.
      destruct (Hl a' l') as [k' Hk]. eexists. apply At_right; eauto.
Qed.

Lemma roots_split (l : kforest) sa : In sa (roots l) ->
  exists l1 c l2, l = fapp l1 (Cons sa c l2).
Proof.
  induction l as [|sb k IHk r IHr]; simpl; [tauto|].
  intros [->|H].
  - exists Nil, k, r. auto.
  - destruct (IHr H) as (l1 & c & l2 & ->). exists (Cons sb k l1), c, l2. auto.
Qed.

(** The sibling list a row belongs to.  [up] is the payload of the parent. *)
Lemma row_siblings f p a : In (p, a) (rows f) ->
  exists q s up l, p = q ++ s /\ In (s, a) (roots l) /\
    forall l' up', (up = None <-> up' = None) -> exists f',
      At q (match up, up' with Some x, Some y => Some (x, y) | _, _ => None end) l l' f f'.
Proof.
  revert p. induction f as [|sa k IHk r IHr]; intros p; [simpl; tauto|].
  simpl. intros [->|H].
  - exists [], p, None, (Cons (p, a) k r). repeat split; simpl; auto.
    intros. eexists. apply At_top.
  - apply in_app_iff in H. destruct H as [H|H].
    + apply in_map_iff in H. destruct H as [[q b] [E Hy]]. unfold pre in E. simpl in E.
      injection E as <- ->. destruct (IHk _ Hy) as (q' & s & up & l & -> & Hs & Hl).
      destruct up as [up|].
      * exists (fst sa ++ q'), s, (Some up), l. rewrite app_assoc. repeat split; auto.
        intros l' [up'|] E; [|destruct E as [_ E]; discriminate (E eq_refl)].
        destruct (Hl l' (Some up')) as [k' Hk]; [tauto|].
        eexists. apply At_down; eauto.
      * assert (q' = [] /\ l = k) as [-> ->].
        { destruct (Hl Nil None) as [x Hx]; [tauto|]. inversion Hx; auto. }
        exists (fst sa), s, (Some (snd sa)), k. repeat split; auto.
        intros l' [up'|] E; [|destruct E as [_ E]; discriminate (E eq_refl)].
        destruct sa as [s0 b0]. eexists. apply At_par.
    + destruct (IHr _ H) as (q' & s & up & l & -> & Hs & Hl).
      destruct up as [up|].
      * exists q', s, (Some up), l. repeat split; auto.
        intros l' [up'|] E; [|destruct E as [_ E]; discriminate (E eq_refl)].
        destruct (Hl l' (Some up')) as [k' Hk]; [tauto|].
        eexists. apply At_right; eauto.
      * assert (q' = [] /\ l = r) as [-> ->].
        { destruct (Hl Nil None) as [x Hx]; [tauto|]. inversion Hx; auto. }
        exists [], s, None, (Cons sa k r). repeat split; simpl; auto.
        intros. eexists. apply At_top.
Qed.

(** ** Removing / inserting / renaming a subtree *)

Definition subrows (p : path) (a : A) (c : kforest) : list row :=
  (p, a) :: map (pre p) (rows c).

Lemma rows_mid q l1 s a c l2 :
  Permutation (map (pre q) (rows (fapp l1 (Cons (s, a) c l2))))
              (map (pre q) (rows (fapp l1 l2)) ++ subrows (q ++ s) a c).
Proof.
  rewrite !rows_fapp. simpl. rewrite !map_app. simpl. rewrite map_app, map_pre_app.
  unfold subrows. unfold pre at 2. simpl.
  rewrite <- app_assoc. apply Permutation_app_head.
  rewrite app_comm_cons. apply Permutation_app_comm.
Qed.

Lemma At_same q pa l l' f f' : At q pa l l' f f' -> pold pa = pnew pa -> l = l' -> f = f'.
Proof.
  induction 1; simpl; intros E1 E2; try congruence.
  - rewrite IHAt; auto.
  - rewrite IHAt; auto.
Qed.

Lemma At_remove_rows q pa l1 s a c l2 f f' :
  At q pa (fapp l1 (Cons (s, a) c l2)) (fapp l1 l2) f f' -> pold pa = pnew pa ->
  Permutation (rows f) (rows f' ++ subrows (q ++ s) a c).
Proof.
  intros H E. destruct (At_rows H) as (R & H1 & H2 & _).
  rewrite H1, H2, rows_mid, E. rewrite <- !app_assoc. auto.
Qed.

Lemma At_insert_rows q pa l1 s a c l2 f f' :
  At q pa (fapp l1 l2) (fapp l1 (Cons (s, a) c l2)) f f' -> pold pa = pnew pa ->
  Permutation (rows f') (rows f ++ subrows (q ++ s) a c).
Proof.
  intros H E. destruct (At_rows H) as (R & H1 & H2 & _).
  rewrite H1, H2, rows_mid, E. rewrite <- !app_assoc. auto.
Qed.

Lemma pwf_mid l1 s a c l2 : pwf (fapp l1 (Cons (s, a) c l2)) -> pwf (fapp l1 l2) /\ pwf c /\ length s = w.
Proof.
  induction l1 as [|sb k IHk r IHr]; simpl.
  - tauto.
  - intros (H1 & H2 & H3 & H4). apply IHr in H3. repeat split; try tauto.
    rewrite roots_fapp in *. simpl in H4. rewrite Forall_app in *.
    destruct H4 as [H4 H5]. inversion H5; auto.
Qed.

Lemma pwf_fapp l1 l2 : pwf (fapp l1 l2) <->
  pwf l1 /\ pwf l2 /\ (forall x y, In x (roots l1) -> In y (roots l2) -> lt (fst x) (fst y) = true).
Proof.
  induction l1 as [|sb k IHk r IHr]; simpl.
  - intuition.
  - rewrite IHr, roots_fapp, Forall_app, !Forall_forall. split.
    + intros (H1 & H2 & (H3 & H4 & H5) & H6 & H7). repeat split; auto.
      intros x y [<-|Hx] Hy; auto.
    + intros ((H1 & H2 & H3 & H4) & H5 & H6). repeat split; auto.
Qed.

(** The children of a node in a sibling list. *)
Lemma At_kid_here l1 s a c l2 a' c' :
  exists f'', At s (Some (a, a')) c c' (fapp l1 (Cons (s, a) c l2)) f''.
Proof.
  induction l1 as [|sb k IHk r [f'' IHr]]; simpl.
  - eexists. apply At_par.
  - eexists. apply At_right; eauto.
Qed.

Lemma At_kid q pa l1 s a c l2 l' f f' :
  At q pa (fapp l1 (Cons (s, a) c l2)) l' f f' -> forall a' c', exists f'',
  At (q ++ s) (Some (a, a')) c c' f f''.
Proof.
  intros H a' c'. remember (fapp l1 (Cons (s, a) c l2)) as l0.
  revert Heql0. induction H; intros; subst.
  - apply At_kid_here.
  - destruct (At_kid_here l1 s a c l2 a' c') as [g Hg].
    eexists. apply (At_down (s0, a0) r Hg).
  - destruct (IHAt eq_refl) as [g Hg]. rewrite <- app_assoc. eexists. apply At_down; eauto.
  - destruct (IHAt eq_refl) as [g Hg]. eexists. apply At_right; eauto.
Qed.

(** When a subtree is taken out, no row with its path as a prefix is left. *)
Lemma removed_no_prefix q pa l1 s a c l2 f f' :
  At q pa (fapp l1 (Cons (s, a) c l2)) (fapp l1 l2) f f' -> pold pa = pnew pa -> pwf f ->
  forall r, In r (rows f') -> isprefix (q ++ s) (fst r) = false.
Proof.
  intros H E W r Hr.
  assert (P := At_remove_rows _ _ _ _ _ H E).
  destruct (At_kid _ _ _ _ _ H a c) as [f2 H2].
  assert (F := At_filter_prefix H2 W). simpl in F.
  destruct (isprefix (q ++ s) (fst r)) eqn:Ep; auto. exfalso.
  assert (L : length (filter (fun r => isprefix (q ++ s) (fst r)) (rows f))
            = length (filter (fun r => isprefix (q ++ s) (fst r)) (rows f'))
              + length (subrows (q ++ s) a c)).
  { rewrite (Permutation_length (Permutation_filter _ P)), filter_app, app_length. f_equal.
    rewrite filter_all; auto. intros x Hx. simpl in Hx. destruct Hx as [<-|Hx].
    - apply prefixb_refl; auto.
    - apply in_map_iff in Hx. destruct Hx as [z [<- Hz]]. apply prefixb_app; auto. }
  rewrite F in L. unfold subrows in L. simpl in L.
  assert (In r (filter (fun r => isprefix (q ++ s) (fst r)) (rows f'))) as Hin.
  { apply filter_In. auto. }
  destruct (filter (fun r => isprefix (q ++ s) (fst r)) (rows f')); simpl in *; [tauto|lia].
Qed.

(** UPDATE path = new || substr(path, len(old)+1) WHERE path LIKE old%. *)
Definition ren (old new : path) (r : row) : row :=
  if isprefix old (fst r) then (new ++ skipn (length old) (fst r), snd r) else r.

Lemma ren_sub p q a c : map (ren p q) (subrows p a c) = subrows q a c.
Proof.
  unfold subrows. simpl. f_equal.
  - unfold ren. simpl. rewrite prefixb_refl by auto.
    rewrite skipn_all. rewrite app_nil_r. auto.
  - rewrite map_map. apply map_ext. intros [x b]. unfold ren, pre. simpl.
    rewrite prefixb_app by auto. rewrite skipn_app, skipn_all, Nat.sub_diag. auto.
Qed.

Lemma ren_rows q pa l1 s a c l2 f f1 q' pb m1 s' m2 f2 :
  At q pa (fapp l1 (Cons (s, a) c l2)) (fapp l1 l2) f f1 -> pold pa = pnew pa ->
  At q' pb (fapp m1 m2) (fapp m1 (Cons (s', a) c m2)) f1 f2 -> pold pb = pnew pb ->
  pwf f ->
  Permutation (map (ren (q ++ s) (q' ++ s')) (rows f)) (rows f2).
Proof.
  intros H1 E1 H2 E2 W.
  rewrite (Permutation_map _ (At_remove_rows _ _ _ _ _ H1 E1)).
  rewrite (At_insert_rows _ _ _ _ _ H2 E2).
  rewrite map_app, ren_sub. apply Permutation_app_tail.
  rewrite <- (map_id (rows f1)) at 2.
  erewrite map_ext_in; [reflexivity|].
  intros x Hx. unfold ren. rewrite (removed_no_prefix _ _ _ _ _ H1 E1 W _ Hx). auto.
Qed.

(** Aligned prefixes of stored paths are stored. *)
Lemma ancestors_stored f p a : pwf f -> In (p, a) (rows f) ->
  forall q x n, p = q ++ x -> length q = S n * w -> In q (map fst (rows f)).
Proof.
  revert p. induction f as [|sb k IHk r IHr]; simpl; [tauto|].
  intros p (W1 & W2 & W3 & W4) H q x n E L.
  destruct H as [->|H].
  - left. simpl in *. destruct n as [|n].
    + rewrite <- (app_nil_r p) in E. apply app_eq_len in E; [tauto|]. lia.
    + exfalso. assert (length p = length (q ++ x)) by congruence. rewrite app_length in H. nia.
  - apply in_app_iff in H. destruct H as [H|H].
    + apply in_map_iff in H. destruct H as [[y b] [Ey Hy]]. unfold pre in Ey. simpl in Ey.
      injection Ey as Ey ->. destruct n as [|n].
      * left. rewrite E in Ey. apply app_eq_len in Ey; [tauto|]. lia.
      * assert (exists q2, q = fst sb ++ q2 /\ length q2 = S n * w) as (q2 & -> & L2).
        { exists (skipn w q). split.
          - rewrite <- (firstn_skipn w q) at 1. f_equal.
            assert (Ew : firstn w (fst sb ++ y) = firstn w (q ++ x)) by congruence.
            rewrite <- W1 in Ew at 1. rewrite firstn_app, firstn_all, Nat.sub_diag in Ew.
            simpl in Ew. rewrite app_nil_r in Ew.
            rewrite firstn_app in Ew. replace (w - length q) with 0 in Ew by lia.
            simpl in Ew. rewrite app_nil_r in Ew. auto.
          - rewrite skipn_length. lia. }
        right. rewrite map_app, in_app_iff. left. rewrite map_map. simpl.
        assert (In q2 (map fst (rows k))) as Hq.
        { apply (IHk _ W2 Hy q2 x n); auto. rewrite E, <- app_assoc in Ey.
          apply app_inv_head in Ey. auto. }
        apply in_map_iff in Hq. destruct Hq as [[z b] [<- Hz]].
        apply in_map_iff. exists (z, b). auto.
    + right. rewrite map_app, in_app_iff. right. eapply IHr; eauto.
Qed.

Lemma At_len q pa l l' f f' : At q pa l l' f f' -> pwf f -> exists n, length q = n * w.
Proof.
  induction 1; simpl; intros W.
  - exists 0. auto.
  - exists 1. simpl in W. lia.
  - destruct IHAt as [n En]; [tauto|]. exists (S n). rewrite app_length. simpl in *. lia.
  - apply IHAt. tauto.
Qed.

(** The new paths of a rename collide with no old path. *)
Lemma ren_fresh q pa l1 s a c l2 f f1 q' pb m1 s' m2 f2 :
  At q pa (fapp l1 (Cons (s, a) c l2)) (fapp l1 l2) f f1 -> pold pa = pnew pa ->
  At q' pb (fapp m1 m2) (fapp m1 (Cons (s', a) c m2)) f1 f2 -> pold pb = pnew pb ->
  pwf f -> pwf f2 -> q ++ s <> q' ++ s' ->
  forall r, In r (rows f) -> isprefix (q' ++ s') (fst r) = false.
Proof.
  intros H1 E1 H2 E2 W W2 N r Hr.
  destruct (isprefix (q' ++ s') (fst r)) eqn:Ep; auto. exfalso.
  apply prefixb_iff in Ep; auto. destruct Ep as [x Ep].
  assert (W1 : pwf f1).
  { eapply At_pwf; eauto. apply pwf_mid with s a c. eapply At_pwf_l; eauto. }
  assert (Ls' : length s' = w).
  { assert (pwf (fapp m1 (Cons (s', a) c m2))); [|eapply pwf_mid; eauto].
    clear - H2 W2. remember (fapp m1 (Cons (s', a) c m2)) as m. clear Heqm.
    revert W2. induction H2; simpl; tauto. }
  destruct (At_len H2 W1) as [n Ln].
  assert (Hq : In (q' ++ s') (map fst (rows f))).
  { destruct r as [p b]. simpl in Ep. eapply ancestors_stored with (n := n); eauto.
    rewrite app_length. simpl. lia. }
  apply in_map_iff in Hq. destruct Hq as [[p b] [Epq Hp]]. simpl in Epq. subst p.
  apply (Permutation_in _ (At_remove_rows _ _ _ _ _ H1 E1)) in Hp.
  apply in_app_iff in Hp.
  assert (ND := rows_NoDup _ W2).
  assert (P2 := At_insert_rows _ _ _ _ _ H2 E2).
  rewrite (Permutation_map fst P2), map_app in ND. apply NoDup_app_iff in ND.
  destruct Hp as [Hp|Hp].
  - destruct ND as (_ & _ & ND). apply (ND (q' ++ s')).
    + apply in_map_iff. exists (q' ++ s', b). auto.
    + simpl. auto.
  - simpl in Hp. destruct Hp as [Hp|Hp]; [congruence|].
    apply in_map_iff in Hp. destruct Hp as [[z b'] [Ez Hz]]. unfold pre in Ez. simpl in Ez.
    injection Ez as Ez _.
    (* q' ++ s' lies strictly below q ++ s, so q' does too *)
    assert (Wc : pwf c).
    { assert (Wl := At_pwf_l H1 W). apply pwf_mid in Wl. tauto. }
    destruct (rows_len _ _ Wc Hz) as [m Lm]. simpl in Lm.
    assert (Hpre : exists y, q' = (q ++ s) ++ y).
    { exists (firstn (length z - w) z).
      assert (length (q' ++ s') = length ((q ++ s) ++ z)) by congruence.
      rewrite !app_length in H.
      assert (Ef : firstn (length q') (q' ++ s') = firstn (length q') ((q ++ s) ++ z)) by congruence.
      rewrite firstn_app, firstn_all, Nat.sub_diag in Ef. simpl in Ef. rewrite app_nil_r in Ef.
      rewrite firstn_app in Ef. rewrite Ef. simpl in Lm.
      rewrite firstn_all2 by (rewrite app_length; lia).
      f_equal. f_equal. rewrite app_length. lia. }
    destruct Hpre as [y Hy].
    destruct pb as [[b1 b2]|].
    + destruct (At_rows H2) as (R & H3 & _).
      assert (Hin : In (q', b1) (rows f1)).
      { eapply Permutation_in; [symmetry; apply H3|]. simpl; auto. }
      assert (F := removed_no_prefix _ _ _ _ _ H1 E1 W _ Hin). simpl in F.
      rewrite Hy, prefixb_app in F; auto. discriminate.
    + inversion H2; subst. symmetry in H. apply app_eq_nil in H. destruct H as [H _].
      assert (Wl := At_pwf_l H1 W). apply pwf_mid in Wl. destruct Wl as (_ & _ & Ls).
      apply app_eq_nil in H. destruct H as [_ ->]. simpl in Ls. lia.
Qed.

(** ** Erasing the keys *)
Variable pn : A -> node.
Definition erase (f : kforest) : forest node := fmap (fun x => pn (snd x)) f.

Lemma At_Ctx q pa l l' f f' : At q pa l l' f f' ->
  (forall a a', pa = Some (a, a') -> pn a = pn a') ->
  Ctx (option_map (fun x => nid (pn (fst x))) pa) (erase l) (erase l') (erase f) (erase f').
Proof.
  induction 1; simpl; intros E.
  - constructor.
  - unfold erase at 3 4. simpl. rewrite <- (E a a'); auto. constructor.
  - unfold erase at 3 4. simpl. constructor. apply IHAt; auto.
  - unfold erase at 3 4. simpl. constructor. apply IHAt; auto.
Qed.

Lemma erase_ids f : ids (erase f) = map (fun r => nid (pn (snd r))) (rows f).
Proof.
  unfold ids, erase. rewrite preorder_fmap, map_map.
  rewrite <- (map_map snd (fun a => nid (pn a)) (rows f)), rows_snd, map_map. auto.
Qed.

(** Changing the payload of the row at path [q] only. *)
Definition updrow (q : path) (g : A -> A) (r : row) : row :=
  if leq ltb (fst r) q then (fst r, g (snd r)) else r.

Lemma At_upd q a l f f1 : At q (Some (a, a)) l l f f1 -> pwf f -> forall g, 
  exists f', At q (Some (a, g a)) l l f f' /\ Permutation (map (updrow q g) (rows f)) (rows f').
Proof.
  intros H W g.
  assert (Hf : In (q, a) (rows f)).
  { destruct (At_rows H) as (R & H1 & _). eapply Permutation_in; [symmetry; apply H1|]. simpl; auto. }
  assert (exists f', At q (Some (a, g a)) l l f f') as [f' H'].
  { clear - H. remember (Some (a, a)) as pa. remember l as l'. rewrite Heql' in H at 1.
    revert Heqpa Heql'. induction H; intros E1 E2; try discriminate; subst.
    - injection E1 as <- <-. eexists. apply At_par.
    - injection E1 as ->. destruct (IHAt eq_refl eq_refl) as [x Hx]. eexists. apply At_down; eauto.
    - injection E1 as ->. destruct (IHAt eq_refl eq_refl) as [x Hx]. eexists. apply At_right; eauto. }
  exists f'. split; auto.
  destruct (At_rows H') as (R & H1 & H2 & _ & H4).
  rewrite (Permutation_map _ H1), H2. simpl.
  unfold updrow at 1. simpl. rewrite leq_refl by auto. constructor.
  rewrite map_app. rewrite <- (map_id R) at 2. rewrite <- (map_id (map (pre q) (rows l))) at 2.
  assert (N : forall r, In r (R ++ map (pre q) (rows l)) -> updrow q g r = r).
  { intros r Hr. unfold updrow. destruct (leq ltb (fst r) q) eqn:E; auto. exfalso.
    apply leq_iff in E; auto. apply in_app_iff in Hr. destruct Hr as [Hr|Hr].
    - assert (F : isprefix q (fst r) = false) by (apply H4; auto; discriminate).
      rewrite E, prefixb_refl in F; auto. discriminate.
    - apply in_map_iff in Hr. destruct Hr as [z [<- Hz]]. simpl in E.
      rewrite <- (app_nil_r q) in E at 2. apply app_inv_head in E.
      assert (Wl := At_pwf_l H W). revert E. apply rows_nonempty with l; auto. }
  rewrite !(@map_ext_in _ _ (updrow q g) (fun x => x)); auto;
    intros x Hx; apply N; apply in_app_iff; auto.
Qed.

End PathTab.
