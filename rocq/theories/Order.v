(** node_order_by: the sorted-position filter is the strict lexicographic order, and
    inserting by it keeps every list of siblings sorted. *)
From Coq Require Import List Arith Lia Bool ZArith Sorted.
From Verif Require Import Prelude Forest CommonModel.
Import ListNotations.

(** ** Specification *)

(** [v] comes strictly before [u] in a column; [desc] for a leading "-". *)
Definition before (desc : bool) (v u : Z) : bool := if desc then Z.ltb u v else Z.ltb v u.

(** The new object [x] comes strictly before the sibling [y]: the first column (among
    those where [x] has a value) in which they differ decides; a sibling without a
    value there is not after [x]. *)
Fixpoint lexlt (o : ordering) (x y : fields) : bool :=
  match o with
  | [] => false
  | (i, desc) :: o' =>
      match fval x i with
      | None => lexlt o' x y
      | Some v => match fval y i with
                  | None => false
                  | Some u => before desc v u || (Z.eqb v u && lexlt o' x y)
                  end
      end
  end.

(** No column of the ordering has a value. *)
Definition all_null (o : ordering) (x : fields) : bool :=
  forallb (fun c => match fval x (fst c) with None => true | Some _ => false end) o.

(** Every column of the ordering has a value. *)
Definition has_values (o : ordering) (x : fields) : Prop :=
  forall i desc, In (i, desc) o -> fval x i <> None.

(** Every list of siblings is in (non-strict) order. *)
Definition not_after (o : ordering) (a b : node) : Prop := lexlt o (ndata b) (ndata a) = false.

Fixpoint sorted_f (o : ordering) (f : forest node) : Prop :=
  match f with
  | Nil => True
  | Cons a k r => sorted_f o k /\ sorted_f o r /\ Forall (not_after o a) (roots r)
  end.

Definition values_f (o : ordering) (f : forest node) : Prop :=
  Forall (fun a => has_values o (ndata a)) (preorder f).

(** ** The filter (C35) *)
Lemma filters_lex o x y : forall eqs,
  existsb (clause_holds y) (build_filters o eqs x)
  = forallb (fun fv => match fval y (fst fv) with Some u => Z.eqb u (snd fv) | None => false end) eqs
    && lexlt o x y.
Proof.
  induction o as [|[i desc] o IH]; intros eqs; simpl.
  - rewrite andb_false_r. auto.
  - destruct (fval x i) as [v|] eqn:Ex; auto.
    simpl. rewrite IH, forallb_app. simpl. unfold clause_holds. simpl.
    destruct (fval y i) as [u|]; simpl.
    + rewrite andb_true_r. rewrite Z.eqb_sym. unfold before.
      set (E := forallb _ eqs). destruct E, (if desc then (u <? v)%Z else (v <? u)%Z); simpl; auto.
    + rewrite !andb_false_r. auto.
Qed.

Lemma filters_nil o x eqs : build_filters o eqs x = [] <-> all_null o x = true.
Proof.
  revert eqs. induction o as [|[i desc] o IH]; intros eqs; simpl; [tauto|].
  destruct (fval x i); simpl; [split; discriminate|apply IH].
Qed.

Theorem sorted_after_lex o x y : sorted_after o x y = all_null o x || lexlt o x y.
Proof.
  unfold sorted_after. destruct (build_filters o [] x) as [|c cs] eqn:E.
  - apply filters_nil in E. rewrite E. auto.
  - rewrite <- E, filters_lex. simpl. destruct (all_null o x) eqn:E2; auto.
    apply filters_nil with (eqs := []) in E2. congruence.
Qed.

Corollary sorted_after_values o x y : o <> [] -> has_values o x -> sorted_after o x y = lexlt o x y.
Proof.
  intros No H. rewrite sorted_after_lex. destruct o as [|[i d] o]; [congruence|].
  unfold all_null. simpl. destruct (fval x i) eqn:E; auto. exfalso. apply (H i d); simpl; auto.
Qed.

(** ** A strict weak order on the objects with values *)
Lemma has_values_cons i d o x : has_values ((i, d) :: o) x ->
  (exists v, fval x i = Some v) /\ has_values o x.
Proof.
  intros H. split.
  - destruct (fval x i) eqn:E; eauto. exfalso. apply (H i d); simpl; auto.
  - intros j e Hj. apply (H j e). simpl; auto.
Qed.

Lemma before_cases d v u : (before d v u = true /\ v <> u) \/ (before d v u = false).
Proof.
  unfold before. destruct d; [destruct (Z.ltb_spec u v)|destruct (Z.ltb_spec v u)]; auto;
    left; split; auto; lia.
Qed.

(* x <= y and y <= z give x <= z *)
Lemma lexlt_trans_false o x y z : has_values o x -> has_values o y -> has_values o z ->
  lexlt o y x = false -> lexlt o z y = false -> lexlt o z x = false.
Proof.
  induction o as [|[i d] o IH]; intros Hx Hy Hz; simpl; auto.
  apply has_values_cons in Hx. apply has_values_cons in Hy. apply has_values_cons in Hz.
  destruct Hx as [[vx Ex] Hx], Hy as [[vy Ey] Hy], Hz as [[vz Ez] Hz].
  rewrite Ex, Ey, Ez. rewrite !orb_false_iff, !andb_false_iff, !Z.eqb_neq.
  intros [A1 A2] [B1 B2]. unfold before in *.
  destruct d; rewrite Z.ltb_ge in *; (split; [lia|]);
    (destruct A2 as [A2|A2]; [left; destruct B2; lia|]);
    (destruct B2 as [B2|B2]; [left; lia|]); right; auto.
Qed.

Lemma lexlt_asym o x y : lexlt o x y = true -> lexlt o y x = false.
Proof.
  induction o as [|[i d] o IH]; simpl; auto.
  destruct (fval x i) as [v|] eqn:Ex, (fval y i) as [u|] eqn:Ey; try discriminate; auto.
  rewrite orb_true_iff, andb_true_iff, orb_false_iff, andb_false_iff, Z.eqb_eq, Z.eqb_neq.
  unfold before. intros [H|[H1 H2]].
  - destruct d; apply Z.ltb_lt in H; (split; [apply Z.ltb_ge; lia|left; lia]).
  - split; [destruct d; apply Z.ltb_ge; lia|right; auto].
Qed.

(** ** Inserting keeps the order *)

(** In a sorted list the siblings greater than the new object are a suffix. *)
Lemma sorted_splits o x (l : list node) : o <> [] -> has_values o x ->
  Forall (fun a => has_values o (ndata a)) l -> StronglySorted (not_after o) l ->
  exists L1 L2, l = L1 ++ L2 /\ (forall a, In a L1 -> sorted_after o x (ndata a) = false) /\
    (forall a, In a L2 -> sorted_after o x (ndata a) = true).
Proof.
  intros No Hx. induction l as [|a l IH]; intros V S.
  - exists [], []. simpl. tauto.
  - inversion V; subst. apply StronglySorted_inv in S. destruct S as [S F].
    destruct (sorted_after o x (ndata a)) eqn:E.
    + exists [], (a :: l). split; auto. split; [simpl; tauto|].
      intros b [<-|Hb]; auto. rewrite sorted_after_values in * by auto.
      destruct (lexlt o x (ndata b)) eqn:Eb; auto. rewrite Forall_forall in F, H2.
      assert (Hab := F b Hb). unfold not_after in Hab.
      rewrite (lexlt_trans_false o (ndata a) (ndata b) x) in E; auto.
    + destruct IH as (L1 & L2 & -> & H4 & H5); auto. exists (a :: L1), L2. split; auto.
      split; auto. intros b [<-|Hb]; auto.
Qed.

Lemma roots_sorted o f : sorted_f o f -> StronglySorted (not_after o) (roots f).
Proof. induction f as [|a k _ r IH]; simpl; intros H; constructor; tauto. Qed.

Lemma roots_values o f : values_f o f -> Forall (fun a => has_values o (ndata a)) (roots f).
Proof.
  intros H. apply Forall_forall. intros a Ha. unfold values_f in H. rewrite Forall_forall in H.
  apply H. apply roots_preorder; auto.
Qed.

Lemma values_cons o a k r : values_f o (Cons a k r) <-> has_values o (ndata a) /\ values_f o k /\ values_f o r.
Proof. unfold values_f. simpl. rewrite Forall_cons_iff, Forall_app. tauto. Qed.

(** Inserting one tree before the first greater sibling. *)
Lemma ins_roots P (x : node) c l : forall y, In y (roots (ins_before P (Cons x c Nil) l)) -> y = x \/ In y (roots l).
Proof.
  induction l as [|a k _ r IH]; simpl; intros y.
  - intros [<-|[]]; auto.
  - destruct (P a); simpl; intros [<-|H]; auto. apply IH in H. tauto.
Qed.

Lemma sorted_ins o x c l : o <> [] -> has_values o (ndata x) -> values_f o l -> sorted_f o c -> sorted_f o l ->
  sorted_f o (ins_before (fun n => sorted_after o (ndata x) (ndata n)) (Cons x c Nil) l).
Proof.
  intros No Hx V Sc. induction l as [|a k _ r IH]; simpl; intros S; [auto|].
  apply values_cons in V. destruct V as (V1 & V2 & V3). destruct S as (S1 & S2 & S3).
  destruct (sorted_after o (ndata x) (ndata a)) eqn:E.
  - rewrite sorted_after_values in E by auto. simpl.
    repeat (split; auto). constructor; [apply lexlt_asym; auto|].
    apply Forall_forall. intros b Hb. apply lexlt_asym. rewrite Forall_forall in S3.
    assert (Hab := S3 b Hb). unfold not_after in Hab.
    destruct (lexlt o (ndata x) (ndata b)) eqn:Eb; auto.
    assert (Vb := roots_values o r V3). rewrite Forall_forall in Vb.
    rewrite (lexlt_trans_false o (ndata a) (ndata b) (ndata x)) in E; auto.
  - simpl. split; auto. split; [apply IH; auto|].
    apply Forall_forall. intros b Hb. apply ins_roots in Hb. destruct Hb as [->|Hb].
    + rewrite sorted_after_values in E by auto. exact E.
    + rewrite Forall_forall in S3. auto.
Qed.

Lemma values_ins o P (t l : forest node) : values_f o t -> values_f o l -> values_f o (ins_before P t l).
Proof.
  intros Vt. induction l as [|a k _ r IH]; simpl; intros V; auto.
  apply values_cons in V. destruct (P a).
  - unfold values_f in *. rewrite preorder_fapp. apply Forall_app. split; auto. apply Forall_forall.
    intros y Hy. simpl in Hy. destruct V as (V1 & V2 & V3). destruct Hy as [<-|Hy]; auto.
    apply in_app_iff in Hy. rewrite Forall_forall in V2, V3. destruct Hy; auto.
  - apply values_cons. tauto.
Qed.

(** Changing the list of children of one node. *)
Lemma at_node_roots p h f : roots (at_node p h f) = roots f.
Proof. induction f as [|a k _ r IH]; simpl; auto. destruct (nid a =? p); simpl; congruence. Qed.

Lemma sorted_at o up h f : sorted_f o f -> values_f o f ->
  (forall l, sorted_f o l -> values_f o l -> sorted_f o (h l)) -> sorted_f o (at_kids up h f).
Proof.
  intros S V H. destruct up as [p|]; simpl; [|auto].
  induction f as [|a k IHk r IHr]; simpl; auto.
  apply values_cons in V. destruct V as (V1 & V2 & V3). destruct S as (S1 & S2 & S3).
  destruct (nid a =? p); simpl; repeat (split; auto). rewrite at_node_roots. auto.
Qed.

Lemma values_at o up h f : values_f o f ->
  (forall l, values_f o l -> values_f o (h l)) -> values_f o (at_kids up h f).
Proof.
  intros V H. destruct up as [p|]; simpl; [|auto].
  induction f as [|a k IHk r IHr]; simpl; auto.
  apply values_cons in V. destruct (nid a =? p); apply values_cons; intuition.
Qed.

Lemma remove_roots s f y : In y (roots (remove s f)) -> In y (roots f).
Proof.
  induction f as [|a k _ r IH]; simpl; auto. destruct (nid a =? s); simpl; tauto.
Qed.

Lemma sorted_remove o s f : sorted_f o f -> sorted_f o (remove s f).
Proof.
  induction f as [|a k IHk r IHr]; simpl; auto. intros (S1 & S2 & S3).
  destruct (nid a =? s); auto. simpl. repeat (split; auto).
  apply Forall_forall. intros y Hy. apply remove_roots in Hy. rewrite Forall_forall in S3. auto.
Qed.

Lemma values_remove o s f : values_f o f -> values_f o (remove s f).
Proof.
  induction f as [|a k IHk r IHr]; simpl; auto. intros V. apply values_cons in V.
  destruct (nid a =? s); [tauto|]. apply values_cons. tauto.
Qed.

Lemma remove_all_roots S f y : In y (roots (remove_all S f)) -> In y (roots f).
Proof.
  induction f as [|a k _ r IH]; simpl; auto. destruct (S (nid a)); simpl; tauto.
Qed.

Lemma sorted_remove_all o S f : sorted_f o f -> sorted_f o (remove_all S f).
Proof.
  induction f as [|a k IHk r IHr]; simpl; auto. intros (S1 & S2 & S3).
  destruct (S (nid a)); auto. simpl. repeat (split; auto).
  apply Forall_forall. intros y Hy. apply remove_all_roots in Hy. rewrite Forall_forall in S3. auto.
Qed.

Lemma values_remove_all o S f : values_f o f -> values_f o (remove_all S f).
Proof.
  induction f as [|a k IHk r IHr]; simpl; auto. intros V. apply values_cons in V.
  destruct (S (nid a)); [tauto|]. apply values_cons. tauto.
Qed.

Lemma subtree_shape o s f : sorted_f o f -> values_f o f ->
  subtree s f = Nil \/ exists x c, subtree s f = Cons x c Nil /\ nid x = s /\ In x (preorder f) /\
    sorted_f o c /\ values_f o c /\ has_values o (ndata x).
Proof.
  induction f as [|a k IHk r IHr]; simpl; auto. intros (S1 & S2 & S3) V.
  apply values_cons in V. destruct V as (V1 & V2 & V3).
  destruct (Nat.eqb_spec (nid a) s) as [E|E].
  - right. exists a, k. repeat (split; auto).
  - destruct (IHk S1 V2) as [->|(x & c & -> & E1 & E2 & E3)].
    + destruct (IHr S2 V3) as [->|(x & c & -> & E1 & E2 & E3)]; auto.
      right. exists x, c. repeat (split; auto). right. apply in_app_iff. auto.
    + right. exists x, c. repeat (split; auto). right. apply in_app_iff. auto.
Qed.

(** *** The operations of the specification keep the siblings sorted (C15) *)
Definition gt_of (o : ordering) (d : fields) (n : node) : bool := sorted_after o d (ndata n).

Lemma leaf_ok o x : has_values o (ndata x) -> sorted_f o (leaf x) /\ values_f o (leaf x).
Proof.
  intros H. split; [simpl; auto|]. unfold values_f, leaf. simpl. constructor; [auto|constructor].
Qed.

Theorem sorted_add_root o x f : o <> [] -> has_values o (ndata x) -> sorted_f o f -> values_f o f ->
  sorted_f o (sp_add_root (Some (gt_of o (ndata x))) x f) /\
  values_f o (sp_add_root (Some (gt_of o (ndata x))) x f).
Proof.
  intros No Hx S V. unfold sp_add_root, ins, leaf. split.
  - apply sorted_ins; simpl; auto.
  - apply values_ins; auto. apply leaf_ok; auto.
Qed.

Theorem sorted_add_child o p x f : o <> [] -> has_values o (ndata x) -> sorted_f o f -> values_f o f ->
  sorted_f o (sp_add_child (Some (gt_of o (ndata x))) p x f) /\
  values_f o (sp_add_child (Some (gt_of o (ndata x))) p x f).
Proof.
  intros No Hx S V. unfold sp_add_child. split.
  - apply sorted_at; auto. intros l Sl Vl. apply sorted_ins; simpl; auto.
  - apply values_at; auto. intros l Vl. apply values_ins; auto. apply leaf_ok; auto.
Qed.

Theorem sorted_add_sibling o t x f : o <> [] -> has_values o (ndata x) -> sorted_f o f -> values_f o f ->
  sorted_f o (sp_add_sibling t SortedSibling (gt_of o (ndata x)) x f) /\
  values_f o (sp_add_sibling t SortedSibling (gt_of o (ndata x)) x f).
Proof.
  intros No Hx S V. unfold sp_add_sibling. simpl. split.
  - apply sorted_at; auto. intros l Sl Vl. apply sorted_ins; simpl; auto.
  - apply values_at; auto. intros l Vl. apply values_ins; auto. apply leaf_ok; auto.
Qed.

Theorem sorted_move o n t p d f : o <> [] -> p = SortedSibling \/ p = SortedChild ->
  (forall x, In x (preorder f) -> nid x = n -> ndata x = d) -> sorted_f o f -> values_f o f ->
  sorted_f o (sp_move n t p (gt_of o d) f) /\ values_f o (sp_move n t p (gt_of o d) f).
Proof.
  intros No Hp Hd S V.
  assert (G : forall up, sorted_f o (at_kids up (ins (PSorted (gt_of o d)) (subtree n f)) (remove n f)) /\
                         values_f o (at_kids up (ins (PSorted (gt_of o d)) (subtree n f)) (remove n f))).
  { intros up. assert (Sr := sorted_remove o n f S). assert (Vr := values_remove o n f V).
    destruct (subtree_shape o n f S V) as [->|(x & c & -> & E1 & E2 & Sc & Vc & Hx)].
    - simpl. split; [apply sorted_at; auto|apply values_at; auto].
      + intros l Sl Vl. clear - Sl. induction l as [|a k _ r IH]; simpl; auto.
        destruct (gt_of o d a); auto. simpl in *. destruct Sl as (S1 & S2 & S3). repeat (split; auto).
        apply Forall_forall. intros y Hy. rewrite Forall_forall in S3. apply S3.
        clear - Hy. revert Hy. induction r as [|b k' _ r IH]; simpl; auto.
        destruct (gt_of o d b); auto. simpl. tauto.
      + intros l Vl. apply values_ins; auto. constructor.
    - rewrite <- (Hd x E2 E1). split.
      + apply sorted_at; auto. intros l Sl Vl. apply sorted_ins; auto.
      + apply values_at; auto. intros l Vl. apply values_ins; auto.
        apply values_cons. repeat (split; auto). constructor. }
  unfold sp_move. destruct Hp as [-> | ->]; [apply G|apply (G (Some t))].
Qed.

(** Two columns, the second descending. *)
Example lexlt_example :
  let o := [(0, false); (1, true)] in
  lexlt o [Some 3; Some 5]%Z [Some 3; Some 4]%Z = true /\
  lexlt o [Some 3; Some 4]%Z [Some 3; Some 5]%Z = false /\
  lexlt o [Some 2; Some 4]%Z [Some 3; Some 5]%Z = true /\
  sorted_after o [None; Some 4]%Z [Some 3; Some 5]%Z = false.
Proof. vm_compute. auto. Qed.

Example sorted_example :
  let o := [(0, false)] in let n i v := mkNode i [Some v] in
  let f := Cons (n 1 10%Z) (leaf (n 2 5%Z)) (leaf (n 3 20%Z)) in
  sorted_f o f /\ values_f o f /\
  sp_add_root (Some (gt_of o [Some 10%Z])) (n 4 10%Z) f
  = Cons (n 1 10%Z) (leaf (n 2 5%Z)) (Cons (n 4 10%Z) Nil (leaf (n 3 20%Z))).
Proof.
  split; [simpl; repeat (split; auto)|split; [|reflexivity]].
  - repeat constructor.
  - unfold values_f. simpl. repeat constructor; intros i d [E|[]]; injection E as <- <-; simpl; discriminate.
Qed.
