(** fix_tree(fix_paths=True) renumbers every list of siblings and keeps all parents. *)
From Coq Require Import List Arith ZArith Lia Bool Permutation Sorted.
From Verif Require Import Prelude Forest NumConv SpecFacts PathTab PathMove CommonModel Order MPModel MPStep
  MPInv MPCount MPShift MPReorder MPAdd MPReads MPFixModel MPCheck MPFixLevel SpecSane SpecKids SpecPerm.
Import ListNotations.

(** ** Specification: the order of siblings and the step numbers *)

(** A value before another one; a missing value comes first. *)
Definition val_before (v u : option Z) : Prop :=
  match v, u with
  | None, Some _ => True
  | Some v, Some u => (v < u)%Z
  | _, None => False
  end.

(** [x] need not come after [y]: they agree on all columns of node_order_by, or the first
    column where they differ says so. *)
Inductive in_order : ordering -> fields -> fields -> Prop :=
| io_nil x y : in_order [] x y
| io_eq i d o x y : fval x i = fval y i -> in_order o x y -> in_order ((i, d) :: o) x y
| io_lt i (d : bool) o x y :
    (if d then val_before (fval y i) (fval x i) else val_before (fval x i) (fval y i)) -> in_order ((i, d) :: o) x y.

Lemma in_order_col o x y : in_order o x y <-> col_lt o y x = false.
Proof.
  split.
  - induction 1 as [x y|i d o x y E _ IH|i d o x y H]; cbn [col_lt]; auto.
    + rewrite E. destruct (fval y i) as [v|]; auto. unfold before. rewrite Z.ltb_irrefl, Z.eqb_refl, IH. destruct d; auto.
    + destruct (fval x i) as [v|], (fval y i) as [u|]; destruct d; simpl in *; try tauto; unfold before; auto.
      * destruct (Z.ltb_spec v u), (Z.eqb_spec u v); simpl; auto; lia.
      * destruct (Z.ltb_spec u v), (Z.eqb_spec u v); simpl; auto; lia.
  - induction o as [|[i d] o IH]; cbn [col_lt]; intros H; [constructor|].
    destruct (fval x i) as [v|] eqn:Ex, (fval y i) as [u|] eqn:Ey.
    + unfold before in H. apply orb_false_iff in H. destruct H as [H1 H2].
      destruct (Z.eqb_spec u v) as [->|Nv]; [apply io_eq; [congruence|auto]|].
      apply io_lt. rewrite Ex, Ey. destruct d; simpl; apply Z.ltb_ge in H1; lia.
    + destruct d; simpl in H; [|discriminate]. apply io_lt. rewrite Ex, Ey. exact I.
    + destruct d; simpl in H; [discriminate|]. apply io_lt. rewrite Ex, Ey. exact I.
    + apply io_eq; [congruence|auto].
Qed.

(** [G] is [F] with every list of siblings in the order of [o]; as before if there is none. *)
Definition rearranged (o : ordering) (F G : forest node) : Prop :=
  same_kids F G /\
  match o with
  | [] => G = F
  | _ => forall q L, kid_list q G = Some L -> StronglySorted (fun x y => in_order o (ndata x) (ndata y)) L
  end.

(** The path of every node of [G] is the path of its parent followed by the number of the
    node among its siblings, starting with 1. *)
Definition consecutive (cfg : mp_cfg) (t : mp_table) (G : forest node) : Prop :=
  forall q L i n, kid_list q G = Some L -> nth_error L i = Some n ->
  exists r p, In r t /\ m_pk r = nid n /\ m_path r = p ++ seg cfg (S i) /\
    match q with
    | None => p = []
    | Some j => exists r', In r' t /\ m_pk r' = j /\ m_path r' = p
    end.

(** The same for the children of one node. *)
Definition kids_consecutive (cfg : mp_cfg) (t : mp_table) (G : forest node) (j : nat) : Prop :=
  forall L i n, kid_list (Some j) G = Some L -> nth_error L i = Some n ->
  exists r r', In r t /\ m_pk r = nid n /\ In r' t /\ m_pk r' = j /\ m_path r = m_path r' ++ seg cfg (S i).

(** Beyond the last of the siblings there are as many unused steps as there are siblings. *)
Definition has_room (cfg : mp_cfg) (t : mp_table) : Prop :=
  forall r p k, In r t -> m_path r = p ++ seg cfg k -> k < radix cfg ^ steplen cfg ->
  k + length (filter (fun x => ppre p (m_path x) && (length (m_path x) =? length p + steplen cfg)) t)
    < radix cfg ^ steplen cfg.

Section Paths.
Variable cfg : mp_cfg.
Hypothesis radix2 : 2 <= radix cfg.
Hypothesis step1 : 1 <= steplen cfg.
Notation R := (radix cfg).
Notation w := (steplen cfg).
Notation mkrow := (mkrow cfg).
Notation kpwf := (kpwf cfg).
Notation kvalid := (kvalid cfg).
Notation lay := (lay cfg).
Notation seg := (seg cfg).
Notation maxstep := (maxstep cfg).
Notation tops := (tops cfg).
Notation mkf := (mkf cfg).
Notation arranged := (arranged cfg).
Notation top := (nat * (payload * kf))%type.

(** ** What the renumbered forest looks like *)
Inductive norm : kf -> kf -> Prop :=
| norm_intro f L g : arranged (map snd (tops f)) L -> nums 1 L g -> norm f g
with nums : nat -> list (payload * kf) -> kf -> Prop :=
| nums_nil i : nums i [] Nil
| nums_cons i a k k' L r : norm k k' -> nums (S i) L r -> nums i ((a, k) :: L) (Cons (seg i, a) k' r).

(** [fin Q pre f g]: [f] is a list of siblings below [pre] and [g] what becomes of it when
    the lists below the paths [Q] are still to be renumbered. *)
Inductive fin (Q : list path) : path -> kf -> kf -> Prop :=
| fin_nil pre : fin Q pre Nil Nil
| fin_todo pre s a k k' r r' : In (pre ++ s) Q -> norm k k' -> fin Q pre r r' ->
    fin Q pre (Cons (s, a) k r) (Cons (s, a) k' r')
| fin_done pre s a k k' r r' : ~ In (pre ++ s) Q -> fin Q (pre ++ s) k k' -> fin Q pre r r' ->
    fin Q pre (Cons (s, a) k r) (Cons (s, a) k' r').
Definition fint (Q : list path) (f g : kf) : Prop :=
  (In [] Q /\ norm f g) \/ (~ In [] Q /\ fin Q [] f g).

Lemma fin_ext Q Q' f : forall pre g,
  (forall r, In r (rows f) -> (In (pre ++ fst r) Q <-> In (pre ++ fst r) Q')) -> fin Q' pre f g -> fin Q pre f g.
Proof.
  induction f as [|[s a] k IHk r IHr]; intros pre g E H.
  - inversion H; constructor.
  - assert (E0 := E (s, a) (or_introl eq_refl)). simpl in E0.
    assert (Er : forall x, In x (rows r) -> (In (pre ++ fst x) Q <-> In (pre ++ fst x) Q')).
    { intros x Hx. apply E. simpl. right. apply in_app_iff. auto. }
    inversion H; subst.
    + apply fin_todo; auto. tauto.
    + apply fin_done; auto; [tauto|]. apply IHk; auto. intros x Hx. rewrite <- !app_assoc.
      apply (E (PathTab.pre s x)). simpl. right. apply in_app_iff. left. apply in_map. auto.
Qed.

Lemma fin_none f : forall pre g, fin [] pre f g -> f = g.
Proof.
  induction f as [|[s a] k IHk r IHr]; intros pre g H; inversion H; subst; auto.
  - simpl in *. tauto.
  - f_equal; eauto.
Qed.
Lemma fin_refl f : forall pre, fin [] pre f f.
Proof. induction f as [|[s a] k IHk r IHr]; intros pre; [constructor|]. apply fin_done; simpl; auto. Qed.

(** Paths in different subtrees are not prefixes of each other. *)
Lemma apart s a k r y z : kpwf (Cons (s, a) k r) -> (exists u, y = s ++ u) -> In z (rows r) ->
  ppre (fst z) y = false.
Proof.
  intros (W1 & W2 & W3 & W4) (u & ->) Hz. destruct (ppre (fst z) (s ++ u)) eqn:E; auto. exfalso.
  apply ppre_iff in E. destruct E as [v E]. destruct (rows_top _ _ Hz) as (sa & Hs & x & Ex).
  rewrite Ex, <- app_assoc in E. apply app_eq_len in E.
  - destruct E as [E _]. rewrite Forall_forall in W4. specialize (W4 _ Hs). simpl in W4. rewrite E in W4.
    rewrite llt_irr in W4 by apply irr. discriminate.
  - simpl in W1. rewrite W1. symmetry. apply roots_len with Nat.ltb r; auto.
Qed.
Lemma apart' s a k r y z : kpwf (Cons (s, a) k r) -> (exists u, y = s ++ u) -> In z (rows r) ->
  ppre s (fst z) = false.
Proof.
  intros (W1 & W2 & W3 & W4) _ Hz. destruct (ppre s (fst z)) eqn:E; auto. exfalso.
  apply ppre_iff in E. destruct E as [v E]. destruct (rows_top _ _ Hz) as (sa & Hs & x & Ex).
  rewrite Ex in E. apply app_eq_len in E.
  - destruct E as [E _]. rewrite Forall_forall in W4. specialize (W4 _ Hs). simpl in W4. rewrite E in W4.
    rewrite llt_irr in W4 by apply irr. discriminate.
  - simpl in W1. rewrite W1. apply roots_len with Nat.ltb r; auto.
Qed.
Lemma ppre_cancel p a b : ppre (p ++ a) (p ++ b) = ppre a b.
Proof. apply prefixb_pre; auto using irr, ltb_tot'. Qed.

(** ** One turn of the loop does what is to be done below its path *)
Section Turn.
Variables Q Q' : list path.

Lemma fin_At q a (l l' f f' : kf) : At q (Some (a, a)) l l' f f' -> forall pre g, kpwf f ->
  (forall y, ppre (pre ++ q) y = false -> (In y Q <-> In y Q')) ->
  In (pre ++ q) Q -> ~ In (pre ++ q) Q' -> (forall y, In y Q -> ppre y (pre ++ q) = true -> y = pre ++ q) ->
  (forall h, fin Q' (pre ++ q) l' h -> norm l h) -> fin Q' pre f' g -> fin Q pre f g.
Proof.
  remember (Some (a, a)) as pa. intros HA. revert Heqpa.
  induction HA as [|s b b' l l' r|q aa l l' [s b] k k' r HA IH|q aa l l' [s b] k r r' HA IH];
    intros Epa pre g W Ag I1 I2 An Hn H; try discriminate.
  - injection Epa as -> ->. inversion H as [|? ? ? ? k1 ? r1 Hi|? ? ? ? k1 ? r1 Hi Hk Hr]; subst; [tauto|].
    apply fin_todo; auto. apply fin_ext with Q'; auto. intros x Hx. apply Ag.
    rewrite ppre_cancel. apply (apart' s a l r s x W); auto. exists []. rewrite app_nil_r. auto.
  - injection Epa as ->. cbn [fst] in *.
    assert (Wk : kpwf k) by apply W.
    assert (Nq : q <> []) by (eapply k_At_nonempty; eauto).
    assert (Ls : ppre (pre ++ s ++ q) (pre ++ s) = false).
    { destruct (ppre (pre ++ s ++ q) (pre ++ s)) eqn:E; auto. apply ppre_iff in E. destruct E as [v E].
      rewrite <- !app_assoc in E. apply app_inv_head in E. rewrite <- (app_nil_r s) in E at 1.
      apply app_inv_head in E. symmetry in E. apply app_eq_nil in E. tauto. }
    assert (Ns : ~ In (pre ++ s) Q).
    { intros X. apply An in X; [|rewrite app_assoc; apply ppre_app]. rewrite app_assoc in X.
      rewrite <- (app_nil_r (pre ++ s)) in X at 1. apply app_inv_head in X. auto. }
    inversion H as [|? ? ? ? k1 ? r1 Hi|? ? ? ? k1 ? r1 Hi Hk Hr]; subst.
    { exfalso. apply Ns. apply (Ag _ Ls). auto. }
    apply fin_done; auto.
    + apply (IH eq_refl); auto; rewrite <- app_assoc; auto.
    + apply fin_ext with Q'; auto. intros x Hx. apply Ag. rewrite ppre_cancel.
      destruct (ppre (s ++ q) (fst x)) eqn:E; auto. exfalso. apply ppre_iff in E. destruct E as [v E].
      assert (X := apart' s b k r s x W). rewrite E, <- app_assoc, ppre_app in X.
      assert (true = false); [|discriminate]. apply X; auto. exists []. rewrite app_nil_r. auto.
  - injection Epa as ->. assert (Wr : kpwf r) by apply W.
    assert (Hq : In (q, a) (rows r)) by (eapply k_At_in; eauto).
    assert (Ag' : forall u, In (pre ++ s ++ u) Q <-> In (pre ++ s ++ u) Q').
    { intros u. apply Ag. rewrite ppre_cancel. apply (apart s b k r (s ++ u) (q, a) W); eauto. }
    assert (Ag0 := Ag' []). rewrite app_nil_r in Ag0.
    inversion H as [|? ? ? ? k1 ? r1 Hi|? ? ? ? k1 ? r1 Hi Hk Hr]; subst.
    + apply fin_todo; [tauto|auto|]. apply (IH eq_refl); auto.
    + apply fin_done; [tauto| |]; [|apply (IH eq_refl); auto].
      apply fin_ext with Q'; auto. intros x Hx. rewrite <- app_assoc. apply Ag'.
Qed.
End Turn.

(** The number of lists that can still come up. *)
Definition inb (p : path) (Q : list path) : bool := if in_dec (list_eq_dec Nat.eq_dec) p Q then true else false.
Lemma inb_iff p Q : inb p Q = true <-> In p Q.
Proof. unfold inb. destruct (in_dec _ p Q); split; auto; discriminate. Qed.
Lemma inb_false p Q : inb p Q = false <-> ~ In p Q.
Proof. unfold inb. destruct (in_dec _ p Q); split; auto; try discriminate; tauto. Qed.

Fixpoint cost (Q : list path) (pre : path) (f : kf) : nat :=
  match f with
  | Nil => 0
  | Cons (s, a) k r => (if inb (pre ++ s) Q then S (size k) else cost Q (pre ++ s) k) + cost Q pre r
  end.
Definition costt (Q : list path) (f : kf) : nat := if inb [] Q then S (size f) else cost Q [] f.

Lemma cost_ext Q Q' f : forall pre,
  (forall r, In r (rows f) -> (In (pre ++ fst r) Q <-> In (pre ++ fst r) Q')) -> cost Q pre f = cost Q' pre f.
Proof.
  induction f as [|[s a] k IHk r IHr]; intros pre E; auto. cbn [cost].
  assert (E0 := E (s, a) (or_introl eq_refl)). cbn [fst] in E0. rewrite <- !inb_iff in E0.
  f_equal.
  - destruct (inb (pre ++ s) Q), (inb (pre ++ s) Q'); auto; try (exfalso; intuition discriminate).
    apply IHk. intros x Hx. rewrite <- !app_assoc. apply (E (PathTab.pre s x)). simpl. right.
    apply in_app_iff. left. apply in_map. auto.
  - apply IHr. intros x Hx. apply E. simpl. right. apply in_app_iff. auto.
Qed.

Lemma cost_At Q Q' q a (l l' f f' : kf) : At q (Some (a, a)) l l' f f' -> forall pre, kpwf f ->
  (forall y, ppre (pre ++ q) y = false -> (In y Q <-> In y Q')) ->
  In (pre ++ q) Q -> ~ In (pre ++ q) Q' -> (forall y, In y Q -> ppre y (pre ++ q) = true -> y = pre ++ q) ->
  cost Q pre f + cost Q' (pre ++ q) l' = cost Q' pre f' + S (size l).
Proof.
  remember (Some (a, a)) as pa. intros HA. revert Heqpa.
  induction HA as [|s b b' l l' r|q aa l l' [s b] k k' r HA IH|q aa l l' [s b] k r r' HA IH];
    intros Epa pre W Ag I1 I2 An; try discriminate; cbn [cost fst] in *.
  - injection Epa as -> ->. rewrite (proj2 (inb_iff _ _) I1), (proj2 (inb_false _ _) I2).
    rewrite (cost_ext Q Q' r); [lia|]. intros x Hx. apply Ag.
    rewrite ppre_cancel. apply (apart' s a l r s x W); auto. exists []. rewrite app_nil_r. auto.
  - injection Epa as ->. cbn [fst] in *.
    assert (Wk : kpwf k) by apply W.
    assert (Nq : q <> []) by (eapply k_At_nonempty; eauto).
    assert (Ls : ppre (pre ++ s ++ q) (pre ++ s) = false).
    { destruct (ppre (pre ++ s ++ q) (pre ++ s)) eqn:E; auto. apply ppre_iff in E. destruct E as [v E].
      rewrite <- !app_assoc in E. apply app_inv_head in E. rewrite <- (app_nil_r s) in E at 1.
      apply app_inv_head in E. symmetry in E. apply app_eq_nil in E. tauto. }
    assert (Ns : ~ In (pre ++ s) Q).
    { intros X. apply An in X; [|rewrite app_assoc; apply ppre_app]. rewrite app_assoc in X.
      rewrite <- (app_nil_r (pre ++ s)) in X at 1. apply app_inv_head in X. auto. }
    assert (Ns' : ~ In (pre ++ s) Q') by (rewrite <- (Ag _ Ls); auto).
    rewrite (proj2 (inb_false _ _) Ns), (proj2 (inb_false _ _) Ns').
    assert (X := IH eq_refl (pre ++ s) Wk). rewrite <- app_assoc in X. specialize (X Ag I1 I2 An).
    rewrite (cost_ext Q Q' r); [lia|]. intros x Hx. apply Ag. rewrite ppre_cancel.
    destruct (ppre (s ++ q) (fst x)) eqn:E; auto. exfalso. apply ppre_iff in E. destruct E as [v E].
    assert (Y := apart' s b k r s x W). rewrite E, <- app_assoc, ppre_app in Y.
    assert (true = false); [|discriminate]. apply Y; auto. exists []. rewrite app_nil_r. auto.
  - injection Epa as ->. assert (Wr : kpwf r) by apply W.
    assert (Hq : In (q, a) (rows r)) by (eapply k_At_in; eauto).
    assert (Ag' : forall u, In (pre ++ s ++ u) Q <-> In (pre ++ s ++ u) Q').
    { intros u. apply Ag. rewrite ppre_cancel. apply (apart s b k r (s ++ u) (q, a) W); eauto. }
    assert (Ag0 := Ag' []). rewrite app_nil_r, <- !inb_iff in Ag0.
    assert (X := IH eq_refl pre Wr Ag I1 I2 An).
    rewrite (cost_ext Q Q' k (pre ++ s)); [|intros x Hx; rewrite <- app_assoc; apply Ag'].
    destruct (inb (pre ++ s) Q), (inb (pre ++ s) Q'); try lia; exfalso; intuition discriminate.
Qed.
(** *** The list after a turn *)
Lemma nc_tops l : nc_ok l <-> Forall (fun x : payload * kf => snd (fst x) = length (roots (snd x)) /\ nc_ok (snd x)) (map snd (tops l)).
Proof.
  induction l as [|[s a] k _ r IH]; simpl; [split; auto|]. rewrite Forall_cons_iff, IH. simpl. tauto.
Qed.
Lemma nc_mkf T : nc_ok (mkf T) <-> Forall (fun x : payload * kf => snd (fst x) = length (roots (snd x)) /\ nc_ok (snd x)) (map snd T).
Proof.
  induction T as [|[k [a c]] T IH]; simpl; [split; auto|]. rewrite Forall_cons_iff, IH. simpl. tauto.
Qed.
Lemma roots_mkf T : roots (mkf T) = map (fun t : top => (seg (fst t), fst (snd t))) T.
Proof. induction T as [|[k [a c]] T IH]; simpl; auto. f_equal. auto. Qed.

Definition szl (L : list (payload * kf)) : nat := list_sum (map (fun x => S (size (snd x))) L).
Lemma size_tops l : size l = szl (map snd (tops l)).
Proof. unfold szl. induction l as [|[s a] k _ r IH]; simpl; auto. Qed.
Lemma szl_perm L L' : Permutation L L' -> szl L = szl L'.
Proof. unfold szl. intros P. induction P; simpl in *; try lia. Qed.

Lemma norm_nil : norm Nil Nil.
Proof.
  apply norm_intro with []; [|constructor]. split; simpl; auto. destruct (is_sorted cfg); auto. constructor.
Qed.

Lemma fin_level Q p L : forall i h,
  (forall t, In t (number i L) -> (In (p ++ seg (fst t)) Q <-> full t = true)) ->
  Forall (fun x : payload * kf => snd (fst x) = length (roots (snd x)) /\ nc_ok (snd x)) L ->
  fin Q p (mkf (number i L)) h -> nums i L h.
Proof.
  induction L as [|[a k] L IH]; intros i h F N H.
  - inversion H; constructor.
  - unfold number in *. cbn [length seq combine mkf MPFixLevel.mkf] in *. fold (number (S i) L) in *.
    inversion N as [|? ? N1 N2]; subst. cbn [fst snd] in N1.
    assert (F0 := F (i, (a, k)) (or_introl eq_refl)). unfold full in F0. cbn [fst snd] in F0.
    assert (F1 : forall t, In t (number (S i) L) -> (In (p ++ seg (fst t)) Q <-> full t = true)).
    { intros t Ht. apply F. right. auto. }
    inversion H as [|? ? ? ? k1 ? r1 Hi Hk Hr|? ? ? ? k1 ? r1 Hi Hk Hr]; subst.
    + constructor; auto.
    + constructor; auto. destruct (Nat.eqb_spec (snd a) 0) as [E|E].
      * destruct k as [|x k r]; [|simpl in N1; lia]. inversion Hk. apply norm_nil.
      * exfalso. apply Hi. apply F0. auto.
Qed.

Lemma cost_level Q p L : forall i,
  (forall t, In t (number i L) -> (In (p ++ seg (fst t)) Q <-> full t = true)) ->
  Forall (fun x : payload * kf => snd (fst x) = length (roots (snd x)) /\ nc_ok (snd x)) L ->
  cost Q p (mkf (number i L)) <= szl L.
Proof.
  induction L as [|[a k] L IH]; intros i F N; [simpl; lia|].
  unfold number in *. cbn [length seq combine mkf MPFixLevel.mkf cost] in *. fold (number (S i) L) in *.
  inversion N as [|? ? N1 N2]; subst. cbn [fst snd] in N1.
  assert (F0 := F (i, (a, k)) (or_introl eq_refl)). unfold full in F0. cbn [fst snd] in F0.
  assert (F1 : forall t, In t (number (S i) L) -> (In (p ++ seg (fst t)) Q <-> full t = true)).
  { intros t Ht. apply F. right. auto. }
  specialize (IH (S i) F1 N2). change (szl ((a, k) :: L)) with (S (size k) + szl L).
  assert (X : (if inb (p ++ seg i) Q then S (size k) else cost Q (p ++ seg i) k) <= S (size k)); [|fold (number (S i) L) in IH; lia].
  destruct (inb (p ++ seg i) Q) eqn:E; auto. apply inb_false in E.
  destruct (Nat.eqb_spec (snd a) 0) as [E0|E0].
  - destruct k as [|x k r]; [simpl; lia|simpl in N1; lia].
  - exfalso. apply E. apply F0. auto.
Qed.

(** *** Free steps *)
Definition fits (l : kf) : Prop := list_max (map fst (tops l)) + length (tops l) < maxstep.
Fixpoint kroom (f : kf) : Prop :=
  match f with Nil => True | Cons x k r => fits k /\ kroom k /\ kroom r end.
Definition roomy (f : kf) : Prop := fits f /\ kroom f.

Lemma kroom_tops l : kroom l <-> Forall (fun x : payload * kf => fits (snd x) /\ kroom (snd x)) (map snd (tops l)).
Proof. induction l as [|[s a] k _ r IH]; simpl; [split; auto|]. rewrite Forall_cons_iff, IH. simpl. tauto. Qed.
Lemma kroom_mkf T : kroom (mkf T) <-> Forall (fun x : payload * kf => fits (snd x) /\ kroom (snd x)) (map snd T).
Proof. induction T as [|[k [a c]] T IH]; simpl; [split; auto|]. rewrite Forall_cons_iff, IH. simpl. tauto. Qed.
Lemma room_At q o (l l' f f' : kf) : At q (pd o) l l' f f' -> roomy f ->
  roomy l /\ (roomy l' -> roomy f').
Proof.
  assert (G : forall q pa l l' f f', At q pa l l' f f' -> pa <> None -> kroom f ->
    roomy l /\ (roomy l' -> kroom f' /\ map fst (tops f') = map fst (tops f))).
  { clear. induction 1; intros Np K; try congruence.
    - simpl in K. split; [split; tauto|]. intros [Y1 Y2]. simpl. tauto.
    - simpl in K. destruct IHAt as [X Y]; try congruence; [tauto|]. split; auto.
      intros Z. destruct (Y Z) as [Y1 Y2]. simpl. split; auto. split; [|tauto].
      unfold fits in *. rewrite Y2. rewrite <- (map_length fst (tops k')), Y2, map_length. tauto.
    - simpl in K. destruct IHAt as [X Y]; try congruence; [tauto|]. split; auto.
      intros Z. destruct (Y Z) as [Y1 Y2]. simpl. split; [tauto|congruence]. }
  intros H [Y1 Y2]. destruct o as [a|].
  - destruct (G _ _ _ _ _ _ H) as [X Y]; try discriminate; auto. split; auto. intros Z. destruct (Y Z) as [Z1 Z2].
    split; auto. unfold fits in *. rewrite Z2. rewrite <- (map_length fst (tops f')), Z2, map_length. auto.
  - inversion H; subst. split; [split; auto|auto].
Qed.

Lemma tops_number i L : forall t, In t (number i L) -> i <= fst t < i + length L.
Proof.
  intros [k x] H. unfold number in H. apply in_combine_l in H. apply in_seq in H. auto.
Qed.

Lemma prefix_total x y z : ppre x z = true -> ppre y z = true -> ppre x y = true \/ ppre y x = true.
Proof.
  intros Hx Hy. apply ppre_iff in Hx, Hy. destruct Hx as [u ->]. destruct Hy as [v E].
  revert y E. induction x as [|c x IH]; intros y E; [left; apply (ppre_app [] y)|].
  destruct y as [|d y]; [right; apply (ppre_app [] (c :: x))|].
  simpl in E. injection E as -> E. destruct (IH y E) as [H|H]; apply ppre_iff in H; destruct H as [m ->].
  - left. apply (ppre_app (d :: x) m).
  - right. apply (ppre_app (d :: y) m).
Qed.
(** ** The loop *)
Record queued (Q : list (path * nat)) (f : kf) : Prop := {
  qu_nodup : NoDup (map fst Q);
  qu_anti : forall x y, In x (map fst Q) -> In y (map fst Q) -> ppre x y = true -> x = y;
  qu_rows : forall x, In x (map fst Q) -> x = [] \/ In x (map fst (rows f));
  qu_depth : forall p d, In (p, d) Q -> exists n, d = S n /\ length p = n * w }.

Lemma ents_paths p n T x : In x (map fst (ents cfg p n T)) <-> exists t, In t T /\ full t = true /\ x = p ++ seg (fst t).
Proof.
  unfold ents. rewrite map_map. cbn [fst]. rewrite in_map_iff. split.
  - intros (t & <- & Ht). apply filter_In in Ht. exists t. tauto.
  - intros (t & H1 & H2 & ->). exists t. split; auto. apply filter_In. auto.
Qed.

Lemma ppre_refl p : ppre p p = true.
Proof. rewrite <- (app_nil_r p) at 2. apply ppre_app. Qed.

Section OneTurn.
Variables (f f' l : kf) (p : path) (o : option payload) (n : nat) (L : list (payload * kf)) (Q : list (path * nat)).
Hypothesis W : kpwf f.
Hypothesis W' : kpwf f'.
Hypothesis V : kvalid f.
Hypothesis N : nc_ok f.
Hypothesis HA : At p (pd o) l (mkf (number 1 L)) f f'.
Hypothesis Ep : length p = n * w.
Hypothesis Ar : arranged (map snd (tops l)) L.
Hypothesis HQ : queued ((p, S n) :: Q) f.
Notation Q' := (Q ++ ents cfg p n (number 1 L)).
Notation T := (number 1 L).

Lemma ot_wl : kpwf (mkf T).
Proof.
  assert (X : At p (pd o) (mkf T) l f' f).
  { apply At_sym in HA. destruct o; auto. }
  eapply k_At_pwf_l; eauto.
Qed.
Lemma ot_seg t : In t T -> length (seg (fst t)) = w.
Proof.
  intros Ht. change (length (fst (seg (fst t), fst (snd t))) = w).
  apply roots_len with Nat.ltb (mkf T); [apply ot_wl|]. rewrite roots_mkf. apply in_map_iff. eauto.
Qed.
Lemma ot_nonempty t : In t T -> seg (fst t) <> [].
Proof. intros Ht E. assert (X := ot_seg t Ht). rewrite E in X. simpl in X. lia. Qed.

Lemma ot_notin : ~ In p (map fst Q).
Proof. destruct HQ as [U _ _ _]. simpl in U. inversion U; auto. Qed.
Lemma ot_apart y : In y (map fst Q) -> ppre p y = false /\ ppre y p = false.
Proof.
  intros Hy. assert (A := qu_anti _ _ HQ). assert (Ny := ot_notin).
  split.
  - destruct (ppre p y) eqn:E; auto. apply A in E; simpl; auto. congruence.
  - destruct (ppre y p) eqn:E; auto. apply A in E; simpl; auto. congruence.
Qed.
Lemma ot_new t : In t T -> (In (p ++ seg (fst t)) (map fst Q') <-> full t = true).
Proof.
  intros Ht. rewrite map_app, in_app_iff, ents_paths. split.
  - intros [H|(t' & H1 & H2 & H3)].
    + apply ot_apart in H. rewrite ppre_app in H. destruct H. discriminate.
    + apply app_inv_head in H3. apply seg_inj in H3; auto.
      assert (t = t'); [|congruence]. eapply (NoDup_map_inj fst); eauto.
      rewrite number_fst. apply seq_NoDup.
  - intros H. right. eauto.
Qed.
Lemma ot_agree y : ppre p y = false -> (In y (p :: map fst Q) <-> In y (map fst Q')).
Proof.
  intros E. rewrite map_app, in_app_iff, ents_paths. simpl. split.
  - intros [<-|H]; auto. rewrite ppre_refl in E. discriminate.
  - intros [H|(t & _ & _ & ->)]; auto. rewrite ppre_app in E. discriminate.
Qed.
Lemma ot_gone : ~ In p (map fst Q').
Proof.
  rewrite map_app, in_app_iff, ents_paths. intros [H|(t & H1 & H2 & H3)].
  - apply ot_notin. auto.
  - rewrite <- (app_nil_r p) in H3 at 1. apply app_inv_head in H3. apply (ot_nonempty t H1). auto.
Qed.
Lemma ot_ncL : Forall (fun x : payload * kf => snd (fst x) = length (roots (snd x)) /\ nc_ok (snd x)) L.
Proof.
  assert (Nl := nc_At_l _ _ _ _ _ _ HA N). apply nc_tops in Nl. destruct Ar as [P _].
  rewrite Forall_forall in *. intros x Hx. apply Nl. eapply Permutation_in; [symmetry; apply P|auto].
Qed.
Lemma ot_len : length (roots (mkf T)) = length (roots l).
Proof.
  rewrite roots_mkf, map_length. rewrite <- (map_length snd T), number_snd.
  destruct Ar as [P _]. rewrite <- (Permutation_length P), map_length.
  clear. induction l as [|x k _ r IH]; simpl; auto.
Qed.
Lemma ot_nc : nc_ok f'.
Proof.
  eapply nc_At; [apply HA|auto| |].
  - apply nc_mkf. rewrite number_snd. apply ot_ncL.
  - intros a a' E. rewrite ot_len. destruct o as [b|]; [|discriminate]. injection E as <- <-.
    apply (nc_At_par _ _ _ _ _ _ _ HA N).
Qed.

Lemma ot_queued : queued Q' f'.
Proof.
  assert (Ny := ot_notin). constructor.
  - rewrite map_app. apply NoDup_app_iff. split; [|split].
    + destruct HQ as [U _ _ _]. simpl in U. inversion U; auto.
    + unfold ents. rewrite map_map. cbn [fst].
      assert (U : NoDup (map fst (filter full T))).
      { assert (U : NoDup (map fst T)) by (rewrite number_fst; apply seq_NoDup).
        clear - U. induction T as [|t S IH]; simpl; [constructor|]. inversion U; subst.
        destruct (full t); simpl; auto. constructor; auto. rewrite in_map_iff. intros (x & E & Hx).
        apply filter_In in Hx. apply H1. rewrite <- E. apply in_map. tauto. }
      clear - U radix2. induction (filter full T) as [|t S IH]; simpl in *; constructor.
      * inversion U; subst. rewrite in_map_iff. intros (t' & E & Ht'). apply app_inv_head in E.
        apply seg_inj in E; auto. apply H1. rewrite <- E. apply in_map. auto.
      * apply IH. inversion U; auto.
    + intros x Hx Hx'. apply ents_paths in Hx'. destruct Hx' as (t & _ & _ & ->).
      apply ot_apart in Hx. rewrite ppre_app in Hx. destruct Hx. discriminate.
  - intros x y. rewrite map_app, !in_app_iff, !ents_paths. intros Hx Hy Pxy.
    destruct Hx as [Hx|(t & Ht & Ft & ->)], Hy as [Hy|(u & Hu & Fu & ->)].
    + apply (qu_anti _ _ HQ); simpl; auto.
    + exfalso. apply ot_apart in Hx. destruct (prefix_total x p (p ++ seg (fst u)) Pxy (ppre_app _ _)); intuition congruence.
    + exfalso. apply ot_apart in Hy. apply ppre_iff in Pxy. destruct Pxy as [v Ev]. rewrite Ev, <- app_assoc, ppre_app in Hy.
      destruct Hy. discriminate.
    + rewrite ppre_cancel in Pxy. apply ppre_iff in Pxy. destruct Pxy as [v Ev]. f_equal.
      rewrite <- (app_nil_r (seg (fst u))) in Ev. apply app_eq_len in Ev; [symmetry; tauto|].
      rewrite !ot_seg; auto.
  - intros x. rewrite map_app, in_app_iff, ents_paths. intros [Hx|(t & Ht & Ft & ->)].
    + assert (Ax := ot_apart x Hx). destruct (qu_rows _ _ HQ x) as [->|Hr]; [simpl; auto|auto|]. right.
      destruct (@At_rows _ Nat.ltb w payload irr ltb_tot' step1 _ _ _ _ _ _ HA) as (R0 & P1 & P2 & _).
      rewrite (Permutation_map fst P1), !map_app, !in_app_iff in Hr.
      rewrite (Permutation_map fst P2), !map_app, !in_app_iff.
      destruct Hr as [Hr|[Hr|Hr]]; [|auto|].
      * left. rewrite <- pd_diag. auto.
      * exfalso. rewrite map_map in Hr. apply in_map_iff in Hr. destruct Hr as (r & <- & _). simpl in Ax.
        rewrite ppre_app in Ax. destruct Ax. discriminate.
    + right. apply in_map_iff. exists (p ++ seg (fst t), fst (snd t)). split; auto.
      assert (X : At p (pd o) (mkf T) (mkf T) f' f').
      { destruct (At_step p o _ _ (mkf T) _ _ HA) as (f'' & H1 & _). eapply At_pd_refl; eauto. }
      eapply k_root_in; eauto. rewrite roots_mkf. apply in_map_iff. eauto.
  - intros x d. rewrite in_app_iff. intros [Hx|Hx].
    + apply (qu_depth _ _ HQ). right. auto.
    + unfold ents in Hx. apply in_map_iff in Hx. destruct Hx as (t & E & Ht). injection E as <- <-.
      apply filter_In in Ht. exists (S n). split; [lia|]. rewrite app_length, ot_seg by tauto. simpl. lia.
Qed.

Lemma ot_fint g : fint (map fst Q') f' g -> fint (p :: map fst Q) f g.
Proof.
  assert (Hn : forall h, fin (map fst Q') p (mkf T) h -> norm l h).
  { intros h Hh. apply norm_intro with L; auto. eapply fin_level; eauto using ot_new, ot_ncL. }
  assert (Gone := ot_gone). assert (Agree := ot_agree). intros H. destruct o as [a|].
  - assert (Np : p <> []) by (eapply k_At_nonempty; eauto).
    assert (N0 : ~ In [] (p :: map fst Q)).
    { intros X. apply Np. symmetry. apply (qu_anti _ _ HQ); [auto|left; auto|]. apply (ppre_app [] p). }
    destruct H as [[H _]|[_ H]].
    + exfalso. rewrite map_app, in_app_iff, ents_paths in H. destruct H as [H|(t & _ & _ & E)]; [apply N0; right; auto|].
      symmetry in E. apply app_eq_nil in E. tauto.
    + right. split; auto. eapply (fin_At (p :: map fst Q) (map fst Q') p a l (mkf T) f f' HA []); eauto.
      * left. auto.
      * intros y Hy E. apply (qu_anti _ _ HQ); simpl; auto.
  - inversion HA; subst. left. split; [left; auto|]. destruct H as [[H _]|[_ H]]; auto.
    exfalso. apply Gone. auto.
Qed.

Lemma ot_cost : costt (map fst Q') f' < costt (p :: map fst Q) f.
Proof.
  assert (B := cost_level (map fst Q') p L 1 ot_new ot_ncL).
  assert (Z : szl L = size l) by (rewrite size_tops; apply szl_perm; symmetry; apply Ar).
  assert (Gone := ot_gone). assert (Agree := ot_agree). unfold costt. destruct o as [a|].
  - assert (Np : p <> []) by (eapply k_At_nonempty; eauto).
    assert (N0 : ~ In [] (p :: map fst Q)).
    { intros X. apply Np. symmetry. apply (qu_anti _ _ HQ); [auto|left; auto|]. apply (ppre_app [] p). }
    assert (N1 : ~ In [] (map fst Q')).
    { rewrite map_app, in_app_iff, ents_paths. intros [H|(t & _ & _ & E)]; [apply N0; right; auto|].
      symmetry in E. apply app_eq_nil in E. tauto. }
    rewrite (proj2 (inb_false _ _) N0), (proj2 (inb_false _ _) N1).
    assert (X := cost_At (p :: map fst Q) (map fst Q') p a l (mkf T) f f' HA [] W).
    cbn [app] in X. assert (Y : cost (p :: map fst Q) [] f + cost (map fst Q') p (mkf T) = cost (map fst Q') [] f' + S (size l)).
    { apply X; [apply Agree|left; auto|apply Gone|]. intros y Hy E. apply (qu_anti _ _ HQ); simpl; auto. }
    lia.
  - inversion HA; subst. rewrite (proj2 (inb_iff [] ([] :: map fst Q)) (or_introl eq_refl)).
    rewrite (proj2 (inb_false _ _) Gone). lia.
Qed.

Lemma ot_room : roomy f -> roomy f'.
Proof.
  intros Rm. destruct (room_At _ _ _ _ _ _ HA Rm) as [[R1 R2] K]. apply K. split.
  - unfold fits in *. destruct Ar as [P _].
    assert (V0 : tops (mkf T) = T).
    { clear - radix2. induction T as [|[k [a c]] S IH]; simpl; auto. rewrite seg_val by auto. f_equal. auto. }
    assert (E : length T = length (tops l)).
    { rewrite <- (map_length snd T), number_snd, <- (Permutation_length P), map_length. auto. }
    rewrite V0, E. rewrite number_fst.
    assert (M : list_max (seq 1 (length L)) <= length L).
    { apply list_max_le. apply Forall_forall. intros k Hk. apply in_seq in Hk. lia. }
    assert (length L = length (tops l)) by (rewrite <- (Permutation_length P), map_length; auto).
    assert (K2 : length (tops l) <= list_max (map fst (tops l))); [|lia].
    assert (Vl : kvalid l) by (apply (kvalid_At_l cfg _ _ _ _ _ _ HA V)).
    assert (Wl : kpwf l) by (apply (k_At_pwf_l cfg _ _ _ _ _ _ HA W)).
    apply (keys_bound cfg); [apply (sorted_nodup cfg radix2 step1), tops_sorted; auto|apply (tops_okey cfg); auto|].
    intros t Ht. assert (X := proj1 (list_max_le (map fst (tops l)) _) (le_n _)).
    rewrite Forall_forall in X. apply X. apply in_map. auto.
  - apply kroom_mkf. rewrite number_snd. apply kroom_tops in R2. destruct Ar as [P _].
    rewrite Forall_forall in *. intros x Hx. apply R2. eapply Permutation_in; [symmetry; apply P|auto].
Qed.
End OneTurn.
Lemma cost_pos Q p a : forall (f : kf) pre p', In (pre ++ p) Q -> p = p' -> In (p', a) (rows f) -> 1 <= cost Q pre f.
Proof.
  intros f. revert p. induction f as [|[s b] k IHk r IHr]; intros p pre p' Hq Ep Hr; [inversion Hr|]. subst p'.
  cbn [cost]. simpl in Hr. destruct Hr as [E|Hr].
  - injection E as -> ->. rewrite (proj2 (inb_iff _ _) Hq). lia.
  - apply in_app_iff in Hr. destruct Hr as [Hr|Hr].
    + apply in_map_iff in Hr. destruct Hr as ([x c] & E & Hx). unfold PathTab.pre in E. cbn [fst snd] in E. injection E as <- ->.
      destruct (inb (pre ++ s) Q); [lia|]. assert (1 <= cost Q (pre ++ s) k); [|lia].
      apply (IHk x (pre ++ s) x); auto. rewrite <- app_assoc. auto.
    + assert (1 <= cost Q pre r); [|lia]. eapply IHr; eauto.
Qed.

Theorem fix_loop_ok : forall fuel db f Q,
  lay (db_rows db) f -> nc_ok f -> NoDup (map m_pk (db_rows db)) -> queued Q f -> costt (map fst Q) f <= fuel ->
  match fix_loop cfg fuel db Q with
  | Ok db' => map m_pk (db_rows db') = map m_pk (db_rows db) /\
      exists g, fint (map fst Q) f g /\ lay (db_rows db') g /\ nc_ok g
  | Err e => e = PathOverflow /\ is_sorted cfg = true /\ ~ roomy f
  end.
Proof.
  induction fuel as [|fuel IH]; intros db f Q HL N U HQ C.
  - destruct Q as [|[p d] Q]; cbn [fix_loop].
    + split; auto. exists f. split; auto. right. split; auto. apply fin_refl.
    + exfalso. destruct (qu_rows _ _ HQ p (or_introl eq_refl)) as [->|Hp].
      { unfold costt in C. rewrite (proj2 (inb_iff [] (map fst (([], d) :: Q))) (or_introl eq_refl)) in C. lia. }
      apply in_map_iff in Hp. destruct Hp as ([p' a] & E & Hp). simpl in E. subst p'.
      unfold costt in C. destruct (inb [] _); [lia|].
      assert (X := cost_pos (map fst ((p, d) :: Q)) p a f [] p (or_introl eq_refl) eq_refl Hp). lia.
  - destruct Q as [|[p d] Q]; cbn [fix_loop].
    { split; auto. exists f. split; auto. right. split; auto. apply fin_refl. }
    assert (W : kpwf f) by apply HL. assert (V : kvalid f) by apply HL.
    destruct (qu_depth _ _ HQ p d (or_introl eq_refl)) as (n & -> & Ep).
    assert (HA : exists o l, At p (pd o) l l f f).
    { destruct (qu_rows _ _ HQ p (or_introl eq_refl)) as [->|Hp].
      - exists None, f. apply At_top.
      - apply in_map_iff in Hp. destruct Hp as ([p' a] & E & Hp). simpl in E. subst p'.
        destruct (At_of_row f p a Hp) as [l Hl]. exists (Some a), l. auto. }
    destruct HA as (o & l & HA).
    assert (H := fix_level_ok cfg radix2 step1 db f p o l n Q HL U HA Ep).
    destruct (fix_level cfg db p (S n) Q) as [[db1 Q1]|e]; cbn [bind].
    2: { destruct H as (-> & Es & M). split; auto. split; auto. intros Rm.
         destruct (room_At _ _ _ _ _ _ HA Rm) as [[R1 _] _]. unfold fits in R1. lia. }
    destruct H as (Epk & L & f' & Ar & L' & HA' & ->).
    assert (W' : kpwf f') by apply L'.
    assert (C' : costt (map fst (Q ++ ents cfg p n (number 1 L))) f' < costt (p :: map fst Q) f) by (eapply ot_cost with (o := o) (l := l); eauto).
    assert (N' : nc_ok f') by (eapply ot_nc with (o := o) (l := l); eauto).
    assert (HQ' : queued (Q ++ ents cfg p n (number 1 L)) f') by (eapply ot_queued with (o := o) (l := l); eauto).
    assert (U1 : NoDup (map m_pk (db_rows db1))) by (rewrite Epk; auto).
    cbn [map fst] in C.
    assert (IH1 := IH db1 f' _ L' N' U1 HQ' ltac:(lia)).
    destruct (fix_loop cfg fuel db1 (Q ++ ents cfg p n (number 1 L))) as [db'|e].
    + destruct IH1 as (Epk' & g & Hg & Lg & Ng). split; [congruence|]. exists g. split; auto.
      eapply ot_fint with (o := o) (l := l); eauto.
    + destruct IH1 as (-> & Es & Nr). split; auto. split; auto. intros Rm. apply Nr. eapply ot_room with (f := f) (o := o) (l := l); eauto.
Qed.
(** ** What that means for the forest *)
Scheme norm_min := Minimality for norm Sort Prop
  with nums_min := Minimality for nums Sort Prop.
Combined Scheme norm_nums from norm_min, nums_min.

(** All nodes with their children. *)
Fixpoint allk (f : kf) : list (payload * kf) :=
  match f with Nil => [] | Cons x k r => (snd x, k) :: allk k ++ allk r end.
Definition alll (L : list (payload * kf)) : list (payload * kf) := flat_map (fun x => x :: allk (snd x)) L.

Lemma allk_tops l : allk l = alll (map snd (tops l)).
Proof. unfold alll. induction l as [|x k _ r IH]; simpl; auto. rewrite IH. auto. Qed.
Lemma alll_perm L L' x : Permutation L L' -> In x (alll L) -> In x (alll L').
Proof. intros P. apply Permutation_in, Permutation_flat_map. auto. Qed.

Lemma norm_all :
  (forall f g, norm f g ->
     (forall a k, In (a, k) (allk f) -> exists k', In (a, k') (allk g) /\ norm k k') /\
     (forall a k', In (a, k') (allk g) -> exists k, In (a, k) (allk f) /\ norm k k')) /\
  (forall i L g, nums i L g ->
     (forall a k, In (a, k) (alll L) -> exists k', In (a, k') (allk g) /\ norm k k') /\
     (forall a k', In (a, k') (allk g) -> exists k, In (a, k) (alll L) /\ norm k k')).
Proof.
  apply norm_nums.
  - intros f L g [P _] Hn [H1 H2]. split.
    + intros a k H. apply H1. rewrite allk_tops in H. eapply alll_perm; eauto.
    + intros a k' H. destruct (H2 a k' H) as (k & Hk & X). exists k. split; auto. rewrite allk_tops.
      eapply alll_perm; [symmetry; apply P|auto].
  - intros i. split; simpl; tauto.
  - intros i a k k' L r Hn [H1 H2] Hs [H3 H4]. split.
    + intros b c H. cbn [alll flat_map] in H. fold (alll L) in H. simpl in H. destruct H as [E|H].
      * injection E as <- <-. exists k'. simpl. auto.
      * apply in_app_iff in H. destruct H as [H|H].
        -- destruct (H1 b c H) as (c' & Hc & X). exists c'. split; auto. simpl. right. apply in_app_iff. auto.
        -- destruct (H3 b c H) as (c' & Hc & X). exists c'. split; auto. simpl. right. apply in_app_iff. auto.
    + intros b c' H. simpl in H. destruct H as [E|H].
      * injection E as <- <-. exists k. simpl. auto.
      * apply in_app_iff in H. destruct H as [H|H].
        -- destruct (H2 b c' H) as (c & Hc & X). exists c. split; auto. simpl. right. apply in_app_iff. auto.
        -- destruct (H4 b c' H) as (c & Hc & X). exists c. split; auto. simpl. right. apply in_app_iff. auto.
Qed.

Lemma kid_allk f a k : wf_ids (kerase f) -> In (a, k) (allk f) -> children_of (nid (fst a)) (kerase f) = Some (kerase k).
Proof.
  induction f as [|[s b] c IHc r IHr]; [simpl; tauto|]. intros WF H.
  change (kerase (Cons (s, b) c r)) with (Cons (fst b) (kerase c) (kerase r)) in *.
  apply wf_cons_inv in WF. destruct WF as (N1 & N2 & W1 & W2 & D).
  assert (G : forall f, In (a, k) (allk f) -> In (nid (fst a)) (ids (kerase f))).
  { clear. induction f as [|[s b] c IHc r IHr]; [simpl; tauto|]. intros H. simpl in H.
    change (kerase (Cons (s, b) c r)) with (Cons (fst b) (kerase c) (kerase r)).
    unfold ids in *. simpl. rewrite map_app, in_app_iff. destruct H as [E|H].
    - injection E as <- <-. auto.
    - apply in_app_iff in H. tauto. }
  simpl in H. cbn [children_of]. destruct H as [E|H].
  - injection E as <- <-. rewrite Nat.eqb_refl. auto.
  - apply in_app_iff in H. destruct H as [H|H].
    + destruct (Nat.eqb_spec (nid (fst b)) (nid (fst a))) as [E|E].
      * exfalso. apply N1. rewrite E. apply G. auto.
      * rewrite (IHc W1 H). auto.
    + destruct (Nat.eqb_spec (nid (fst b)) (nid (fst a))) as [E|E].
      * exfalso. apply N2. rewrite E. apply G. auto.
      * rewrite children_of_notin; [apply IHr; auto|]. intros X. apply (D _ X). apply G. auto.
Qed.

Lemma allk_kid f j c : children_of j (kerase f) = Some c -> exists a k, In (a, k) (allk f) /\ nid (fst a) = j /\ c = kerase k.
Proof.
  induction f as [|[s b] k IHk r IHr]; [discriminate|].
  change (kerase (Cons (s, b) k r)) with (Cons (fst b) (kerase k) (kerase r)). cbn [children_of].
  destruct (Nat.eqb_spec (nid (fst b)) j) as [E|E].
  - intros H. injection H as <-. exists b, k. simpl. auto.
  - destruct (children_of j (kerase k)) as [x|] eqn:Ek.
    + intros H. injection H as <-. destruct (IHk eq_refl) as (a & c' & H1 & H2). exists a, c'. split; auto.
      simpl. right. apply in_app_iff. auto.
    + intros H. destruct (IHr H) as (a & c' & H1 & H2). exists a, c'. split; auto. simpl. right. apply in_app_iff. auto.
Qed.

Lemma kroots (l : kf) : roots (kerase l) = map (fun x : payload * kf => fst (fst x)) (map snd (tops l)).
Proof. rewrite kerase_roots. induction l as [|x k _ r IH]; simpl; auto. f_equal. auto. Qed.

Lemma nums_roots L : forall i g, nums i L g -> roots (kerase g) = map (fun x : payload * kf => fst (fst x)) L.
Proof.
  induction L as [|[a k] L IH]; intros i g H; inversion H; subst; auto.
  change (kerase (Cons (seg i, a) k' r)) with (Cons (fst a) (kerase k') (kerase r)). simpl. f_equal. eauto.
Qed.

Definition order_ok (L L' : list node) : Prop :=
  Permutation L L' /\
  match order_by cfg with
  | [] => L' = L
  | o => StronglySorted (fun x y => in_order o (ndata x) (ndata y)) L'
  end.

Lemma norm_roots f g : norm f g -> order_ok (roots (kerase f)) (roots (kerase g)).
Proof.
  intros H. inversion H as [? L ? [P A] Hn]; subst. rewrite (nums_roots L 1 g Hn), kroots.
  split; [apply Permutation_map; auto|]. unfold is_sorted, col_le in A. destruct (order_by cfg) as [|c o]; simpl in A.
  - subst L. auto.
  - clear - A. induction A as [|x L _ IH Hx]; simpl; constructor; auto. rewrite Forall_forall in *.
    intros y Hy. apply in_map_iff in Hy. destruct Hy as (z & <- & Hz). apply in_order_col. apply Hx. auto.
Qed.

Lemma norm_kids f g : wf_ids (kerase f) -> wf_ids (kerase g) -> norm f g -> forall q,
  match kid_list q (kerase f), kid_list q (kerase g) with
  | Some L, Some M => order_ok L M
  | None, None => True
  | _, _ => False
  end.
Proof.
  intros WF WG H q. destruct (proj1 norm_all f g H) as [H1 H2]. unfold kid_list. destruct q as [j|]; cbn [kids_of option_map].
  - destruct (children_of j (kerase f)) as [c|] eqn:E; cbn [option_map].
    + destruct (allk_kid _ _ _ E) as (a & k & Ha & <- & ->). destruct (H1 a k Ha) as (k' & Hk & Nk).
      rewrite (kid_allk g a k' WG Hk). cbn [option_map]. apply norm_roots. auto.
    + destruct (children_of j (kerase g)) as [c|] eqn:E2; cbn [option_map]; auto.
      destruct (allk_kid _ _ _ E2) as (a & k & Ha & <- & ->). destruct (H2 a k Ha) as (k' & Hk & Nk).
      rewrite (kid_allk f a k' WF Hk) in E. discriminate.
  - apply norm_roots. auto.
Qed.

Lemma norm_rearranged f g : wf_ids (kerase f) -> wf_ids (kerase g) -> norm f g ->
  rearranged (order_by cfg) (kerase f) (kerase g).
Proof.
  intros WF WG H. assert (K := norm_kids f g WF WG H). split.
  - intros q. specialize (K q). destruct (kid_list q (kerase f)), (kid_list q (kerase g)); auto. apply K.
  - unfold order_ok in K. destruct (order_by cfg) as [|c o].
    + apply kid_list_ext; auto. intros q. specialize (K q).
      destruct (kid_list q (kerase f)), (kid_list q (kerase g)); try tauto. destruct K as [_ ->]. auto.
    + intros q L E. specialize (K q). rewrite E in K. destruct (kid_list q (kerase f)); [apply K|destruct K].
Qed.

(** *** The steps *)
Definition numbered (l : kf) : Prop := map fst (roots l) = map seg (seq 1 (length (roots l))).
Fixpoint kidsnum (f : kf) : Prop :=
  match f with Nil => True | Cons x k r => numbered k /\ kidsnum k /\ kidsnum r end.

Lemma norm_numbered :
  (forall f g, norm f g -> numbered g /\ kidsnum g) /\
  (forall i L g, nums i L g -> map fst (roots g) = map seg (seq i (length (roots g))) /\ kidsnum g).
Proof.
  apply norm_nums; unfold numbered.
  - tauto.
  - simpl. auto.
  - intros i a k k' L r _ [H1 H2] _ [H3 H4]. simpl. rewrite H3. auto.
Qed.

Lemma At_kid_of f j c : children_of j (kerase f) = Some c -> exists p a l, At p (Some (a, a)) l l f f /\ nid (fst a) = j /\ c = kerase l.
Proof.
  induction f as [|[s b] k IHk r IHr]; [discriminate|].
  change (kerase (Cons (s, b) k r)) with (Cons (fst b) (kerase k) (kerase r)). cbn [children_of].
  destruct (Nat.eqb_spec (nid (fst b)) j) as [E|E].
  - intros H. injection H as <-. exists s, b, k. split; auto. apply At_par.
  - destruct (children_of j (kerase k)) as [x|] eqn:Ek.
    + intros H. injection H as <-. destruct (IHk eq_refl) as (p & a & l & H1 & H2). exists (s ++ p), a, l. split; auto.
      apply (At_down (s, b) r H1).
    + intros H. destruct (IHr H) as (p & a & l & H1 & H2). exists p, a, l. split; auto. apply At_right. auto.
Qed.

Lemma At_numbered q pa l l' f f' : At q pa l l' f f' -> numbered f -> kidsnum f -> numbered l.
Proof.
  intros H. assert (X : kidsnum f -> pa <> None -> numbered l).
  { induction H; intros K Np; try congruence; simpl in K; try tauto; apply IHAt; try tauto; discriminate. }
  intros N K. destruct pa; [apply X; auto; discriminate|]. inversion H; subst; auto.
Qed.

Lemma numbered_row t g p pa l i n : lay t g -> At p pa l l g g -> numbered l -> nth_error (roots (kerase l)) i = Some n ->
  exists r, In r t /\ m_pk r = nid n /\ m_path r = p ++ seg (S i).
Proof.
  intros L HA Nl Hl.
  rewrite kerase_roots in Hl. change (nth_error (map (fun x : path * payload => fst (snd x)) (roots l)) i = Some n) in Hl.
  rewrite nth_error_map in Hl.
  destruct (nth_error (roots l) i) as [[s a]|] eqn:Er; [|discriminate]. injection Hl as <-.
  assert (Es : nth_error (map fst (roots l)) i = Some s) by (rewrite nth_error_map, Er; auto).
  rewrite Nl, nth_error_map in Es.
  assert (Hi : i < length (roots l)) by (apply nth_error_Some; congruence).
  rewrite (nth_error_nth' _ 0), seq_nth in Es by (rewrite ?seq_length; auto). injection Es as <-.
  exists (mkrow (p ++ seg (S i), a)). split; [|auto]. apply (lay_in_rev cfg _ g); auto.
  eapply k_root_in; eauto. apply (nth_error_In _ i Er).
Qed.

Lemma numbered_consecutive t g : lay t g -> numbered g -> kidsnum g -> consecutive cfg t (kerase g).
Proof.
  intros L N K q M i n E Hn. unfold kid_list in E.
  assert (G : forall p pa l, At p pa l l g g -> nth_error (roots (kerase l)) i = Some n ->
    exists r, In r t /\ m_pk r = nid n /\ m_path r = p ++ seg (S i)).
  { intros p pa l HA Hl. eapply numbered_row; eauto. eapply At_numbered; eauto. }
  destruct q as [j|]; cbn [kids_of] in E.
  - destruct (children_of j (kerase g)) as [c|] eqn:Ec; [|discriminate]. injection E as <-.
    destruct (At_kid_of _ _ _ Ec) as (p & a & l & HA & Ej & ->).
    destruct (G _ _ _ HA Hn) as (r & H1 & H2 & H3). exists r, p. repeat (split; auto).
    exists (mkrow (p, a)). split; [|auto]. apply (lay_in_rev cfg _ g); auto. eapply k_At_in; eauto.
  - injection E as <-. destruct (G _ _ _ (At_top g g) Hn) as (r & H1 & H2 & H3). exists r, []. auto.
Qed.

(** ** fix_tree(fix_paths=True) for the whole tree *)
Lemma list_max_in l : l <> [] -> exists k, In k l /\ k = list_max l.
Proof.
  induction l as [|x l IH]; [congruence|]. intros _. destruct l as [|y l]; [exists x; simpl; lia|].
  destruct IH as (k & Hk & E); [discriminate|]. destruct (Nat.leb_spec x k).
  - exists k. split; [right; auto|]. change (list_max (x :: y :: l)) with (Nat.max x (list_max (y :: l))). lia.
  - exists x. split; [left; auto|]. change (list_max (x :: y :: l)) with (Nat.max x (list_max (y :: l))). lia.
Qed.

Lemma fits_At t q pa l f : lay t f -> At q pa l l f f -> has_room cfg t -> fits l.
Proof.
  intros HL HA HR. unfold fits. destruct (tops l) as [|x0 T0] eqn:ET; [simpl; assert (X := maxstep_gt1 cfg radix2 step1); lia|].
  rewrite <- ET. assert (Vl : kvalid l) by (destruct HL as (_ & V & _); apply (kvalid_At_l cfg _ _ _ _ _ _ HA V)).
  assert (Lt : length (tops l) = length (roots l)) by (rewrite (tops_roots cfg radix2 step1 l Vl), map_length; auto).
  assert (Hc : length (filter (fun x => ppre q (m_path x) && (length (m_path x) =? length q + w)) t) = length (roots l)).
  { destruct HL as (W & V & P).
    rewrite (Permutation_length (Permutation_filter _ P)), filter_map, map_length.
    rewrite <- (map_length (PathTab.pre q) (roots l)), <- (k_children cfg step1 _ _ _ _ _ _ HA W). auto. }
  destruct (list_max_in (map fst (tops l))) as (k & Hk & Ek).
  { rewrite ET. discriminate. }
  apply in_map_iff in Hk. destruct Hk as (x & <- & Hx). rewrite <- Ek.
  rewrite Lt, <- Hc. destruct (tops_okey cfg l Vl x Hx) as [K1 K2].
  apply (HR (mkrow (q ++ seg (fst x), fst (snd x))) q (fst x)); auto.
  apply (lay_in_rev cfg _ f); auto. eapply k_root_in; eauto.
  rewrite (tops_roots cfg radix2 step1 l Vl). apply in_map_iff. exists x. auto.
Qed.

Lemma kroom_from_At f : (forall q a l, At q (Some (a, a)) l l f f -> fits l) -> kroom f.
Proof.
  induction f as [|[s a] k IHk r IHr]; simpl; auto. intros H. split; [|split].
  - apply (H s a k). apply At_par.
  - apply IHk. intros q b l HA. apply (H (s ++ q) b l). apply (At_down (s, a) r HA).
  - apply IHr. intros q b l HA. apply (H q b l). apply At_right. auto.
Qed.

Lemma room_lay t f : lay t f -> has_room cfg t -> roomy f.
Proof.
  intros HL HR. split; [eapply fits_At; eauto; apply At_top|].
  apply kroom_from_At. intros q a l HA. eapply fits_At; eauto.
Qed.

Theorem fix_paths_ok db F : stores cfg (db_rows db) F ->
  match fix_loop cfg (S (length (db_rows db))) db [([], 1)] with
  | Ok db' => map m_pk (db_rows db') = map m_pk (db_rows db) /\
      exists G, stores cfg (db_rows db') G /\ rearranged (order_by cfg) F G /\ consecutive cfg (db_rows db') G
  | Err e => e = PathOverflow /\ order_by cfg <> [] /\ ~ has_room cfg (db_rows db)
  end.
Proof.
  intros (f & HL & N & E & WF).
  assert (U : NoDup (map m_pk (db_rows db))) by (rewrite (lay_pks cfg _ _ HL), E; auto).
  assert (HQ : queued [([], 1)] f).
  { constructor; simpl.
    - constructor; [simpl; tauto|constructor].
    - intros x y [<-|[]] [<-|[]]. auto.
    - intros x [<-|[]]. auto.
    - intros p d [Eq|[]]. injection Eq as <- <-. exists 0. auto. }
  assert (Lt : length (db_rows db) = size f).
  { destruct HL as (_ & _ & P). rewrite (Permutation_length P), map_length.
    clear. induction f as [|x k IHk r IHr]; simpl; auto. rewrite app_length, map_length, IHk, IHr. auto. }
  assert (H := fix_loop_ok (S (length (db_rows db))) db f [([], 1)] HL N U HQ).
  destruct (fix_loop cfg (S (length (db_rows db))) db [([], 1)]) as [db'|e].
  - destruct H as (Epk & g & Hg & Lg & Ng).
    { unfold costt. simpl. rewrite Lt. auto. }
    split; auto. destruct Hg as [[_ Hg]|[Hg _]]; [|exfalso; apply Hg; simpl; auto].
    assert (WG : wf_ids (kerase g)) by (apply (lay_wf cfg _ _ Lg); rewrite Epk; auto).
    exists (kerase g). split; [exists g; auto|]. split.
    + rewrite <- E. apply norm_rearranged; auto. rewrite E. auto.
    + destruct (proj1 norm_numbered f g Hg). apply numbered_consecutive; auto.
  - destruct H as (-> & Es & Nr).
    { unfold costt. simpl. rewrite Lt. auto. }
    split; auto. split; [unfold is_sorted in Es; destruct (order_by cfg); discriminate|].
    intros Rm. apply Nr. eapply room_lay; eauto.
Qed.
(** ** fix_tree(fix_paths=True, parent) *)
Lemma cost_le Q f : (forall x, In x Q -> x <> []) -> forall pre, cost Q pre f <= size f.
Proof.
  intros H. induction f as [|[s a] k IHk r IHr]; intros pre; simpl; auto.
  specialize (IHr pre). specialize (IHk (pre ++ s)). destruct (inb (pre ++ s) Q); lia.
Qed.

Lemma fin_one f : forall p q g, kpwf f -> In p (map fst (rows f)) -> fin [q ++ p] q f g ->
  exists a l l', At p (Some (a, a)) l l' f g /\ norm l l'.
Proof.
  induction f as [|[s a] k IHk r IHr]; intros p q g W Hp H; [simpl in Hp; tauto|].
  assert (W' := W). destruct W' as (W1 & W2 & W3 & W4).
  assert (Hr : forall r', p = s \/ (exists x, p = s ++ x) -> fin [q ++ p] q r r' -> r' = r).
  { intros r' Hx Hf. symmetry. apply (fin_none r q r').
    apply (fin_ext [] [q ++ p] r q r'); auto. intros x Hx'. split; [simpl; tauto|].
    intros [E|[]]. exfalso. apply app_inv_head in E.
    assert (X : ppre s (fst x) = false).
    { apply (apart' s a k r (s ++ []) x W); eauto. }
    rewrite <- E in X. destruct Hx as [->|[y ->]]; rewrite ?ppre_app, ?ppre_refl in X; discriminate. }
  inversion H; subst.
  - match goal with Hi : In _ [_] |- _ => destruct Hi as [E|[]]; apply app_inv_head in E; subst p end.
    exists a, k, k'. split; auto. rewrite (Hr r'); auto. apply At_par.
  - match goal with Hi : ~ In _ [_] |- _ => rename Hi into Nin end.
    simpl in Hp. destruct Hp as [<-|Hp]; [exfalso; apply Nin; simpl; auto|].
    rewrite map_app, in_app_iff, map_map in Hp. destruct Hp as [Hp|Hp].
    + apply in_map_iff in Hp. destruct Hp as (x & <- & Hx). simpl in *.
      destruct (IHk (fst x) (q ++ s) k') as (b & l & l' & HA & Hn); auto.
      * apply in_map. auto.
      * rewrite <- app_assoc. auto.
      * exists b, l, l'. split; auto. rewrite (Hr r'); eauto. apply (At_down (s, a) r HA).
    + destruct (IHr p q r') as (b & l & l' & HA & Hn); auto.
      exists b, l, l'. split; auto.
      assert (k' = k) as ->; [|apply At_right; auto].
      symmetry. apply (fin_none k (q ++ s) k'). apply (fin_ext [] [q ++ p] k (q ++ s) k'); auto.
      intros x Hx. split; [simpl; tauto|]. intros [E|[]]. exfalso.
      rewrite <- app_assoc in E. apply app_inv_head in E.
      apply in_map_iff in Hp. destruct Hp as (z & <- & Hz).
      assert (X := apart' s a k r (s ++ []) z W (ex_intro _ [] eq_refl) Hz). rewrite E, ppre_app in X. discriminate.
Qed.

Lemma children_of_Some j f : In j (ids f) -> exists c, children_of j f = Some c.
Proof.
  induction f as [|a k IHk r IHr]; [simpl; tauto|]. unfold ids in *. simpl. rewrite map_app, in_app_iff. intros H.
  destruct (Nat.eqb_spec (nid a) j); [eauto|]. destruct (children_of j k) as [c|] eqn:E; [eauto|].
  destruct H as [H|[H|H]]; [congruence| |auto]. destruct (IHk H) as [c X]. congruence.
Qed.

Lemma At_allk q a (l l' f f' : kf) : At q (Some (a, a)) l l' f f' -> In (a, l') (allk f').
Proof.
  intros H. remember (Some (a, a)) as aa. induction H; try discriminate.
  - injection Heqaa as -> <-. simpl. auto.
  - simpl. right. apply in_app_iff. auto.
  - simpl. right. apply in_app_iff. auto.
Qed.

Lemma At_under q aa (l f : kf) : At q (Some aa) l l f f -> forall p bb m, At p (Some bb) m m l l ->
  At (q ++ p) (Some bb) m m f f.
Proof.
  intros H. remember (Some aa) as pa. revert aa Heqpa.
  assert (G : forall l' f', At q pa l l' f f' -> l' = l -> f' = f -> pa <> None -> forall p bb m, At p (Some bb) m m l l ->
    At (q ++ p) (Some bb) m m f f).
  { clear H. intros l' f' H. induction H; intros El Ef Np p bb m Hm; subst; try congruence.
    - injection Ef as <-. apply (At_down (s, a') r Hm).
    - injection Ef as ->. rewrite <- app_assoc. apply (At_down sb r). apply IHAt; auto; discriminate.
    - injection Ef as ->. apply At_right. apply IHAt; auto; discriminate. }
  intros aa -> p bb m Hm. eapply G; eauto. discriminate.
Qed.

Theorem fix_paths_branch db F p : stores cfg (db_rows db) F -> In p (db_rows db) ->
  match fix_loop cfg (S (length (db_rows db))) db [(m_path p, m_depth p + 1)] with
  | Ok db' => exists G c c', stores cfg (db_rows db') G /\ Ctx (Some (m_pk p)) c c' F G /\
      rearranged (order_by cfg) c c' /\
      (forall j, j = m_pk p \/ In j (ids c') -> kids_consecutive cfg (db_rows db') G j) /\
      (forall r, ppre (m_path p) (m_path r) = false \/ r = p -> In r (db_rows db') <-> In r (db_rows db))
  | Err e => e = PathOverflow /\ order_by cfg <> [] /\ ~ has_room cfg (db_rows db)
  end.
Proof.
  intros (f & HL & N & E & WF) Hp.
  assert (U : NoDup (map m_pk (db_rows db))) by (rewrite (lay_pks cfg _ _ HL), E; auto).
  destruct (lay_in cfg _ _ _ HL Hp) as (x & Hx & Ep). destruct x as [q b].
  assert (Eq : m_path p = q) by (subst p; auto).
  assert (Wf : kpwf f) by apply HL.
  destruct (At_of_row f q b Hx) as [l0 HA0].
  destruct (k_At_len cfg step1 _ _ _ _ _ _ HA0 Wf) as [n Hn].
  assert (Ed : m_depth p + 1 = S n).
  { subst p. simpl. rewrite Hn, Nat.div_mul by lia. lia. }
  assert (HQ : queued [(m_path p, m_depth p + 1)] f).
  { rewrite Eq, Ed. constructor; simpl.
    - constructor; [simpl; tauto|constructor].
    - intros x y [<-|[]] [<-|[]]. auto.
    - intros x [<-|[]]. right. apply in_map_iff. exists (q, b). auto.
    - intros x d [E1|[]]. injection E1 as <- <-. exists n. auto. }
  assert (Lt : length (db_rows db) = size f).
  { destruct HL as (_ & _ & P). rewrite (Permutation_length P), map_length.
    clear. induction f as [|x k IHk r IHr]; simpl; auto. rewrite app_length, map_length, IHk, IHr. auto. }
  assert (Hq : q <> []) by (eapply k_At_nonempty; eauto).
  assert (H := fix_loop_ok (S (length (db_rows db))) db f [(m_path p, m_depth p + 1)] HL N U HQ).
  assert (Cost : costt (map fst [(m_path p, m_depth p + 1)]) f <= S (length (db_rows db))).
  { rewrite Lt, Eq. unfold costt. cbn [map fst].
    rewrite (proj2 (inb_false _ _)) by (intros [X|[]]; congruence). assert (X := cost_le [q] f).
    specialize (X ltac:(intros y [<-|[]]; auto) []). lia. }
  specialize (H Cost).
  destruct (fix_loop cfg (S (length (db_rows db))) db [(m_path p, m_depth p + 1)]) as [db'|e].
  - destruct H as (Epk & g & Hg & Lg & Ng). rewrite Eq in Hg. cbn [map fst] in Hg.
    destruct Hg as [[[E1|[]] _]|[_ Hg]]; [congruence|].
    destruct (fin_one f q [] g Wf ltac:(apply in_map_iff; exists (q, b); auto) Hg) as (a & l & l' & HA & Hnorm).
    assert (a = b).
    { assert (Ha : In (q, a) (rows f)) by (eapply k_At_in; eauto).
      destruct (lay_paths cfg radix2 step1 _ _ HL) as [Pp _].
      assert (X : mkrow (q, a) = mkrow (q, b)).
      { apply (NoDup_map_inj m_path (db_rows db)); auto; [apply Pp|apply (lay_in_rev cfg _ f); auto|apply (lay_in_rev cfg _ f); auto]. }
      destruct a as [[i1 d1] n1], b as [[i2 d2] n2]. unfold MPInv.mkrow in X. simpl in X. congruence. }
    subst a.
    assert (WG : wf_ids (kerase g)) by (apply (lay_wf cfg _ _ Lg); rewrite Epk; auto).
    exists (kerase g), (kerase l), (kerase l'). split; [exists g; auto|].
    assert (HC : Ctx (Some (m_pk p)) (kerase l) (kerase l') F (kerase g)).
    { rewrite <- E. subst p. apply (At_Ctx fst HA). intros ? ? E1. injection E1 as <- <-. auto. }
    assert (HAg : At q (Some (b, b)) l' l' g g).
    { apply (At_id (At_sym HA)). }
    split; auto. split.
    { apply norm_rearranged; auto.
      - eapply Ctx_wf_l; eauto.
      - eapply Ctx_wf_l; [|exact WG]. apply (At_Ctx fst HAg). intros ? ? E1. injection E1 as <- <-. auto. }
    destruct (proj1 norm_numbered l l' Hnorm) as [Nl Kl]. split.
    + intros j Hj M i nn EM Hi. unfold kid_list in EM. cbn [kids_of] in EM.
      assert (X : exists p' a m, At p' (Some (a, a)) m m g g /\ numbered m /\ nid (fst a) = j).
      { destruct Hj as [->|Hj].
        - exists q, b, l'. subst p. auto.
        - destruct (children_of j (kerase l')) as [c|] eqn:Ec; [|exfalso; destruct (children_of_Some j (kerase l') Hj) as [? X]; congruence].
          destruct (At_kid_of _ _ _ Ec) as (s & a & m & HAm & Ej & ->).
          exists (q ++ s), a, m. split; [eapply At_under; eauto|]. split; auto.
          eapply At_numbered; eauto. }
      destruct X as (p' & a & m & HAm & Nm & Ej).
      rewrite <- Ej, (kid_allk g a m WG) in EM by (eapply At_allk; eauto). injection EM as <-.
      destruct (numbered_row _ _ _ _ _ _ _ Lg HAm Nm Hi) as (r & H1 & H2 & H3).
      exists r, (mkrow (p', a)). repeat (split; auto). apply (lay_in_rev cfg _ g); auto. eapply k_At_in; eauto.
    + intros r Hr. destruct (@At_rows _ Nat.ltb w payload irr ltb_tot' step1 _ _ _ _ _ _ HA) as (R0 & P1 & P2 & _ & P4).
      destruct HL as (_ & _ & PL), Lg as (_ & _ & PG).
      assert (X : forall t h R0 m, Permutation t (map mkrow (rows h)) ->
         Permutation (rows h) ([(q, b)] ++ R0 ++ map (PathTab.pre q) (rows m)) ->
         (In r t <-> r = mkrow (q, b) \/ In r (map mkrow R0))).
      { clear - Hr Eq Ep. intros t h R0 m H1 H2.
        assert (Y : In r t <-> In r (map mkrow ([(q, b)] ++ R0 ++ map (PathTab.pre q) (rows m)))).
        { split; intros Z.
          - apply (Permutation_in r (Permutation_map mkrow H2)). apply (Permutation_in r H1). auto.
          - apply (Permutation_in r (Permutation_sym H1)). apply (Permutation_in r (Permutation_sym (Permutation_map mkrow H2))). auto. }
        rewrite Y, !map_app, !in_app_iff. simpl. split; [|intuition auto].
        intros [[Z|[]]|[Z|Z]]; auto. apply in_map_iff in Z. destruct Z as (z & <- & Hz).
        apply in_map_iff in Hz. destruct Hz as ([u v] & <- & Hz). destruct Hr as [Hr|Hr]; [|subst; auto].
        rewrite Eq in Hr. simpl in Hr. rewrite ppre_app in Hr. discriminate. }
      rewrite (X _ _ _ _ PL P1), (X _ _ _ _ PG P2). tauto.
  - destruct H as (-> & Es & Nr).
    split; auto. split; [unfold is_sorted in Es; destruct (order_by cfg); discriminate|].
    intros Rm. apply Nr. eapply room_lay; eauto.
Qed.
End Paths.
