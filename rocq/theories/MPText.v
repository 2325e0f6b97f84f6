(** Materialized paths as strings (C51): with an alphabet in the order of the collation, the
    model on strings (MPTextModel.v) and the model on indexes (MPModel.v) do the same, if
    the < of Python is the same in both. *)
From Coq Require Import String List Arith ZArith Lia Bool Permutation Sorted.
From Verif Require Import Prelude Forest NumConv PathTab CommonModel History MPModel MPStep MPHist MPTextModel.
Import ListNotations.

(** ** Relations *)

(** Two calls both return, with related values, or raise the same. *)
Definition rres {A B} (R : A -> B -> Prop) (x : res A) (y : res B) : Prop :=
  match x, y with
  | Ok a, Ok b => R a b
  | Err e, Err e' => e = e'
  | _, _ => False
  end.

Definition ropt {A B} (R : A -> B -> Prop) (x : option A) (y : option B) : Prop :=
  match x, y with
  | Some a, Some b => R a b
  | None, None => True
  | _, _ => False
  end.

Definition rpair {A B A' B'} (R : A -> B -> Prop) (R' : A' -> B' -> Prop) (x : A * A') (y : B * B') : Prop :=
  R (fst x) (fst y) /\ R' (snd x) (snd y).

Lemma rres_bind {A B A' B'} (R : A -> B -> Prop) (R' : A' -> B' -> Prop) x y f g :
  rres R x y -> (forall a b, R a b -> rres R' (f a) (g b)) -> rres R' (bind x f) (bind y g).
Proof. destruct x, y; simpl; intros H K; auto; try tauto. Qed.

Lemma rres_eq {A} (x : res A) : rres eq x x.
Proof. destruct x; simpl; auto. Qed.

Section Lists.
Context {A B : Type} (R : A -> B -> Prop).

Lemma f2_filter l l' P Q : Forall2 R l l' -> (forall a b, R a b -> P a = Q b) ->
  Forall2 R (filter P l) (filter Q l').
Proof.
  intros H K. induction H as [|a b l l' H F IH]; simpl; auto.
  rewrite (K _ _ H). destruct (Q b); auto.
Qed.

Lemma f2_map {A' B'} (R' : A' -> B' -> Prop) l l' f g : Forall2 R l l' -> (forall a b, R a b -> R' (f a) (g b)) ->
  Forall2 R' (map f l) (map g l').
Proof. intros H K. induction H; simpl; auto. Qed.

Lemma f2_existsb l l' P Q : Forall2 R l l' -> (forall a b, R a b -> P a = Q b) ->
  existsb P l = existsb Q l'.
Proof. intros H K. induction H as [|a b l l' H F IH]; simpl; auto. rewrite (K _ _ H), IH. auto. Qed.

Lemma f2_length l l' : Forall2 R l l' -> length l = length l'.
Proof. induction 1; simpl; auto. Qed.

Lemma f2_app l l' m m' : Forall2 R l l' -> Forall2 R m m' -> Forall2 R (l ++ m) (l' ++ m').
Proof. intros H K. induction H; simpl; auto. Qed.

Lemma f2_rev l l' : Forall2 R l l' -> Forall2 R (rev l) (rev l').
Proof. induction 1; simpl; auto. apply f2_app; auto. Qed.

Lemma f2_hd l l' : Forall2 R l l' -> ropt R (hd_error l) (hd_error l').
Proof. destruct 1; simpl; auto. Qed.

Lemma f2_last l l' : Forall2 R l l' -> ropt R (last_opt l) (last_opt l').
Proof. intros H. apply f2_hd, f2_rev, H. Qed.

Lemma f2_insert le le' a b l l' : (forall a b x y, R a x -> R b y -> le a b = le' x y) ->
  R a b -> Forall2 R l l' -> Forall2 R (insert le a l) (insert le' b l').
Proof.
  intros K H F. induction F as [|x y l l' Hx F IH]; simpl; auto.
  rewrite (K _ _ _ _ H Hx). destruct (le' b y); auto.
Qed.

Lemma f2_isort le le' l l' : (forall a b x y, R a x -> R b y -> le a b = le' x y) ->
  Forall2 R l l' -> Forall2 R (isort le l) (isort le' l').
Proof. intros K F. induction F; simpl; auto. apply f2_insert; auto. Qed.
End Lists.

(** ** What the alphabet and the database must be like *)

Definition sorted_alphabet (alphabet : list char) (clt like : char -> char -> bool) : Prop :=
  2 <= length alphabet /\
  (forall i j, i < length alphabet -> j < length alphabet ->
     clt (nth i alphabet 0) (nth j alphabet 0) = (i <? j)) /\
  (forall i j, i < length alphabet -> j < length alphabet ->
     like (nth i alphabet 0) (nth j alphabet 0) = (i =? j)).

(** The text of a path, of a row, of a database *)
Definition text (alphabet : list char) (p : path) : list char := map (fun d => nth d alphabet 0) p.
Definition text_row (alphabet : list char) (r : mprow) : mprow :=
  mkMP (m_pk r) (text alphabet (m_path r)) (m_depth r) (m_nc r) (m_data r).
Definition text_db (alphabet : list char) (db : mp_db) : mp_db :=
  mkDB (map (text_row alphabet) (db_rows db))
       (map (fun s => (text alphabet (fst s), text alphabet (snd s))) (db_sig db)).

(** [py_lt] is the < of Python on the strings of this alphabet. *)
Definition python_order (alphabet : list char) (cfg : mp_cfg) : Prop :=
  forall p q, Forall (fun d => d < radix cfg) p -> Forall (fun d => d < radix cfg) q ->
    py_lt cfg p q = plt (text alphabet p) (text alphabet q).

Section Sim.
Variable alphabet : list char.
Variables clt like : char -> char -> bool.
Variable cfg : mp_cfg.
Hypothesis good : sorted_alphabet alphabet clt like.
Hypothesis radix_is : radix cfg = length alphabet.
Notation tx := (text alphabet).

Definition rp (p : path) (s : list char) : Prop := s = tx p /\ Forall (fun d => d < radix cfg) p.
Definition rr (r s : mprow) : Prop :=
  m_pk r = m_pk s /\ m_depth r = m_depth s /\ m_nc r = m_nc s /\ m_data r = m_data s /\
  rp (m_path r) (m_path s).
Definition rd (d e : mp_db) : Prop :=
  Forall2 rr (db_rows d) (db_rows e) /\ Forall2 (rpair rp rp) (db_sig d) (db_sig e).

Lemma clt_text i j : i < radix cfg -> j < radix cfg ->
  clt (nth i alphabet 0) (nth j alphabet 0) = (i <? j).
Proof. rewrite radix_is. apply good. Qed.

Lemma nth_inj i j : i < radix cfg -> j < radix cfg -> nth i alphabet 0 = nth j alphabet 0 -> i = j.
Proof.
  intros Hi Hj E. assert (A := clt_text i j Hi Hj). assert (B := clt_text j i Hj Hi).
  assert (C := clt_text j j Hj Hj). unfold char in *. rewrite E in A, B. rewrite A in B, C.
  rewrite Nat.ltb_irrefl in C. rewrite C in B.
  apply Nat.ltb_ge in C. symmetry in B. apply Nat.ltb_ge in B. lia.
Qed.

Lemma nodup_alphabet : NoDup alphabet.
Proof. apply (NoDup_nth _ 0). intros i j Hi Hj. apply nth_inj; rewrite radix_is; auto. Qed.

Lemma two : 2 <= radix cfg.
Proof. rewrite radix_is. apply good. Qed.

Lemma text_inj p : forall q, Forall (fun d => d < radix cfg) p -> Forall (fun d => d < radix cfg) q ->
  tx p = tx q -> p = q.
Proof.
  induction p as [|c p IH]; intros [|d q] Hp Hq E; try discriminate; auto.
  inversion Hp; inversion Hq; subst. simpl in E. injection E as E1 E2. f_equal; auto. apply nth_inj; auto.
Qed.

Section Cmp.
Variable lt' : char -> char -> bool.
Hypothesis same_lt : forall i j, i < radix cfg -> j < radix cfg ->
  lt' (nth i alphabet 0) (nth j alphabet 0) = (i <? j).

Lemma llt_text p : forall q, Forall (fun d => d < radix cfg) p -> Forall (fun d => d < radix cfg) q ->
  llt lt' (tx p) (tx q) = llt Nat.ltb p q.
Proof.
  induction p as [|c p IH]; intros q Hp Hq; destruct q as [|d q]; simpl; auto.
  inversion Hp; inversion Hq; subst. rewrite !same_lt; auto. rewrite IH; auto.
Qed.

End Cmp.

Lemma r_qlt p q s u : rp p s -> rp q u -> plt p q = qlt clt s u.
Proof. intros [-> H] [-> K]. unfold plt, qlt. rewrite llt_text; auto. apply clt_text. Qed.
Lemma r_peq p q s u : rp p s -> rp q u -> peq p q = peq s u.
Proof.
  intros [-> H] [-> K]. apply eq_true_iff_eq. rewrite !peq_iff. split; [intros ->; auto|apply text_inj; auto].
Qed.
Lemma r_qeq p q s u : rp p s -> rp q u -> peq p q = qeq clt s u.
Proof. intros [-> H] [-> K]. unfold peq, qeq, leq. rewrite !llt_text; auto; apply clt_text. Qed.
Lemma r_ppre p q s u : rp p s -> rp q u -> ppre p q = ppre s u.
Proof.
  intros [-> H] [-> K]. apply eq_true_iff_eq. rewrite !ppre_iff. split.
  - intros (x & ->). exists (tx x). apply map_app.
  - intros (x & E). exists (skipn (length p) q). rewrite <- (firstn_skipn (length p) q) at 1. f_equal.
    apply text_inj; auto.
    + rewrite <- (firstn_skipn (length p) q) in K. apply Forall_app in K. tauto.
    + transitivity (firstn (length p) (tx q)); [symmetry; apply firstn_map|]. rewrite E.
      rewrite <- (map_length (fun d => nth d alphabet 0) p). fold (tx p).
      rewrite firstn_app, Nat.sub_diag, firstn_all. simpl. apply app_nil_r.
Qed.

Lemma r_qpre p q s u : rp p s -> rp q u -> ppre p q = qpre like s u.
Proof.
  intros [-> H] [-> K]. unfold ppre, prefixb. revert q K. induction H as [|c p Hc H IH]; intros q K.
  - destruct q; auto.
  - destruct K as [|d q Hd K]; auto. simpl. rewrite <- (IH q K).
    destruct good as (_ & _ & L). rewrite L by (rewrite <- radix_is; auto). unfold ceq.
    destruct (Nat.eqb_spec c d) as [->|N].
    + rewrite Nat.ltb_irrefl. reflexivity.
    + destruct (Nat.ltb_spec c d), (Nat.ltb_spec d c); simpl; auto; lia.
Qed.

Lemma rp_length p s : rp p s -> length p = length s.
Proof. intros [-> _]. unfold text. rewrite map_length. auto. Qed.

Lemma rp_firstn n p s : rp p s -> rp (firstn n p) (firstn n s).
Proof.
  intros [-> H]. split; [unfold text; apply firstn_map|]. rewrite <- (firstn_skipn n p) in H.
  apply Forall_app in H. tauto.
Qed.

Lemma skipn_tx n : forall p, skipn n (tx p) = tx (skipn n p).
Proof. induction n as [|n IH]; intros [|c p]; simpl; auto. Qed.

Lemma rp_skipn n p s : rp p s -> rp (skipn n p) (skipn n s).
Proof.
  intros [-> H]. split; [apply skipn_tx|]. rewrite <- (firstn_skipn n p) in H.
  apply Forall_app in H. tauto.
Qed.

Lemma rp_app p q s u : rp p s -> rp q u -> rp (p ++ q) (s ++ u).
Proof. intros [-> H] [-> K]. split; [unfold text; rewrite map_app; auto|]. apply Forall_app; auto. Qed.

Lemma rp_nil : rp [] [].
Proof. split; auto. Qed.

Lemma rp_repeat d n : d < radix cfg -> rp (repeat d n) (repeat (nth d alphabet 0) n).
Proof.
  intros H. split.
  - unfold text. induction n; simpl; f_equal; auto.
  - apply Forall_forall. intros x Hx. apply repeat_spec in Hx. subst; auto.
Qed.

Lemma rp_digits n : exists s, int2str alphabet (Z.of_nat n) = Ok s /\ rp (digits (radix cfg) n) s.
Proof.
  unfold int2str. destruct (Z.ltb_spec (Z.of_nat n) 0); [lia|]. rewrite Nat2Z.id.
  eexists; split; [reflexivity|]. rewrite radix_is. split; auto.
  rewrite radix_is. apply digits_spec. rewrite <- radix_is. apply two.
Qed.

Lemma rp_basepath d p s : rp p s -> rp (get_basepath cfg p d) (get_basepath cfg s d).
Proof. apply rp_firstn. Qed.

Lemma rp_pad p s : rp p s -> rp (pad cfg p) (s_pad alphabet cfg s).
Proof.
  intros H. unfold pad, s_pad. rewrite (rp_length _ _ H). apply rp_app; auto. apply rp_repeat.
  assert (T := two). lia.
Qed.

Lemma r_get_path p s d n : rp p s ->
  exists u, s_get_path alphabet cfg s d n = Ok u /\ rp (get_path cfg p d n) u.
Proof.
  intros H. unfold s_get_path, get_path. destruct (rp_digits n) as (k & E & K). rewrite E. simpl.
  eexists; split; [reflexivity|]. apply rp_app; [apply rp_basepath|apply rp_pad]; auto.
Qed.

Lemma rp_last_step p s : rp p s -> rp (last_step cfg p) (last_step cfg s).
Proof. intros H. unfold last_step. rewrite (rp_length _ _ H). apply rp_skipn, H. Qed.

Lemma r_get_lastpos p s : rp p s -> get_lastpos cfg p = s_get_lastpos alphabet cfg s.
Proof.
  intros H. apply rp_last_step in H. unfold get_lastpos, s_get_lastpos, step_value, str2int.
  destruct H as [-> H]. unfold text.
  rewrite str2int_from_digits; [|apply nodup_alphabet|rewrite <- radix_is; auto].
  rewrite radix_is in *. replace (forallb _ _) with true; auto.
  symmetry. apply forallb_forall. rewrite Forall_forall in H. intros x Hx. apply Nat.ltb_lt, H, Hx.
Qed.

Lemma r_inc_path p s : rp p s -> rres rp (inc_path cfg p) (s_inc_path alphabet cfg s).
Proof.
  intros H. unfold inc_path, s_inc_path. rewrite <- (r_get_lastpos _ _ H).
  destruct (get_lastpos cfg p) as [v|]; simpl; auto.
  destruct (rp_digits (v + 1)) as (k & E & K). rewrite E. simpl. rewrite (rp_length _ _ K).
  destruct (steplen cfg <? length k); simpl; auto.
  apply rp_app; [|apply rp_pad; auto]. rewrite (rp_length _ _ H). apply rp_firstn, H.
Qed.

Lemma r_in_range p q s u : rp p s -> rp q u ->
  in_range (children_interval cfg p) q = s_in_range clt (s_children_interval alphabet cfg s) u.
Proof.
  intros H K. assert (T := two). unfold in_range, s_in_range, children_interval, s_children_interval.
  cbn [fst snd]. f_equal; f_equal; apply r_qlt; auto; apply rp_app; auto.
  - apply rp_repeat. lia.
  - rewrite radix_is. apply rp_repeat. rewrite <- radix_is. lia.
Qed.

(** ** Rows and queries *)

Lemma rr_pk r s : rr r s -> m_pk r = m_pk s. Proof. intros H; apply H. Qed.
Lemma rr_depth r s : rr r s -> m_depth r = m_depth s. Proof. intros H; apply H. Qed.
Lemma rr_nc r s : rr r s -> m_nc r = m_nc s. Proof. intros H; apply H. Qed.
Lemma rr_data r s : rr r s -> m_data r = m_data s. Proof. intros H; apply H. Qed.
Lemma rr_path r s : rr r s -> rp (m_path r) (m_path s). Proof. intros H; apply H. Qed.
Lemma rr_leaf r s : rr r s -> is_leaf r = is_leaf s.
Proof. intros H. unfold is_leaf. rewrite (rr_nc _ _ H). auto. Qed.
Lemma rr_root r s : rr r s -> is_root r = is_root s.
Proof. intros H. unfold is_root. rewrite (rr_depth _ _ H). auto. Qed.
Lemma rr_mk k p s d n x : rp p s -> rr (mkMP k p d n x) (mkMP k s d n x).
Proof. intros H. repeat (split; auto). Qed.
Hint Resolve rr_path rp_basepath rp_firstn rp_skipn rp_app rp_nil rr_mk : sim.

Ltac row H := rewrite ?(rr_pk _ _ H), ?(rr_depth _ _ H), ?(rr_nc _ _ H), ?(rr_data _ _ H),
  ?(rr_leaf _ _ H), ?(rr_root _ _ H).

Lemma r_order_path t u : Forall2 rr t u -> Forall2 rr (order_path t) (s_order_path clt u).
Proof.
  intros H. apply f2_isort; auto. intros a b x y Ha Hb. unfold le_key. f_equal.
  apply r_qlt; auto with sim.
Qed.

Lemma r_is_descendant_of r s n m : rr r s -> rr n m -> is_descendant_of r n = s_is_descendant_of s m.
Proof.
  intros H K. unfold is_descendant_of, s_is_descendant_of. row H. row K. f_equal. apply r_ppre; auto with sim.
Qed.
Lemma r_is_child_of r s n m : rr r s -> rr n m -> is_child_of r n = s_is_child_of s m.
Proof.
  intros H K. unfold is_child_of, s_is_child_of. row H. row K. f_equal. apply r_ppre; auto with sim.
Qed.
Lemma r_is_sibling_of r s n m : rr r s -> rr n m -> is_sibling_of cfg r n = s_is_sibling_of cfg s m.
Proof.
  intros H K. unfold is_sibling_of, s_is_sibling_of. row H. row K.
  destruct (negb _); auto. destruct (_ =? 1); auto. apply r_ppre; auto with sim.
Qed.

Lemma r_get_root_nodes t u : Forall2 rr t u -> Forall2 rr (get_root_nodes t) (s_get_root_nodes clt u).
Proof.
  intros H. apply r_order_path, f2_filter; auto. intros a b K. row K. auto.
Qed.

Lemma r_get_children t u n m : Forall2 rr t u -> rr n m ->
  Forall2 rr (get_children cfg t n) (s_get_children alphabet clt cfg u m).
Proof.
  intros H N. unfold get_children, s_get_children. row N. destruct (is_leaf m); auto.
  apply r_order_path, f2_filter; auto. intros a b K. row K. f_equal. apply r_in_range; auto with sim.
Qed.

Lemma r_get_siblings t u n m : Forall2 rr t u -> rr n m ->
  Forall2 rr (get_siblings cfg t n) (s_get_siblings alphabet clt cfg u m).
Proof.
  intros H N. unfold get_siblings, s_get_siblings. row N.
  apply r_order_path, f2_filter; auto. intros a b K. row K. f_equal. destruct (1 <? _); auto.
  apply r_in_range; auto with sim.
Qed.
Hint Resolve r_get_root_nodes r_get_children r_get_siblings : sim.

Lemma r_get_first_child t u n m : Forall2 rr t u -> rr n m ->
  ropt rr (get_first_child cfg t n) (s_get_first_child alphabet clt cfg u m).
Proof. intros. apply f2_hd. auto with sim. Qed.
Lemma r_get_last_child t u n m : Forall2 rr t u -> rr n m ->
  ropt rr (get_last_child cfg t n) (s_get_last_child alphabet clt cfg u m).
Proof. intros. apply f2_last. auto with sim. Qed.
Lemma r_get_first_sibling t u n m : Forall2 rr t u -> rr n m ->
  ropt rr (get_first_sibling cfg t n) (s_get_first_sibling alphabet clt cfg u m).
Proof. intros. apply f2_hd. auto with sim. Qed.
Lemma r_get_last_sibling t u n m : Forall2 rr t u -> rr n m ->
  ropt rr (get_last_sibling cfg t n) (s_get_last_sibling alphabet clt cfg u m).
Proof. intros. apply f2_last. auto with sim. Qed.
Lemma r_get_first_root_node t u : Forall2 rr t u ->
  ropt rr (get_first_root_node t) (s_get_first_root_node clt u).
Proof. intros. apply f2_hd. auto with sim. Qed.
Lemma r_get_last_root_node t u : Forall2 rr t u ->
  ropt rr (get_last_root_node t) (s_get_last_root_node clt u).
Proof. intros. apply f2_last. auto with sim. Qed.

Lemma r_get_next_sibling t u n m : Forall2 rr t u -> rr n m ->
  ropt rr (get_next_sibling cfg t n) (s_get_next_sibling alphabet clt cfg u m).
Proof.
  intros H N. apply f2_hd, f2_filter; auto with sim. intros a b K. apply r_qlt; auto with sim.
Qed.
Lemma r_get_prev_sibling t u n m : Forall2 rr t u -> rr n m ->
  ropt rr (get_prev_sibling cfg t n) (s_get_prev_sibling alphabet clt cfg u m).
Proof.
  intros H N. apply f2_last, f2_filter; auto with sim. intros a b K. apply r_qlt; auto with sim.
Qed.

Lemma r_get_tree t u p q d : Forall2 rr t u -> ropt rr p q ->
  Forall2 rr (get_tree t p d) (s_get_tree clt like u q d).
Proof.
  intros H N. unfold get_tree, s_get_tree. destruct p as [p|], q as [q|]; simpl in N; try tauto.
  - row N. destruct (is_leaf q); apply r_order_path, f2_filter; auto; intros a b K; row K; auto.
    f_equal. f_equal. apply r_qpre; auto with sim.
  - apply r_order_path, f2_filter; auto; intros a b K; row K; auto.
Qed.

Lemma r_get_descendants t u n m b d : Forall2 rr t u -> rr n m ->
  Forall2 rr (get_descendants t n b d) (s_get_descendants clt like u m b d).
Proof.
  intros H N. assert (T : Forall2 rr (get_tree t (Some n) d) (s_get_tree clt like u (Some m) d))
    by (apply r_get_tree; auto).
  unfold get_descendants, s_get_descendants. destruct b; auto. row N. destruct (is_leaf m); auto.
  apply f2_filter; auto. intros x y K. row K. auto.
Qed.

Lemma r_get_by_path t u p s : Forall2 rr t u -> rp p s ->
  rres rr (get_by_path t p) (s_get_by_path clt u s).
Proof.
  intros H K. unfold get_by_path, s_get_by_path.
  assert (F : Forall2 rr (filter (fun r => peq (m_path r) p) t) (filter (fun r => qeq clt (m_path r) s) u)).
  { apply f2_filter; auto. intros a b J. apply r_qeq; auto with sim. }
  destruct F as [|a b l l' J F]; simpl; auto. destruct F; simpl; auto.
Qed.

Lemma r_get_parent t u n m : Forall2 rr t u -> rr n m ->
  rres (ropt rr) (get_parent cfg t n) (s_get_parent clt cfg u m).
Proof.
  intros H N. unfold get_parent, s_get_parent. rewrite (rp_length _ _ (rr_path _ _ N)).
  destruct (_ <=? 1); simpl; auto. eapply rres_bind; [apply r_get_by_path; auto with sim|].
  intros a b K. simpl. auto.
Qed.

Lemma r_get_root t u n m : Forall2 rr t u -> rr n m ->
  rres rr (get_root cfg t n) (s_get_root clt cfg u m).
Proof.
  intros H N. unfold get_root, s_get_root. row N. destruct (is_root m); simpl; auto.
  apply r_get_by_path; auto with sim.
Qed.

Lemma r_ancestor_paths p s : rp p s -> Forall2 rp (ancestor_paths cfg p) (ancestor_paths cfg s).
Proof.
  intros H. unfold ancestor_paths. rewrite (rp_length _ _ H).
  apply f2_map with (R := eq).
  - induction (seq _ _); auto.
  - intros a b ->. apply rp_firstn, H.
Qed.

Lemma r_get_ancestors t u n m : Forall2 rr t u -> rr n m ->
  Forall2 rr (get_ancestors cfg t n) (s_get_ancestors clt cfg u m).
Proof.
  intros H N. unfold get_ancestors, s_get_ancestors. row N. destruct (is_root m); auto.
  apply f2_isort; [intros a b x y Ha Hb; unfold le_key; row Ha; row Hb; auto|].
  apply f2_filter; auto. intros a b K. eapply f2_existsb; [apply r_ancestor_paths, rr_path, N|].
  intros p s J. apply r_qeq; auto with sim.
Qed.

Lemma r_get_descendants_group_count t u p q : Forall2 rr t u -> ropt rr p q ->
  Forall2 (rpair rr eq) (get_descendants_group_count cfg t p)
    (s_get_descendants_group_count alphabet clt like cfg u q).
Proof.
  intros H N. unfold get_descendants_group_count, s_get_descendants_group_count.
  apply f2_map with (R := rr).
  - destruct p as [p|], q as [q|]; simpl in N; try tauto; auto with sim.
  - intros a b K. split; simpl; auto. f_equal. apply f2_length with (R := rr), f2_filter; auto.
    intros x y J. apply r_qpre; auto with sim.
Qed.

(** ** Changes *)

Lemma r_set_row p p' q q' r s : rp p p' -> rp q q' -> rr r s ->
  rr (set_row cfg p q r) (s_set_row like cfg p' q' s).
Proof.
  intros P Q H. unfold set_row, s_set_row. rewrite <- (r_qpre _ _ _ _ P (rr_path _ _ H)).
  destruct (ppre p (m_path r)); auto. row H. rewrite (rp_length _ _ P), (rp_length _ _ Q).
  assert (K : rp (q ++ skipn (length p') (m_path r)) (q' ++ skipn (length p') (m_path s))) by auto with sim.
  rewrite (rp_length _ _ K). auto with sim.
Qed.

Lemma r_heard p p' t u : rp p p' -> Forall2 rr t u ->
  existsb (fun r => ppre p (m_path r)) t = existsb (fun r => qpre like p' (m_path r)) u.
Proof. intros P H. eapply f2_existsb; eauto. intros a b K. apply r_qpre; auto with sim. Qed.

Lemma r_paths_clash p p' q q' t u : rp p p' -> rp q q' -> Forall2 rr t u ->
  paths_clash cfg p q t = s_paths_clash clt like cfg p' q' u.
Proof.
  intros P Q H. unfold paths_clash, s_paths_clash. eapply f2_existsb; eauto. intros a b K.
  f_equal; [apply r_qpre; auto with sim|]. eapply f2_existsb; eauto. intros x y J.
  apply r_qeq; auto with sim. apply rr_path, r_set_row; auto.
Qed.

Lemma r_set_newpath d e p p' q q' : rd d e -> rp p p' -> rp q q' ->
  rres rd (set_newpath cfg d p q) (s_set_newpath clt like cfg e p' q').
Proof.
  intros [D S] P Q. unfold set_newpath, s_set_newpath. rewrite <- (r_peq _ _ _ _ P Q).
  rewrite <- (r_heard _ _ _ _ P D), <- (r_paths_clash _ _ _ _ _ _ P Q D).
  assert (S' : Forall2 (rpair rp rp)
    (db_sig d ++ (if existsb (fun r => ppre p (m_path r)) (db_rows d) then [(p, q)] else []))
    (db_sig e ++ (if existsb (fun r => ppre p (m_path r)) (db_rows d) then [(p', q')] else []))).
  { apply f2_app; auto. destruct (existsb _ _); auto. constructor; auto. split; auto. }
  destruct (peq p q); simpl; [split; auto|]. destruct (paths_clash _ _ _ _); simpl; auto.
  split; auto. simpl. eapply f2_map; eauto. intros a b K. apply r_set_row; auto.
Qed.

Lemma r_upd_nc p s g r r' : rp p s -> rr r r' -> rr (upd_nc p g r) (s_upd_nc clt s g r').
Proof.
  intros P H. unfold upd_nc, s_upd_nc. rewrite <- (r_qeq _ _ _ _ (rr_path _ _ H) P).
  destruct (peq _ _); auto. row H. auto with sim.
Qed.

Lemma r_increment d e p s : rd d e -> rp p s -> rd (increment_numchild d p) (s_increment_numchild clt e s).
Proof. intros [D S] P. split; auto. eapply f2_map; eauto. intros; apply r_upd_nc; auto. Qed.
Lemma r_decrement d e p s : rd d e -> rp p s -> rd (decrement_numchild d p) (s_decrement_numchild clt e s).
Proof. intros [D S] P. split; auto. eapply f2_map; eauto. intros; apply r_upd_nc; auto. Qed.

Lemma r_save_row d e r s : rd d e -> rr r s -> rres rd (save_row d r) (s_save_row clt e s).
Proof.
  intros [D S] H. unfold save_row, s_save_row.
  erewrite (f2_existsb _ (db_rows d) (db_rows e) (fun x => peq (m_path x) (m_path r) && negb (m_pk x =? m_pk r)));
    [|exact D|intros a b K; row K; row H; rewrite (r_qeq _ _ _ _ (rr_path _ _ K) (rr_path _ _ H)); reflexivity].
  destruct (existsb _ _); simpl; auto.
  erewrite (f2_existsb _ (db_rows d) (db_rows e) (fun x => m_pk x =? m_pk r));
    [|exact D|intros a b K; row K; row H; reflexivity].
  destruct (existsb _ _); simpl; split; simpl; auto.
  eapply f2_map; eauto. intros a b K. row K. row H. destruct (_ =? _); auto.
Qed.

Hypothesis python : python_order alphabet cfg.
Lemma r_py p q s u : rp p s -> rp q u -> py_lt cfg p q = plt s u.
Proof. intros [-> H] [-> K]. apply python; auto. Qed.

Lemma r_collect l l' : Forall2 rr l l' -> forall p s, rp p s ->
  rres (Forall2 rr) (collect_movesiblings cfg p l) (s_collect_movesiblings alphabet cfg s l').
Proof.
  induction 1 as [|a b l l' H F IH]; intros p s P; simpl; auto.
  rewrite <- (r_py _ _ _ _ P (rr_path _ _ H)). destruct (py_lt cfg p (m_path a)); simpl; auto.
  eapply rres_bind; [apply r_inc_path; auto with sim|]. intros q u Q.
  eapply rres_bind; [apply IH, Q|]. intros x y K. simpl. auto.
Qed.

Lemma r_shift_path n n' i i' p p' : rp n n' -> rp i i' -> rp p p' ->
  rp (shift_path n i p) (s_shift_path n' i' p').
Proof.
  intros N I P. unfold shift_path, s_shift_path. rewrite <- (r_ppre _ _ _ _ N P).
  destruct (ppre n p); auto. rewrite (rp_length _ _ I). auto with sim.
Qed.

Lemma r_move_siblings l l' : Forall2 rr l l' -> forall d e o o' p s, rd d e -> ropt rp o o' -> rp p s ->
  rres (rpair (rpair rd (ropt rp)) rp) (move_siblings cfg d o p l)
    (s_move_siblings alphabet clt like cfg e o' s l').
Proof.
  induction 1 as [|a b l l' H F IH]; intros d e o o' p s D O P; simpl.
  - split; [split|]; auto.
  - eapply rres_bind; [apply r_inc_path; auto with sim|]. intros i i' I.
    eapply rres_bind; [apply r_set_newpath; eauto with sim|]. intros d1 e1 D1.
    destruct o as [o|], o' as [o'|]; simpl in O; try tauto; apply IH; auto; simpl; auto;
      apply r_shift_path; auto with sim.
Qed.

Lemma r_opt_res {A B} (R : A -> B -> Prop) o o' e : ropt R o o' -> rres R (opt_res o e) (opt_res o' e).
Proof. destruct o, o'; simpl; tauto. Qed.

Lemma r_same_pk r s o o' : rr r s -> ropt rr o o' -> same_pk r o = same_pk s o'.
Proof. destruct o, o'; simpl; intros H K; try tauto. row H. row K. auto. Qed.

Lemma r_goes_last t u p r s : Forall2 rr t u -> rr r s ->
  goes_last cfg t p r = s_goes_last alphabet clt cfg u p s.
Proof.
  intros H K. destruct p; simpl; auto. apply r_same_pk; auto. apply r_get_last_sibling; auto.
Qed.

Lemma r_reorder_pos t u p r s : Forall2 rr t u -> rr r s ->
  rres (rpair eq (Forall2 rr)) (reorder_pos cfg t p r) (s_reorder_pos alphabet clt cfg u p s).
Proof.
  intros H K. unfold reorder_pos, s_reorder_pos. rewrite <- (r_get_lastpos _ _ (rr_path _ _ K)).
  destruct (get_lastpos cfg (m_path r)) as [b|]; simpl; auto.
  destruct p; simpl; auto; split; simpl; auto with sim; apply f2_filter; auto with sim;
    intros x y J; try f_equal; apply r_qlt; auto with sim.
Qed.

Lemma r_reorder d e p n k r s l l' o o' : rd d e -> rr r s -> Forall2 rr l l' -> ropt rp o o' ->
  rres (rpair (rpair (rpair rd (ropt rp)) rp) rp) (reorder cfg d p n k r l o)
    (s_reorder alphabet clt like cfg e p n k s l' o').
Proof.
  intros D H F O. unfold reorder, s_reorder. assert (T := D). destruct T as [T _].
  rewrite <- (r_goes_last _ _ _ _ _ T H). destruct (goes_last cfg (db_rows d) p r).
  - eapply rres_bind; [apply r_opt_res, r_get_last_sibling; eauto|]. intros x y X.
    eapply rres_bind; [apply r_inc_path, rr_path, X|]. intros q q' Q.
    apply rres_bind with (R := rd).
    + destruct o as [o|], o' as [o'|]; simpl in O; try contradiction; [apply r_set_newpath; auto|exact D].
    + intros d1 e1 D1. simpl. split; [split; [split|]|]; auto. apply H.
  - apply rres_bind with (R := rpair eq (Forall2 rr)).
    { destruct n as [n|]; [split; auto|apply r_reorder_pos; auto]. }
    intros [np sib] [np' sib'] [E S]. simpl in E, S. subst np'.
    destruct (r_get_path _ _ k np (rr_path _ _ H)) as (q' & E & Q). rewrite E. cbn [bind].
    set (q := get_path cfg (m_path r) k np) in *. clearbody q.
    apply rres_bind with (R := rpair rd (ropt rp)).
    { destruct o as [o|], o' as [o'|]; simpl in O; try contradiction; [|split; simpl; auto].
      rewrite (rp_length _ _ O), (rp_length _ _ Q).
      rewrite <- (r_peq _ _ _ _ (rp_basepath (length o' / steplen cfg - 1) _ _ O) (rp_basepath (k - 1) _ _ Q)).
      rewrite <- (r_py _ _ _ _ Q O).
      replace (match sib' with [] => true | _ => false end) with (match sib with [] => true | _ => false end)
        by (destruct S; auto).
      destruct (_ && _ && _ && _); [|split; simpl; auto].
      eapply rres_bind; [apply r_opt_res, r_get_last_sibling; eauto|]. intros x y X.
      rewrite <- (r_get_lastpos _ _ (rr_path _ _ X)).
      destruct (get_lastpos cfg (m_path x)) as [b|]; simpl; auto.
      destruct (r_get_path _ _ k (b + 2) Q) as (z' & E' & Z). rewrite E'. cbn [bind].
      eapply rres_bind; [apply r_set_newpath; eauto|]. intros d1 e1 D1. split; simpl; auto. }
    intros [d1 tmp] [e1 tmp'] [D1 TM]. simpl in D1, TM.
    eapply rres_bind; [apply r_collect; eauto|]. intros m m' M.
    eapply rres_bind; [apply r_move_siblings; eauto using f2_rev with sim|].
    intros [[d2 o2] tp] [[e2 o2'] tp'] [[D2 O2] TP]. simpl in D2, O2, TP.
    destruct o2 as [o2|], o2' as [o2'|]; simpl in O2; try tauto.
    + eapply rres_bind; [apply r_set_newpath; eauto; destruct tmp, tmp'; simpl in TM; tauto|].
      intros d3 e3 D3. simpl. split; [split; [split|]|]; auto.
    + simpl. split; [split; [split|]|]; auto.
Qed.

Lemma r_sorted_siblings t u r s x : Forall2 rr t u -> rr r s ->
  Forall2 rr (sorted_siblings cfg t r x) (s_sorted_siblings alphabet clt cfg u s x).
Proof. intros H K. apply f2_filter; auto with sim. intros a b J. row J. auto. Qed.

Lemma rd_match p s d e d' e' : rp p s -> rd d e -> rd d' e' ->
  rd (match p with [] => d | _ => d' end) (match s with [] => e | _ => e' end).
Proof. intros [-> _] D E. destruct p; simpl; auto. Qed.

Lemma r_add_sibling d e r s p x : rd d e -> rr r s ->
  rres (rpair rd rr) (add_sibling cfg d r p x) (s_add_sibling alphabet clt like cfg e s p x).
Proof.
  intros D H. unfold add_sibling, s_add_sibling. assert (T := D). destruct T as [T _].
  eapply rres_bind; [apply rres_eq|]. intros p0 ? <-.
  apply rres_bind with (R := rpair (rpair eq eq) (Forall2 rr)).
  { destruct p0; try (repeat split; simpl; auto; fail).
    assert (F := f2_hd _ _ _ (r_sorted_siblings _ _ _ _ (new_data x) T H)).
    assert (F' := r_sorted_siblings _ _ _ _ (new_data x) T H).
    destruct (hd_error (sorted_siblings _ _ _ _)) as [a|], (hd_error (s_sorted_siblings _ _ _ _ _ _)) as [b|];
      simpl in F; try tauto.
    - rewrite <- (r_get_lastpos _ _ (rr_path _ _ F)). destruct (get_lastpos _ _); simpl; auto.
      repeat split; auto.
    - repeat split; auto. }
  intros [[p1 n1] l1] [[p2 n2] l2] [[E1 E2] L]. simpl in E1, E2, L. subst p2 n2.
  rewrite (rr_depth _ _ H).
  eapply rres_bind; [apply r_reorder; eauto; exact I|].
  intros [[[d1 o1] q1] t1] [[[e1 o1'] q1'] t1'] [[[D1 _] Q] _]. simpl in D1, Q.
  apply rres_bind with (R := rd).
  { apply r_save_row; auto with sim. apply rd_match; auto with sim. apply r_increment; auto with sim. }
  intros d3 e3 D3. split; simpl; auto with sim.
Qed.

Lemma r_add_root d e x : rd d e ->
  rres (rpair rd rr) (add_root cfg d x) (s_add_root alphabet clt like cfg e x).
Proof.
  intros D. unfold add_root, s_add_root. assert (T := D). destruct T as [T _].
  assert (L := r_get_last_root_node _ _ T).
  destruct (get_last_root_node _) as [a|], (s_get_last_root_node _ _) as [b|]; simpl in L; try tauto.
  - destruct (is_sorted cfg); [apply r_add_sibling; auto|].
    eapply rres_bind; [apply r_inc_path, rr_path, L|]. intros q q' Q.
    eapply rres_bind; [apply r_save_row; eauto with sim|]. intros d1 e1 D1. split; simpl; auto with sim.
  - destruct (r_get_path [] [] 1 1 rp_nil) as (q' & E & Q). rewrite E. cbn [bind].
    eapply rres_bind; [apply r_save_row; eauto with sim|]. intros d1 e1 D1. split; simpl; auto with sim.
Qed.

Lemma r_get_by_pk t u k : Forall2 rr t u -> rres rr (get_by_pk t k) (get_by_pk u k).
Proof.
  intros H. unfold get_by_pk.
  assert (F : Forall2 rr (filter (fun r => m_pk r =? k) t) (filter (fun r => m_pk r =? k) u)).
  { apply f2_filter; auto. intros a b J. row J. auto. }
  destruct F; simpl; auto.
Qed.

Lemma rr_set_nc r s n : rr r s -> rr (set_nc r n) (set_nc s n).
Proof. intros H. unfold set_nc. row H. auto with sim. Qed.
Hint Resolve rr_set_nc : sim.

Lemma r_add_child d e r s x : rd d e -> rr r s ->
  rres (rpair (rpair rd rr) rr) (add_child cfg d r x) (s_add_child alphabet clt like cfg e s x).
Proof.
  intros D H. unfold add_child, s_add_child. assert (T := D). destruct T as [T S].
  rewrite (rr_pk _ _ H).
  eapply rres_bind; [apply r_get_by_pk; eauto|]. intros n m N. row N.
  destruct (is_sorted cfg && negb (is_leaf m)).
  - eapply rres_bind; [apply r_opt_res, r_get_last_child; eauto|]. intros a b A.
    eapply rres_bind; [apply r_add_sibling; eauto|]. intros [d1 r1] [e1 s1] [D1 R1]. simpl in D1, R1.
    split; [split|]; simpl; auto. row H. auto with sim.
  - apply rres_bind with (R := rp).
    { destruct (is_leaf m).
      - destruct (r_get_path _ _ (m_depth m + 1) 1 (rr_path _ _ N)) as (q' & E & Q). rewrite E. cbn [bind].
        rewrite (rp_length _ _ Q). destruct (_ <? _); simpl; auto.
      - eapply rres_bind; [apply r_opt_res, r_get_last_child; eauto|]. intros a b A.
        apply r_inc_path, rr_path, A. }
    intros q q' Q.
    apply rres_bind with (R := rd).
    { apply r_save_row; auto with sim. split; simpl; auto. eapply f2_map; eauto. intros a b A.
      unfold upd_nc_pk. row A. destruct (_ =? _); auto. auto with sim. }
    intros d1 e1 D1. split; [split|]; simpl; auto with sim.
Qed.

Lemma r_move_to_child_vars t u n m r s p : Forall2 rr t u -> rr n m -> rr r s ->
  rres (rpair (rpair (rpair (rpair (rpair rr eq) (Forall2 rr)) eq) eq) rr)
    (move_to_child_vars cfg t n r p) (s_move_to_child_vars alphabet clt cfg u m s p).
Proof.
  intros H N R. unfold move_to_child_vars, s_move_to_child_vars. row N. row R.
  destruct p; try (split; [split; [split; [split; [split|]|]|]|]; simpl; auto with sim; fail);
    (destruct (_ =? _); [simpl; auto|]; destruct (is_leaf s);
     [split; [split; [split; [split; [split|]|]|]|]; simpl; auto with sim|];
     eapply rres_bind; [apply r_opt_res, r_get_last_child; eauto|]; intros a b A;
     split; [split; [split; [split; [split|]|]|]|]; simpl; auto with sim).
Qed.

Lemma r_parent_path p s : rp p s -> rp (get_parent_path cfg p) (get_parent_path cfg s).
Proof. intros H. unfold get_parent_path. rewrite (rp_length _ _ H). auto with sim. Qed.

Lemma r_update_parent_counts d e p p' q q' : rd d e -> rp p p' -> rp q q' ->
  rd (update_parent_counts cfg d p q) (s_update_parent_counts clt cfg e p' q').
Proof.
  intros D P Q. unfold update_parent_counts, s_update_parent_counts.
  apply r_parent_path in P, Q. rewrite <- (r_peq _ _ _ _ P Q). destruct (peq _ _); auto.
  assert (D' : rd (match get_parent_path cfg p with [] => d | _ => decrement_numchild d (get_parent_path cfg p) end)
    (match get_parent_path cfg p' with [] => e | _ => s_decrement_numchild clt e (get_parent_path cfg p') end)).
  { apply rd_match; auto. apply r_decrement; auto. }
  apply rd_match; auto. apply r_increment; auto.
Qed.

Lemma r_move_prepare t u n m r s k p np l l' : Forall2 rr t u -> rr n m -> rr r s -> Forall2 rr l l' ->
  rres (ropt (rpair (rpair eq eq) (Forall2 rr))) (move_prepare cfg t n r k p np l)
    (s_move_prepare alphabet clt cfg u m s k p np l').
Proof.
  intros H N R F. unfold move_prepare, s_move_prepare.
  apply rres_bind with (R := ropt (rpair (rpair eq eq) (Forall2 rr))).
  - destruct p; try (simpl; repeat split; auto; fail).
    rewrite (rr_data _ _ N).
    assert (G := f2_hd _ _ _ (r_sorted_siblings _ _ _ _ (m_data m) H R)).
    assert (G' := r_sorted_siblings _ _ _ _ (m_data m) H R).
    destruct (hd_error (sorted_siblings _ _ _ _)) as [a|], (hd_error (s_sorted_siblings _ _ _ _ _ _)) as [b|];
      simpl in G; try tauto.
    + rewrite <- (r_get_lastpos _ _ (rr_path _ _ G)). destruct (get_lastpos cfg (m_path a)); simpl; auto.
      rewrite <- (r_get_lastpos _ _ (rr_path _ _ N)). destruct (get_lastpos cfg (m_path n)); simpl; auto.
      rewrite (rr_depth _ _ N), (rr_depth _ _ G).
      rewrite <- (r_peq _ _ _ _ (rp_basepath (m_depth m - 1) _ _ (rr_path _ _ N))
                   (rp_basepath (m_depth b - 1) _ _ (rr_path _ _ G))).
      destruct (_ && _); simpl; auto. repeat split; auto.
    + simpl. repeat split; auto.
  - intros [[[p1 n1] l1]|] [[[p2 n2] l2]|]; simpl; try tauto; auto.
    intros [[E1 E2] L]. simpl in E1, E2, L. subst p2 n2. row N. row R.
    rewrite (r_same_pk _ _ _ _ N (r_get_first_sibling _ _ _ _ H R)).
    rewrite (r_same_pk _ _ _ _ N (r_get_last_sibling _ _ _ _ H R)).
    rewrite (r_same_pk _ _ _ _ R (r_get_last_sibling _ _ _ _ H R)).
    destruct (_ && _); simpl; auto. destruct (_ && _); simpl; auto. repeat split; auto.
Qed.

Lemma r_move d e n m r s p : rd d e -> rr n m -> rr r s ->
  rres (rpair (rpair rd rr) rr) (move cfg d n r p) (s_move alphabet clt like cfg e m s p).
Proof.
  intros D N R. unfold move, s_move. assert (T := D). destruct T as [T _].
  eapply rres_bind; [apply rres_eq|]. intros p0 ? <-.
  eapply rres_bind; [apply r_move_to_child_vars; eauto|].
  intros [[[[[r1 k] l] np] p1] ut] [[[[[s1 k'] l'] np'] p1'] ut'] [[[[[R1 E1] L] E2] E3] U].
  simpl in R1, E1, L, E2, E3, U. subst k' np' p1'.
  rewrite <- (r_is_descendant_of _ _ _ _ R1 N). destruct (is_descendant_of r1 n); simpl; auto.
  eapply rres_bind; [apply r_move_prepare; eauto|].
  intros [[[p2 n2] l2]|] [[[p3 n3] l3]|]; simpl; try tauto.
  - intros [[E4 E5] L2]. simpl in E4, E5, L2. subst p3 n3.
    eapply rres_bind; [apply r_reorder; eauto; simpl; auto with sim|].
    intros [[[d1 o1] q1] t1] [[[e1 o1'] q1'] t1'] [[[D1 O1] Q] _]. simpl in D1, O1, Q.
    assert (D2 : rd (update_parent_counts cfg d1 (match o1 with Some x => x | None => [] end) q1)
                  (s_update_parent_counts clt cfg e1 (match o1' with Some x => x | None => [] end) q1')).
    { apply r_update_parent_counts; auto. destruct o1, o1'; simpl in O1; tauto || apply rp_nil. }
    assert (T2 := D2). destruct T2 as [T2 _]. unfold refresh. row N. row R1.
    eapply rres_bind; [apply r_get_by_pk; eauto|]. intros n' m' N'.
    eapply rres_bind; [apply r_get_by_pk; eauto|]. intros r' s' R'.
    row R. split; [split|]; simpl; auto. destruct (match p0 with FirstChild => _ | _ => _ end); auto.
  - intros _. split; [split|]; auto.
Qed.

(** ** Delete *)

Lemma r_has_removed l l' r s : Forall2 rr l l' -> rr r s ->
  has_removed_ancestor cfg l r = s_has_removed_ancestor cfg l' s.
Proof.
  intros F H. unfold has_removed_ancestor, s_has_removed_ancestor. rewrite (rp_length _ _ (rr_path _ _ H)).
  induction (seq _ _) as [|i is IH]; simpl; auto. rewrite IH. f_equal.
  eapply f2_existsb; eauto. intros a b K. apply r_peq; auto with sim.
Qed.

Lemma r_minimal l l' : Forall2 rr l l' -> forall a a', Forall2 rr a a' ->
  Forall2 rr (minimal_removed cfg a l) (s_minimal_removed cfg a' l').
Proof.
  induction 1 as [|r s l l' H F IH]; intros a a' A; simpl; auto.
  rewrite <- (r_has_removed _ _ _ _ A H). destruct (has_removed_ancestor cfg a r); auto.
  apply IH, f2_app; auto.
Qed.

Lemma r_depth_path_le a b x y : rr a x -> rr b y -> depth_path_le a b = s_depth_path_le clt x y.
Proof.
  intros A B. unfold depth_path_le, s_depth_path_le. row A. row B.
  rewrite <- (r_qlt _ _ _ _ (rr_path _ _ B) (rr_path _ _ A)). auto.
Qed.

Lemma r_parent_path_of r s : rr r s -> rp (parent_path_of cfg r) (parent_path_of cfg s).
Proof. intros H. unfold parent_path_of. row H. auto with sim. Qed.

Lemma r_lost l l' p s : Forall2 rr l l' -> rp p s -> lost_children cfg l p = s_lost_children cfg l' s.
Proof.
  intros F P. apply f2_length with (R := rr), f2_filter; auto. intros a b K.
  apply r_peq; auto. apply r_parent_path_of, K.
Qed.

Lemma r_dedup l l' : Forall2 rp l l' -> Forall2 rp (dedup_paths l) (s_dedup_paths l').
Proof.
  intros F. induction F as [|p s l l' H F IH]; simpl; auto.
  erewrite (f2_existsb rp (dedup_paths l) (s_dedup_paths l') (peq p) (peq s)); auto.
  - change (fold_right _ [] l) with (dedup_paths l). change (fold_right _ [] l') with (s_dedup_paths l').
    destruct (existsb _ _); auto.
  - intros a b K. apply r_peq; auto.
Qed.

Lemma r_parents l l' : Forall2 rr l l' -> Forall2 rp (parents_of_removed cfg l) (s_parents_of_removed cfg l').
Proof.
  intros F. apply r_dedup, f2_filter.
  - eapply f2_map; eauto. intros; apply r_parent_path_of; auto.
  - intros p s [-> _]. destruct p; auto.
Qed.

Lemma r_deleted l l' r s : Forall2 rr l l' -> rr r s -> deleted_row l r = s_deleted_row like l' s.
Proof.
  intros F H. eapply f2_existsb; eauto. intros a b K. row K. row H. destruct (is_leaf b); auto.
  apply r_qpre; auto with sim.
Qed.

Lemma r_run (l : list (mp_table -> mp_table)) l' :
  Forall2 (fun f g => forall t u, Forall2 rr t u -> Forall2 rr (f t) (g u)) l l' ->
  forall t u, Forall2 rr t u -> Forall2 rr (run_statements t l) (run_statements u l').
Proof.
  unfold run_statements. induction 1 as [|f g l l' H F IH]; intros t u T; simpl; auto.
Qed.

Lemma r_delete_queryset t u sel sel' : Forall2 rr t u -> (forall a b, rr a b -> sel a = sel' b) ->
  Forall2 rr (delete_queryset cfg t sel) (s_delete_queryset clt like cfg u sel').
Proof.
  intros H K. unfold delete_queryset, s_delete_queryset. apply r_run; auto.
  unfold delete_statements, s_delete_statements.
  assert (M : Forall2 rr (minimal_removed cfg [] (isort depth_path_le (filter sel t)))
    (s_minimal_removed cfg [] (isort (s_depth_path_le clt) (filter sel' u)))).
  { apply r_minimal; auto. apply f2_isort; [intros; apply r_depth_path_le; auto|]. apply f2_filter; auto. }
  apply f2_app.
  - eapply f2_map; [apply r_parents, M|]. intros p s P t1 u1 T1.
    rewrite (r_lost _ _ _ _ M P). eapply f2_map; eauto. intros a b A. apply r_upd_nc; auto.
  - constructor; auto. intros t1 u1 T1. apply f2_filter; auto. intros a b A. f_equal.
    apply r_deleted; auto.
Qed.

(** ** Histories *)

Lemma r_exec d e c : rd d e -> rres rd (mp_exec cfg d c) (s_exec alphabet clt like cfg e c).
Proof.
  intros D. assert (T := D). destruct T as [T S].
  destruct c as [x|p x|t p x|n t p|l]; cbn [mp_exec s_exec].
  - eapply rres_bind; [apply r_add_root; eauto|]. intros a b [A _]. auto.
  - eapply rres_bind; [apply r_get_by_pk; eauto|]. intros a b A.
    eapply rres_bind; [apply r_add_child; eauto|]. intros a' b' [[A' _] _]. auto.
  - eapply rres_bind; [apply r_get_by_pk; eauto|]. intros a b A.
    eapply rres_bind; [apply r_add_sibling; eauto|]. intros a' b' [A' _]. auto.
  - eapply rres_bind; [apply r_get_by_pk; eauto|]. intros a b A.
    eapply rres_bind; [apply r_get_by_pk; eauto|]. intros a1 b1 A1.
    eapply rres_bind; [apply r_move; eauto|]. intros a' b' [[A' _] _]. auto.
  - simpl. split; auto. simpl. apply r_delete_queryset; auto. intros a b A. row A. auto.
Qed.

Lemma r_runs cs : forall d e, rd d e ->
  rpair rd eq (run (mp_exec cfg) d cs) (run (s_exec alphabet clt like cfg) e cs).
Proof.
  induction cs as [|c cs IH]; intros d e D; simpl; [split; auto|].
  assert (K := r_exec d e c D).
  destruct (mp_exec cfg d c) as [d1|], (s_exec alphabet clt like cfg e c) as [e1|]; simpl in K; try tauto.
  - specialize (IH d1 e1 K). destruct (run _ d1 cs), (run _ e1 cs). destruct IH as [I1 I2].
    split; simpl in *; auto. congruence.
  - apply IH, D.
Qed.

(** The relation is [text_row]. *)
Lemma rr_text r s : rr r s -> s = text_row alphabet r.
Proof.
  intros (E1 & E2 & E3 & E4 & E5 & _). destruct s; simpl in *. unfold text_row. subst. auto.
Qed.

Lemma text_rr r : Forall (fun d => d < radix cfg) (m_path r) -> rr r (text_row alphabet r).
Proof. intros H. repeat (split; auto). Qed.

Lemma f2_text t u : Forall2 rr t u -> u = map (text_row alphabet) t.
Proof. induction 1 as [|r s t u H F IH]; simpl; auto. f_equal; auto. apply rr_text, H. Qed.

Lemma text_f2 t : Forall (fun r => Forall (fun d => d < radix cfg) (m_path r)) t ->
  Forall2 rr t (map (text_row alphabet) t).
Proof. induction 1; simpl; auto. constructor; auto. apply text_rr; auto. Qed.

Lemma rd_text d e : rd d e -> e = text_db alphabet d.
Proof.
  intros [D S]. destruct e as [t g]. unfold text_db. simpl in *. f_equal; [apply f2_text, D|].
  induction S as [|[a a'] [b b'] l l' [[H _] [H' _]] F IH]; simpl in *; subst; auto.
Qed.

Lemma rd_digits d e : rd d e -> Forall (fun r => Forall (fun x => x < radix cfg) (m_path r)) (db_rows d).
Proof.
  intros [D _]. induction D as [|r s t u H F IH]; constructor; auto. apply H.
Qed.

Lemma rd_nil : rd (mkDB [] []) (mkDB [] []).
Proof. split; constructor. Qed.
End Sim.
