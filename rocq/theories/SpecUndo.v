(** Calls that undo other calls, on forests (C83). *)
From Coq Require Import String List Arith Lia Bool Permutation.
From Verif Require Import Prelude Forest SpecFacts SpecSane SpecKids CommonModel Order History SpecRun.
Import ListNotations.
Local Open Scope list_scope.

(** ** Adding and deleting *)
Section Delete.
Variable S : nat -> bool.
Variable x : node.
Hypothesis Sx : S (nid x) = true.

Lemma rm_fapp f g : remove_all S (fapp f g) = fapp (remove_all S f) (remove_all S g).
Proof. induction f as [|a k _ r IH]; cbn [fapp remove_all]; auto. destruct (S (nid a)); cbn [fapp]; congruence. Qed.

Lemma rm_leaf : remove_all S (leaf x) = Nil.
Proof. cbn. rewrite Sx. auto. Qed.

Lemma rm_ins w l : remove_all S (ins w (leaf x) l) = remove_all S l.
Proof.
  assert (B : forall P l, remove_all S (ins_before P (leaf x) l) = remove_all S l).
  { intros P m. induction m as [|a k _ r IH]; cbn [ins_before]; [apply rm_leaf|].
    destruct (P a); [rewrite rm_fapp, rm_leaf; auto|]. cbn [remove_all]. destruct (S (nid a)); congruence. }
  assert (Af : forall P l, remove_all S (ins_after P (leaf x) l) = remove_all S l).
  { intros P m. induction m as [|a k _ r IH]; cbn [ins_after]; [apply rm_leaf|].
    destruct (P a); cbn [remove_all]; rewrite ?rm_fapp, ?rm_leaf; destruct (S (nid a)); cbn [fapp]; congruence. }
  destruct w; cbn [ins]; auto; rewrite rm_fapp, rm_leaf; auto using fapp_nil_r.
Qed.

Lemma rm_at_kids up w f : remove_all S (at_kids up (ins w (leaf x)) f) = remove_all S f.
Proof.
  destruct up as [p|]; cbn [at_kids]; [|apply rm_ins].
  induction f as [|a k IHk r IHr]; cbn [at_node remove_all]; auto.
  destruct (nid a =? p); cbn [remove_all]; rewrite ?rm_ins, ?IHk, ?IHr; auto.
Qed.
End Delete.

Theorem add_delete o F c x F' : new_ids c = [x] -> fresh_call F c -> sp_exec o F c = Ok F' ->
  sp_exec o F' (CDelete [x]) = Ok F.
Proof.
  intros En Fr E. apply sp_exec_ok in E. subst F'. cbn [sp_exec sp_call]. f_equal.
  assert (Nx : ~ In x (ids F)) by (apply Fr; rewrite En; left; auto).
  assert (R0 : remove_all (fun i => existsb (Nat.eqb i) [x]) F = F).
  { apply remove_all_none. intros i Hi. cbn. rewrite orb_false_r. apply Nat.eqb_neq. intros ->. auto. }
  rewrite <- R0 at 2. set (R := fun i => existsb (Nat.eqb i) [x]) in *.
  assert (Sx : R x = true) by (unfold R; cbn; rewrite Nat.eqb_refl; auto).
  destruct c as [y|p y|t p y|n t p|l]; try discriminate; injection En as <-; cbn [sp_call].
  - exact (rm_at_kids R y Sx None _ F).
  - exact (rm_at_kids R y Sx (Some p) _ F).
  - destruct (prepare_pos_add (sorts o) p) as [P|]; auto. unfold sp_add_sibling.
    destruct (resolve t P (gt_of o (ndata y)) F) as [up w]. apply rm_at_kids; auto.
Qed.

(** ** Moving there and back *)

(** Ways to say in [F] where the node [n] is. *)
Inductive place_of (F : forest node) (n : nat) : nat -> string -> Prop :=
| po_left up A a s B : kid_list up F = Some (A ++ a :: s :: B) -> nid a = n -> place_of F n (nid s) "left"
| po_right up A s a B : kid_list up F = Some (A ++ s :: a :: B) -> nid a = n -> place_of F n (nid s) "right"
| po_first_child k a B : kid_list (Some k) F = Some (a :: B) -> nid a = n -> place_of F n k "first-child"
| po_last_child k a A : kid_list (Some k) F = Some (A ++ [a]) -> nid a = n -> place_of F n k "last-child"
| po_first_sibling up a s B : kid_list up F = Some (a :: B) -> nid a = n -> In s B -> place_of F n (nid s) "first-sibling"
| po_last_sibling up a s A : kid_list up F = Some (A ++ [a]) -> nid a = n -> In s A -> place_of F n (nid s) "last-sibling".

Lemma children_ins n w T l : ~ In n (ids l) -> children_of n (ins w T l) = children_of n T.
Proof.
  intros N. assert (C0 := children_of_notin n l N).
  assert (B : forall P l, ~ In n (ids l) -> children_of n (ins_before P T l) = children_of n T).
  { intros P m. induction m as [|a k _ r IH]; cbn [ins_before]; intros H; auto.
    destruct (P a); [rewrite children_of_fapp, (children_of_notin n _ H); destruct (children_of n T); auto|].
    rewrite ids_cons in H. cbn [children_of]. destruct (Nat.eqb_spec (nid a) n) as [E|_]; [destruct H; left; auto|].
    rewrite (children_of_notin n k); [apply IH|]; intros Hi; apply H; right; apply in_app_iff; auto. }
  assert (Af : forall P l, ~ In n (ids l) -> children_of n (ins_after P T l) = children_of n T).
  { intros P m. induction m as [|a k _ r IH]; cbn [ins_after]; intros H; auto.
    rewrite ids_cons in H. assert (Hk : ~ In n (ids k)) by (intros Hi; apply H; right; apply in_app_iff; auto).
    assert (Hr : ~ In n (ids r)) by (intros Hi; apply H; right; apply in_app_iff; auto).
    destruct (P a); cbn [children_of]; (destruct (Nat.eqb_spec (nid a) n) as [E|_]; [destruct H; left; auto|]);
      rewrite (children_of_notin n k Hk); [|apply IH; auto].
    rewrite children_of_fapp, (children_of_notin n r Hr). destruct (children_of n T); auto. }
  destruct w; cbn [ins]; auto; rewrite children_of_fapp, C0; destruct (children_of n T); auto.
Qed.

Lemma children_at n p h R l : wf_ids R -> ~ In n (ids R) -> children_of p R = Some l ->
  children_of n (at_node p h R) = children_of n (h l).
Proof.
  induction R as [|a k IHk r IHr]; intros W N E; [discriminate|].
  destruct (wf_cons_inv W) as (W1 & W2 & W3 & W4 & W5). rewrite ids_cons in N. cbn [children_of at_node] in *.
  assert (Hk : ~ In n (ids k)) by (intros Hi; apply N; right; apply in_app_iff; auto).
  assert (Hr : ~ In n (ids r)) by (intros Hi; apply N; right; apply in_app_iff; auto).
  assert (Na : nid a =? n = false) by (apply Nat.eqb_neq; intros E1; apply N; left; auto).
  destruct (nid a =? p); cbn [children_of]; rewrite Na.
  - injection E as ->. rewrite (children_of_notin n r Hr). destruct (children_of n (h l)); auto.
  - destruct (children_of p k) as [y|] eqn:Ek.
    + injection E as ->. rewrite (IHk W3 Hk eq_refl). assert (Hp := children_in _ _ _ Ek).
      rewrite (at_node_notin p h r) by (intros Hi; apply (W5 p); auto). rewrite (children_of_notin n r Hr).
      destruct (children_of n (h l)); auto.
    + assert (Hp : ~ In p (ids k)) by (intros Hi; apply children_some in Hi; destruct Hi; congruence).
      rewrite (at_node_notin p h k Hp), (children_of_notin n k Hk). auto.
Qed.

(** A move keeps what is below the node. *)
Lemma move_below n t P gt F : wf_ids F -> In n (ids F) -> In t (ids F) -> ~ inside F n t P ->
  children_of n (sp_move n t P gt F) = children_of n F.
Proof.
  intros W Hn Ht NI. unfold sp_move. destruct (resolve t P gt F) as [up w] eqn:Er.
  destruct (place_is_self n w); auto.
  destruct (children_some n F Hn) as (c & Ec). assert (St := subtree_children n F). rewrite Ec in St. destruct St as (a & Ea & _ & Es).
  assert (Wr : wf_ids (remove n F)) by (rewrite <- (remove_all_one n W); apply remove_all_wf; auto).
  assert (Nr : ~ In n (ids (remove n F))) by (apply (remove_gone n F c n W Ec); auto).
  assert (Et : children_of n (subtree n F) = children_of n F) by (rewrite Es, Ec; cbn [children_of]; rewrite Ea, Nat.eqb_refl; auto).
  destruct up as [q|]; cbn [at_kids]; [|rewrite children_ins; auto].
  assert (Up : forall (Q : Prop), (is_child_pos P = true -> q = t -> Q) -> (parent_of t F = Some (Some q) -> Q) -> Q).
  { intros Q H1 H2. unfold resolve in Er. destruct (parent_kids t F W Ht) as (u & l & Ep & _). rewrite Ep in *.
    destruct P; injection Er as Eq _; subst; auto. }
  assert (Nq : q <> n).
  { intros ->. apply NI. apply Up; [intros H ->; right; auto|]. intros Ep. left. exists c. split; auto.
    destruct (parent_kids t F W Ht) as (u & l & Ep' & El & Hl). rewrite Ep in Ep'. injection Ep' as <-.
    cbn [kids_of] in El. rewrite Ec in El. injection El as <-. apply roots_ids; auto. }
  assert (Iq : ~ In q (ids c)).
  { intros Hi. apply NI. left. exists c. split; auto. apply Up; [intros _ <-; auto|]. intros Ep.
    destruct (parent_kids t F W Ht) as (u & l & Ep' & El & Hl). rewrite Ep in Ep'. injection Ep' as <-.
    cbn [kids_of] in El. rewrite (children_sub n F c q W Ec Hi) in El. apply (kids_in (Some q) c l t); auto. apply roots_ids; auto. }
  assert (Hq : exists l, children_of q (remove n F) = Some l).
  { destruct (resolve_kids t P gt F (Some q) w W Ht Er) as (l & El). cbn [kids_of] in El.
    assert (X := remove_lists n F W q Nq). unfold kid_list in X. cbn [kids_of] in X. rewrite El in X.
    destruct (children_of q (remove n F)); [eauto|]. discriminate X. intros c' Ec'. congruence. }
  destruct Hq as (l & El). rewrite (children_at n q _ _ l Wr Nr El), children_ins; auto.
  intros Hi. apply Nr. apply (kids_in (Some q) (remove n F) l n); auto.
Qed.

Lemma uniq_split (A B L M : list node) s b : NoDup (map nid (A ++ s :: B)) -> nid b = nid s -> A ++ s :: B = L ++ b :: M -> A = L /\ B = M.
Proof.
  revert L. induction A as [|x A IH]; intros [|y L] N Eb E; cbn in *.
  - injection E as _ E. auto.
  - injection E as -> E. apply NoDup_cons_iff in N. destruct N as [N _]. destruct N. rewrite <- Eb, E, map_app. apply in_app_iff. right. left. auto.
  - injection E as -> E. apply NoDup_cons_iff in N. destruct N as [N _]. destruct N. rewrite Eb, map_app. apply in_app_iff. right. left. auto.
  - injection E as -> E. apply NoDup_cons_iff in N. destruct (IH L) as [-> ->]; auto. apply N.
Qed.

Lemma drop_drop n L : drop n (drop n L) = drop n L.
Proof. apply drop_notin. intros H. apply in_map_iff in H. destruct H as (x & E & Hx). apply drop_in in Hx. tauto. Qed.

Lemma drop_mid n A a B : nid a = n -> NoDup (map nid (A ++ a :: B)) -> drop n (A ++ a :: B) = A ++ B.
Proof.
  intros E N. rewrite map_app in N. cbn [map] in N. apply NoDup_remove in N. destruct N as [_ N]. rewrite E, <- map_app in N.
  rewrite drop_app. cbn [drop filter]. rewrite E, Nat.eqb_refl. cbn [negb]. fold (drop n B). rewrite <- drop_app. apply drop_notin. auto.
Qed.

Lemma list_below up F l n : wf_ids F -> kids_of up F = Some l -> In n (ids l) -> children_of n F = children_of n l.
Proof. intros W E H. destruct up as [q|]; [exact (children_sub q F l n W E H)|]. injection E as ->. auto. Qed.

(** What lies below a node is not among its siblings. *)
Lemma below_list up F n c A a B : wf_ids F -> kid_list up F = Some (A ++ a :: B) -> nid a = n -> children_of n F = Some c ->
  ~ In n (ids c) /\ (forall s, In s (A ++ B) -> ~ In (nid s) (ids c)) /\ (forall k, up = Some k -> ~ In k (ids c)).
Proof.
  intros W E En Ec. unfold kid_list in E. destruct (kids_of up F) as [l|] eqn:El; [|discriminate]. injection E as E.
  destruct (roots_app_split _ _ _ E) as (l1 & l0 & -> & E1 & E0). destruct l0 as [|a' c' l2]; [discriminate|]. injection E0 as -> E2.
  assert (Wl := wf_kids up F _ W El). unfold wf_ids in Wl. rewrite ids_fapp, ids_cons in Wl.
  assert (Hn : In n (ids (fapp l1 (Cons a c' l2)))) by (rewrite ids_fapp, ids_cons; apply in_app_iff; right; left; auto).
  assert (N1 : ~ In n (ids l1)).
  { intros H. rewrite <- En in H. apply NoDup_remove in Wl. apply (proj2 Wl). apply in_app_iff. auto. }
  assert (Ec' : c' = c).
  { rewrite (list_below up F _ n W El Hn), children_of_fapp, (children_of_notin n l1 N1) in Ec. cbn [children_of] in Ec.
    rewrite En, Nat.eqb_refl in Ec. congruence. }
  subst c'. apply NoDup_remove in Wl. destruct Wl as [Wl Wa].
  assert (Nc : ~ In n (ids c)) by (intros H; apply Wa; rewrite En, !in_app_iff; auto).
  split; auto. split.
  - intros s Hs Hc. apply in_app_iff in Hs.
    assert (Rt : forall g, In s (roots g) -> In (nid s) (ids g)) by (intros g Hg; apply roots_ids, in_map; auto).
    destruct Hs as [Hs|Hs].
    + rewrite <- E1 in Hs. apply Rt in Hs. apply NoDup_app_iff in Wl. destruct Wl as (_ & _ & Wl). apply (Wl (nid s)); auto. apply in_app_iff. auto.
    + rewrite <- E2 in Hs. apply Rt in Hs. apply NoDup_app_iff in Wl. destruct Wl as (_ & Wl & _). apply NoDup_app_iff in Wl.
      destruct Wl as (_ & _ & Wl). apply (Wl (nid s)); auto.
  - intros k -> Hk. cbn [kids_of] in El. apply Nc. apply (kids_in (Some k) c (fapp l1 (Cons a c l2)) n); auto.
    cbn [kids_of]. rewrite <- (children_sub n F c k W Ec Hk). auto.
Qed.

(** The position [p] of [t] names the place of [n] in [F] unambiguously. *)
Definition named_place (o : ordering) (F : forest node) (n t : nat) (p : string) : Prop := exists up A a B P,
  kid_list up F = Some (A ++ a :: B) /\ nid a = n /\ prepare_pos_move (sorts o) (Some p) = Ok P /\ n <> t /\
  (up = Some t \/ exists s, In s (A ++ B) /\ nid s = t) /\
  (if is_child_pos P then up = Some t else exists s, In s (A ++ B) /\ nid s = t) /\
  forall M1 M2, M1 ++ M2 = A ++ B -> ins_split (sib_place P t (gt_of o (ndata a))) M1 M2 -> M1 = A /\ M2 = B.

(** With node_order_by: [n] does not come before the siblings on its left and comes strictly
    before those on its right. *)
Inductive sorted_place_of (o : ordering) (F : forest node) (n : nat) : nat -> string -> Prop :=
| so_child k A a B : kid_list (Some k) F = Some (A ++ a :: B) -> nid a = n ->
    has_values o (ndata a) ->
    (forall x, In x A -> lexlt o (ndata a) (ndata x) = false) -> (forall x, In x B -> lexlt o (ndata a) (ndata x) = true) ->
    sorted_place_of o F n k "sorted-child"
| so_sibling up s A a B : kid_list up F = Some (A ++ a :: B) -> nid a = n -> In s (A ++ B) ->
    has_values o (ndata a) ->
    (forall x, In x A -> lexlt o (ndata a) (ndata x) = false) -> (forall x, In x B -> lexlt o (ndata a) (ndata x) = true) ->
    sorted_place_of o F n (nid s) "sorted-sibling".

Lemma sorted_split (g : node -> bool) A B M1 M2 : (forall x, In x A -> g x = false) -> (forall x, In x B -> g x = true) ->
  M1 ++ M2 = A ++ B -> (forall x, In x M1 -> g x = false) -> (forall b L, M2 = b :: L -> g b = true) -> M1 = A /\ M2 = B.
Proof.
  revert M1. induction A as [|x A IH]; intros M1 HA HB E H1 H2.
  - destruct M1 as [|y M1]; [auto|]. destruct B as [|b B]; [discriminate|]. injection E as -> E.
    specialize (H1 b (or_introl eq_refl)). rewrite (HB b (or_introl eq_refl)) in H1. discriminate.
  - destruct M1 as [|y M1].
    + cbn in E. specialize (H2 x (A ++ B) E). rewrite (HA x (or_introl eq_refl)) in H2. discriminate.
    + injection E as -> E. destruct (IH M1) as [-> ->]; auto; intros z Hz; [apply HA|apply H1]; right; auto.
Qed.

Lemma list_facts F n : wf_ids F -> (forall up L, kid_list up F = Some L -> NoDup (map nid L)) /\
  (forall up A a B s, kid_list up F = Some (A ++ a :: B) -> nid a = n -> In s (A ++ B) -> n <> nid s) /\
  (forall k A a B, kid_list (Some k) F = Some (A ++ a :: B) -> nid a = n -> n <> k).
Proof.
  intros W.
  assert (ND : forall up L, kid_list up F = Some L -> NoDup (map nid L)).
  { intros up L E. rewrite <- (kl_kid_list up F L E). apply kl_nodup; auto. }
  assert (Ne : forall up A a B s, kid_list up F = Some (A ++ a :: B) -> nid a = n -> In s (A ++ B) -> n <> nid s).
  { intros up A a B s E Ea Hs Q. assert (N := ND up _ E). rewrite map_app in N. cbn [map] in N. apply NoDup_remove in N.
    apply (proj2 N). rewrite <- map_app. rewrite Ea, Q. apply in_map. auto. }
  assert (Nk : forall k A a B, kid_list (Some k) F = Some (A ++ a :: B) -> nid a = n -> n <> k).
  { intros k A a B E Ea ->. destruct (kids_of (Some k) F) as [c|] eqn:Ec; [|unfold kid_list in E; rewrite Ec in E; discriminate].
    destruct (below_list (Some k) F k c A a B W E Ea Ec) as (N & _). apply N. unfold kid_list in E. rewrite Ec in E. injection E as E.
    apply roots_ids. rewrite E. apply in_map_iff. exists a. split; auto. apply in_app_iff. right. left. auto. }
  auto.
Qed.

Lemma place_facts F n t p : wf_ids F -> place_of F n t p -> named_place [] F n t p.
Proof.
  intros W H. destruct (list_facts F n W) as (ND & Ne & Nk). unfold named_place.
  destruct H as [up A a s B E Ea|up A s a B E Ea|k a B E Ea|k a A E Ea|up a s B E Ea Hs|up a s A E Ea Hs].
  - assert (Hs : In s (A ++ s :: B)) by (apply in_app_iff; right; left; auto). exists up, A, a, (s :: B), Left. split; auto. split; auto. split; [reflexivity|].
    split; [eapply Ne; eauto|]. split; [eauto|]. split; [cbn; eauto|].
    intros M1 M2 EM [_ (b & L & -> & Eb)].
    destruct (uniq_split A B M1 L s b) as [-> ->]; auto. 2:{ rewrite <- EM in *. apply app_inv_head in EM. injection EM as <-. auto. }
    assert (N := ND up _ E). rewrite map_app in N. cbn [map] in N. apply NoDup_remove in N. rewrite map_app. apply N.
  - assert (Hs : In s ((A ++ [s]) ++ B)) by (apply in_app_iff; left; apply in_app_iff; right; left; auto).
    replace (A ++ s :: a :: B) with ((A ++ [s]) ++ a :: B) in E by (rewrite <- app_assoc; auto).
    exists up, (A ++ [s]), a, B, Right. split; auto. split; auto. split; [reflexivity|].
    split; [eapply Ne; eauto|]. split; [eauto|]. split; [cbn; eauto|].
    intros M1 M2 EM (L & b & -> & Eb & _). rewrite <- !app_assoc in EM. cbn [app] in EM. symmetry in EM.
    assert (N := ND up _ E). rewrite map_app in N. cbn [map] in N. apply NoDup_remove in N. destruct N as [N _]. rewrite <- map_app, <- app_assoc in N.
    cbn [app] in N. assert (Q := uniq_split A B L M2 s b N Eb EM). destruct Q as [-> ->].
    apply app_inv_head in EM. injection EM as ->. auto.
  - exists (Some k), [], a, B, FirstChild. split; auto. split; auto. split; [reflexivity|]. split; [apply (Nk k [] a B); auto|].
    split; auto. split; [reflexivity|]. cbn. intros M1 M2 EM ->. auto.
  - exists (Some k), A, a, [], LastChild. split; auto. split; auto. split; [reflexivity|]. split; [apply (Nk k A a []); auto|].
    split; auto. split; [reflexivity|]. cbn. intros M1 M2 EM ->. rewrite !app_nil_r in EM. auto.
  - exists up, [], a, B, FirstSibling. split; auto. split; auto. split; [reflexivity|]. split; [apply (Ne up [] a B); auto|].
    split; [eauto|]. split; [cbn; eauto|]. cbn. intros M1 M2 EM ->. auto.
  - assert (Hs' : In s (A ++ [])) by (rewrite app_nil_r; auto).
    exists up, A, a, [], LastSibling. split; auto. split; auto. split; [reflexivity|]. split; [apply (Ne up A a []); auto|].
    split; [eauto|]. split; [cbn; eauto|]. cbn. intros M1 M2 EM ->. rewrite !app_nil_r in EM. auto.
Qed.

Lemma sorted_place_facts o F n t p : o <> [] -> wf_ids F -> sorted_place_of o F n t p -> named_place o F n t p.
Proof.
  intros No W H. destruct (list_facts F n W) as (ND & Ne & Nk). assert (So : sorts o = true) by (apply sorts_true; auto). unfold named_place. rewrite So.
  assert (G : forall a x, has_values o (ndata a) -> gt_of o (ndata a) x = lexlt o (ndata a) (ndata x)) by (intros; apply sorted_after_values; auto).
  destruct H as [k A a B E Ea Va HA HB|up s A a B E Ea Hs Va HA HB].
  - exists (Some k), A, a, B, SortedChild. split; auto. split; auto. split; [reflexivity|]. split; [apply (Nk k A a B); auto|].
    split; auto. split; [reflexivity|]. cbn. intros M1 M2 EM [H1 H2]. apply (sorted_split (gt_of o (ndata a))); auto; intros x Hx; rewrite G; auto.
  - exists up, A, a, B, SortedSibling. split; auto. split; auto. split; [reflexivity|]. split; [apply (Ne up A a B); auto|].
    split; [eauto|]. split; [cbn; eauto|]. cbn. intros M1 M2 EM [H1 H2]. apply (sorted_split (gt_of o (ndata a))); auto; intros x Hx; rewrite G; auto.
Qed.

(** [F'] is [F] with [n] somewhere else: moving it to its place in [F] gives [F]. *)
Lemma return_to o F F' n t p : wf_ids F -> wf_ids F' -> (forall i, In i (ids F) -> In i (ids F')) ->
  children_of n F' = children_of n F -> (forall b, In b (preorder F') -> nid b = n -> In b (preorder F)) ->
  (forall q, option_map (drop n) (kid_list q F') = option_map (drop n) (kid_list q F)) ->
  named_place o F n t p -> sp_exec o F' (CMove n t (Some p)) = Ok F.
Proof.
  intros W W' Inc Below Same Lists Pl. destruct Pl as (up & A & a & B & P & E & Ea & EP & Nt & Wh & Wh2 & Sp).
  assert (Ka : In a (kl up F)) by (rewrite (kl_kid_list _ _ _ E); apply in_app_iff; right; left; auto).
  assert (Hn : In n (ids F)) by (rewrite <- Ea; apply (kl_in up F a); auto).
  assert (Ks : forall s, In s (A ++ B) -> In s (kl up F)).
  { intros s Hs. rewrite (kl_kid_list _ _ _ E). apply in_app_iff in Hs. apply in_app_iff. destruct Hs; [auto|right; right; auto]. }
  assert (Ht : In t (ids F)).
  { destruct Wh as [->|(s & Hs & <-)]; [apply (kl_up (Some t) F a); auto|apply (kl_in up F s); auto]. }
  destruct (children_some n F Hn) as (c & Ec). destruct (below_list up F n c A a B W E Ea Ec) as (Nc & Ns & Nk).
  assert (NI : ~ inside F' n t P).
  { intros [(c' & Ec' & Hc)|(Q & _)]; [|auto]. rewrite Below, Ec in Ec'. injection Ec' as <-.
    destruct Wh as [->|(s & Hs & <-)]; [apply (Nk t); auto|apply (Ns s); auto]. }
  assert (X : sp_exec o F' (CMove n t (Some p)) = Ok (sp_move n t P (gt_of o (data_of n F')) F')).
  { cbn [sp_exec sp_call]. rewrite (proj2 (has_spec n F') (Inc n Hn)), (proj2 (has_spec t F') (Inc t Ht)), EP. cbn [andb bind].
    rewrite (proj2 (insideb_false F' n t P) NI). auto. }
  rewrite X. f_equal.
  assert (WG : wf_ids (sp_move n t P (gt_of o (data_of n F')) F')).
  { apply (sp_exec_ids o F' (CMove n t (Some p))); auto. intros i []. }
  assert (Ed : data_of n F' = ndata a).
  { assert (Hn' := Inc n Hn). unfold ids in Hn'. apply in_map_iff in Hn'. destruct Hn' as (b & Eb & Hb).
    replace a with b; [apply data_of_spec; auto|]. apply (node_eq F); auto; [apply (kl_pre up); auto|congruence]. }
  rewrite Ed in *. revert Sp WG. generalize (gt_of o (ndata a)). intros gt Sp WG.
  destruct (move_sane n t P gt F' W' (Inc n Hn) (Inc t Ht) NI) as [(Q & _)|(up' & a' & M1 & M2 & Hup & Ea' & Mv & Sm)]; [contradiction|].
  assert (NdF : NoDup (map nid (A ++ a :: B))) by (rewrite <- (kl_kid_list _ _ _ E); apply kl_nodup; auto).
  assert (Dr : forall L, kid_list up F' = Some L -> drop n L = A ++ B).
  { intros L EL. assert (H := Lists up). rewrite EL, E in H. cbn [option_map] in H. injection H as ->. apply drop_mid; auto. }
  assert (Eup : up' = up).
  { destruct (is_child_pos P); [congruence|]. destruct Wh2 as (s & Hs & Es).
    assert (Hk : exists L, kid_list up F' = Some L).
    { assert (H := Lists up). rewrite E in H. destruct (kid_list up F'); [eauto|discriminate]. }
    destruct Hk as (L & EL). rewrite <- (Dr L EL) in Hs. apply drop_in in Hs.
    assert (H := kl_parent up F' s W'). rewrite (kl_kid_list _ _ _ EL), Es in H. specialize (H (proj1 Hs)). congruence. }
  subst up'. destruct Mv as [V1 (L & EL & DL) V3 V4]. rewrite Ea' in DL. rewrite (Dr L EL) in DL.
  destruct (Sp M1 M2 (eq_sym DL) Sm) as [-> ->].
  assert (a' = a).
  { apply (node_eq F); auto; [apply (kl_pre up); auto|congruence]. }
  subst a'. apply kid_list_ext; auto. intros q. destruct (opt_dec q up) as [->|Nq]; [congruence|].
  rewrite V4, Ea, Lists by auto. destruct (kid_list q F) as [K|] eqn:EK; auto. cbn. f_equal. apply drop_notin. intros H.
  apply in_map_iff in H. destruct H as (b & Eb & Hb). apply Nq. apply (kl_unique q up F b a W); auto; [|congruence].
  rewrite (kl_kid_list _ _ _ EK). auto.
Qed.

Theorem move_stay_named o F n t p : wf_ids F -> named_place o F n t p -> sp_exec o F (CMove n t (Some p)) = Ok F.
Proof. intros W Pl. apply return_to; auto. Qed.

Theorem move_back_named o F n t p F' t' p' : wf_ids F -> sp_exec o F (CMove n t p) = Ok F' -> named_place o F n t' p' ->
  sp_exec o F' (CMove n t' (Some p')) = Ok F.
Proof.
  intros W E Pl. assert (Fr : fresh_call F (CMove n t p)) by (intros i []).
  destruct (sp_exec_ids o F (CMove n t p) F' W Fr E) as [W' Pm]. cbn [new_ids app] in Pm.
  cbn [sp_exec] in E. destruct (has n F) eqn:Hn; [|discriminate]. destruct (has t F) eqn:Ht; [|discriminate]. cbn [andb] in E.
  apply has_spec in Hn. apply has_spec in Ht. cbn [sp_call] in E. destruct (prepare_pos_move (sorts o) p) as [P|]; [|discriminate]. cbn [bind] in E.
  destruct (insideb F n t P) eqn:NI; [discriminate|]. apply insideb_false in NI. injection E as E.
  assert (Below := move_below n t P (gt_of o (data_of n F)) F W Hn Ht NI). rewrite E in Below.
  destruct (move_sane n t P (gt_of o (data_of n F)) F W Hn Ht NI) as [(_ & _ & Q)|(up & a & L1 & L2 & _ & Ea & Mv & _)].
  { rewrite Q in E. rewrite <- E. apply move_stay_named; auto. }
  rewrite E in Mv. destruct Mv as [V1 (L & EL & DL) V3 V4]. rewrite Ea in *.
  apply return_to; auto.
  - intros i Hi. eapply Permutation_in; [symmetry; exact Pm|auto].
  - intros b Hb Eb. replace b with a; auto. apply (node_eq F'); auto; [|congruence].
    apply (kl_pre up). rewrite (kl_kid_list _ _ _ V3). apply in_app_iff. right. left. auto.
  - intros q. destruct (opt_dec q up) as [->|Nq].
    + rewrite V3, EL. cbn. f_equal. rewrite DL. apply drop_mid; auto. rewrite <- (kl_kid_list _ _ _ V3). apply kl_nodup; auto.
    + rewrite V4 by auto. destruct (kid_list q F); auto. cbn. f_equal. apply drop_drop.
Qed.

Theorem move_stay F n t p : wf_ids F -> place_of F n t p -> sp_exec [] F (CMove n t (Some p)) = Ok F.
Proof. intros W Pl. apply move_stay_named; auto. apply place_facts; auto. Qed.

Theorem move_back F n t p F' t' p' : wf_ids F -> sp_exec [] F (CMove n t p) = Ok F' -> place_of F n t' p' ->
  sp_exec [] F' (CMove n t' (Some p')) = Ok F.
Proof. intros W E Pl. apply (move_back_named [] F n t p); auto. apply place_facts; auto. Qed.

Theorem move_back_sorted o F n t p F' t' p' : o <> [] -> wf_ids F -> sp_exec o F (CMove n t p) = Ok F' -> sorted_place_of o F n t' p' ->
  sp_exec o F' (CMove n t' (Some p')) = Ok F.
Proof. intros No W E Pl. apply (move_back_named o F n t p); auto. apply sorted_place_facts; auto. Qed.
