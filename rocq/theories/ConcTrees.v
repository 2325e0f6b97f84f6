(** Calls that work in different trees do not disturb each other (C66, C67). *)
From Coq Require Import List Arith Lia Bool ZArith Permutation Sorted.
From Verif Require Import Prelude Forest SpecFacts CommonModel Order History ConcModel ConcRun ConcLock ConcAlone ConcLocal ConcCalls.
From Verif Require NSModel NSInv NSHist ConcNS.
Import ListNotations.
Local Open Scope nat_scope.

(** The root of the tree of a node. *)
Fixpoint tree_of (i : nat) (F : forest node) : option nat :=
  match F with
  | Nil => None
  | Cons a k r => if existsb (Nat.eqb i) (nid a :: ids k) then Some (nid a) else tree_of i r
  end.

(** The nodes that a call is about. *)
Definition names (c : call) : list nat :=
  match c with CAddRoot _ => [] | CAddChild k _ => [k] | CAddSibling k _ _ => [k] | CMove n q _ => [n; q] | CDelete l => l end.

Definition in_tree (F : forest node) (c : call) : Prop :=
  match c with CAddChild k _ => In k (ids F) | CDelete l => forall i, In i l -> In i (ids F) | _ => False end.

Definition trees_apart (F : forest node) (c d : call) : Prop :=
  forall i j, In i (names c) -> In j (names d) -> tree_of i F <> tree_of j F.

Lemma names_in F c i : in_tree F c -> In i (names c) -> In i (ids F).
Proof. destruct c; cbn; try tauto; [intros H [<-|[]]; auto|auto]. Qed.

Lemma has_iff i l : existsb (Nat.eqb i) l = true <-> In i l.
Proof.
  rewrite existsb_exists. split.
  - intros (x & Hx & E). apply Nat.eqb_eq in E. congruence.
  - intros H. exists i. rewrite Nat.eqb_refl. auto.
Qed.

Section Trees.
Variable R : Type.
Variable pk : R -> nat.
Variable same : R -> R -> bool.
Hypothesis same_pk : forall a b, pk a = pk b -> same a b = true.
Variable V : R -> Prop.
Variable T : Type.
Variable tr : R -> T.
Variable teq : T -> T -> bool.
Hypothesis teq_iff : forall a b, teq a b = true <-> a = b.
Variable t0 : list R.
Variable F0 : forest node.
Variable calls : list call.

Definition dom (c : call) (r : R) : bool := existsb (fun q => existsb (Nat.eqb (pk q)) (names c) && teq (tr q) (tr r)) t0.
Definition keys (c : call) (k : nat) : bool :=
  existsb (Nat.eqb k) (new_ids c) || existsb (fun r => (pk r =? k) && dom c r) t0.

Hypothesis keys0 : NoDup (map pk t0).
Hypothesis valid0 : forall r, In r t0 -> V r.
Hypothesis ids0 : forall i, In i (ids F0) <-> In i (map pk t0).
Hypothesis trees0 : forall r q, In r t0 -> In q t0 -> tr r = tr q -> tree_of (pk r) F0 = tree_of (pk q) F0.
Hypothesis in0 : forall c i, In c calls -> In i (names c) -> In i (ids F0).
Hypothesis fresh0 : forall i, In i (flat_map new_ids calls) -> ~ In i (ids F0).
Hypothesis new0 : NoDup (flat_map new_ids calls).
Hypothesis apart0 : forall i j c d, i <> j -> nth_error calls i = Some c -> nth_error calls j = Some d -> trees_apart F0 c d.

Lemma dom_iff c r : dom c r = true <-> exists q, In q t0 /\ In (pk q) (names c) /\ tr q = tr r.
Proof.
  unfold dom. rewrite existsb_exists. split; intros (q & Hq & H); exists q; rewrite andb_true_iff, has_iff, teq_iff in *; tauto.
Qed.
Lemma dom_tr c r r' : dom c r = true -> tr r' = tr r -> dom c r' = true.
Proof. rewrite !dom_iff. intros (q & H1 & H2 & H3) E. exists q. rewrite E. auto. Qed.
Lemma keys_iff c k : keys c k = true <-> In k (new_ids c) \/ exists r, In r t0 /\ pk r = k /\ dom c r = true.
Proof.
  unfold keys. rewrite orb_true_iff, has_iff, existsb_exists. split; intros [H|(r & Hr & H)]; auto; right; exists r;
    rewrite andb_true_iff, Nat.eqb_eq in *; tauto.
Qed.
Lemma keys_name c i : In c calls -> In i (names c) -> keys c i = true.
Proof.
  intros Hc Hi. apply keys_iff. right. assert (H := in0 c i Hc Hi). apply ids0 in H.
  apply in_map_iff in H. destruct H as (r & E & Hr). exists r. split; auto. split; auto. apply dom_iff. exists r. rewrite E. auto.
Qed.
Lemma keys_new c i : In i (new_ids c) -> keys c i = true.
Proof. intros H. apply keys_iff. auto. Qed.

Lemma home0 c : In c calls -> home R pk V (dom c) (keys c) t0.
Proof.
  intros Hc. split; auto. intros r Hr. apply eq_true_iff_eq. rewrite keys_iff. split.
  - intros D. right. eauto.
  - intros [H|(q & Hq & E & D)].
    + exfalso. apply (fresh0 (pk r)); [apply in_flat_map; eauto|]. apply ids0. apply in_map. auto.
    + assert (q = r) as <- by (eapply (ConcNS.key_unique R pk t0); eauto). auto.
Qed.

Lemma doms_apart i j c d : i <> j -> nth_error calls i = Some c -> nth_error calls j = Some d -> apart R call dom keys c d.
Proof.
  intros N Hi Hj. assert (A := apart0 i j c d N Hi Hj).
  assert (B : forall r, dom c r = true -> dom d r = true -> False).
  { intros r D1 D2. apply dom_iff in D1. apply dom_iff in D2. destruct D1 as (q1 & I1 & N1 & E1), D2 as (q2 & I2 & N2 & E2).
    apply (A (pk q1) (pk q2)); auto. apply trees0; auto. congruence. }
  assert (Fr : forall e k r, In e calls -> In k (new_ids e) -> In r t0 -> pk r = k -> False).
  { intros e k r He Hk Hr E. apply (fresh0 k); [apply in_flat_map; eauto|]. apply ids0. rewrite <- E. apply in_map. auto. }
  assert (Hc := nth_error_In _ _ Hi). assert (Hd := nth_error_In _ _ Hj).
  split.
  - intros r D1. apply not_true_iff_false. intros D2. eauto.
  - intros k K1. apply not_true_iff_false. intros K2. apply keys_iff in K1. apply keys_iff in K2.
    destruct K1 as [K1|(r & I1 & E1 & D1)], K2 as [K2|(q & I2 & E2 & D2)].
    + exact (calls_apart calls new0 i j c d N Hi Hj k K1 K2).
    + exact (Fr c k q Hc K1 I2 E2).
    + exact (Fr d k r Hd K2 I1 E1).
    + assert (q = r) as -> by (apply (ConcNS.key_unique R pk t0); auto; congruence). eauto.
Qed.

Variable start : call -> prog R.
Variable exec : list R -> call -> res (list R).
Variable o : ordering.
Variable rel : list R -> forest node -> Prop.
Variable ready : list R -> call -> Prop.
Hypothesis starts : forall t c, In c calls -> (exists F, rel t F) -> ready t c -> home R pk V (dom c) (keys c) t ->
  local_at R pk same V (dom c) (keys c) (filter (dom c) t) (start c).
Hypothesis same_call : forall t c, (exists F, rel t F) -> ready t c -> alone R pk same t (start c) = exec t c.
Hypothesis result : forall t F c t', rel t F -> ready t c -> exec t c = Ok t' -> rel t' (sp_call o F c).
Hypothesis stays_ready : forall t c d t', (exists F, rel t F) -> ready t c -> ready t d -> new_apart c d -> exec t c = Ok t' -> ready t' d.
Hypothesis rel0 : rel t0 F0.
Hypothesis ready0 : forall c, In c calls -> ready t0 c.

Lemma one_by_one_map order t : one_by_one (alone R pk same) (map start calls) t order = one_by_one (lexec R pk same call start) calls t order.
Proof.
  revert t. induction order as [|i order IH]; intros t; auto. cbn [one_by_one]. rewrite nth_error_map.
  destruct (nth_error calls i) as [c|]; cbn [option_map]; auto. unfold lexec at 1. destruct (alone R pk same t (start c)); rewrite IH; auto.
Qed.

Lemma one_by_one_rel : forall order t F, NoDup order -> rel t F -> (forall i c, In i order -> nth_error calls i = Some c -> ready t c) ->
  rel (fst (one_by_one exec calls t order)) (fold_left (sp_call o) (succeeded calls (snd (one_by_one exec calls t order))) F).
Proof.
  induction order as [|i order IH]; intros t F N O Rd; auto.
  apply NoDup_cons_iff in N. destruct N as [Ni N]. cbn [one_by_one].
  destruct (nth_error calls i) as [c|] eqn:E.
  - assert (Rc := Rd i c (or_introl eq_refl) E). destruct (exec t c) as [t'|e] eqn:Ex.
    + assert (O' := result t F c t' O Rc Ex).
      assert (X := IH t' (sp_call o F c) N O'). destruct (one_by_one exec calls t' order) as [t2 l2]. cbn [fst snd] in *.
      unfold succeeded. cbn [flat_map fst snd]. rewrite E. cbn [app fold_left]. apply X.
      intros j d Hj Ej. assert (i <> j) by (intros ->; auto). apply (stays_ready t c d t'); eauto.
      * apply (Rd j); auto. right. auto.
      * apply (calls_apart calls new0 i j); auto.
    + assert (X := IH t F N O). destruct (one_by_one exec calls t order) as [t2 l2]. cbn [fst snd] in *.
      unfold succeeded. cbn [flat_map fst snd app]. apply X. intros j d Hj. apply Rd. right. auto.
  - apply IH; auto. intros j d Hj. apply Rd. right. auto.
Qed.

Theorem trees_serial schedule :
  let W := play pk same (all_begin t0 (map start calls)) schedule in
  one_by_one exec calls t0 (map fst (w_log W)) = (w_rows W, w_log W) /\ NoDup (map fst (w_log W)) /\
  rel (w_rows W) (fold_left (sp_call o) (succeeded calls (w_log W)) F0) /\
  (finished W = true -> Permutation (map fst (w_log W)) (seq 0 (length calls))) /\
  exists schedule', finished (play pk same W schedule') = true.
Proof.
  intros W.
  assert (Sf : forall t c t', In c calls -> (exists F, rel t F) -> ready t c -> alone R pk same t (start c) = Ok t' -> exists F, rel t' F).
  { intros t c t' _ [F O] Rc E. rewrite same_call in E by eauto. eauto. }
  assert (Sr : forall t c d t', In c calls -> In d calls -> (exists F, rel t F) -> ready t c -> ready t d -> apart R call dom keys c d ->
    alone R pk same t (start c) = Ok t' -> ready t' d).
  { intros t c d t' _ _ O Rc Rd [_ A] E. rewrite same_call in E by eauto. apply (stays_ready t c d t'); auto.
    intros i Hi Hd. apply keys_new in Hi. apply keys_new in Hd. apply A in Hi. congruence. }
  destruct (local_serial R pk same same_pk V call start dom keys calls (fun t => exists F, rel t F) ready starts doms_apart Sf Sr t0 schedule) as (H1 & H2 & H3 & H4); auto.
  { split; [eauto|]. exact home0. }
  fold W in H1, H2, H3, H4.
  assert (Rd : forall i c, In i (map fst (w_log W)) -> nth_error calls i = Some c -> ready t0 c).
  { intros i c _ Hc. apply ready0. eapply nth_error_In; eauto. }
  assert (E : one_by_one exec calls t0 (map fst (w_log W)) = (w_rows W, w_log W)).
  { rewrite <- (one_by_one_same R call pk same exec start (fun t => exists F, rel t F) ready new_apart same_call) with (calls := calls); auto.
    - rewrite one_by_one_map. exact H1.
    - intros t c t' [F O] Rc Ex. eauto.
    - apply calls_apart. auto.
    - eauto. }
  split; [exact E|]. split; auto. split; [|auto].
  assert (X := one_by_one_rel (map fst (w_log W)) t0 F0 H2 rel0 Rd). rewrite E in X. exact X.
Qed.
End Trees.

(** ** Nested sets *)
Section NS.
Import NSModel NSInv NSHist.

Lemma number_tree f T d l r : In r (number T d l f) -> n_tree r = T /\ In (n_pk r) (ids f).
Proof.
  revert d l. induction f as [|a k IHk f IHf]; intros d l; [cbn; tauto|]. cbn [number]. cbv zeta. cbn [In]. intros [<-|H].
  - split; auto. left. auto.
  - unfold ids. cbn [preorder map]. apply in_app_or in H. destruct H as [H|H].
    + apply IHk in H. split; [tauto|]. right. rewrite map_app. apply in_or_app. left. tauto.
    + apply IHf in H. split; [tauto|]. right. rewrite map_app. apply in_or_app. right. tauto.
Qed.

Lemma layout_tree F : forall ts r, In r (layout ts F) -> In (n_tree r) ts /\ In (n_pk r) (ids F).
Proof.
  induction F as [|a k _ F IH]; intros ts r; [destruct ts; intros []|]. destruct ts as [|T ts]; [intros []|]. cbn [layout]. intros H.
  apply in_app_or in H. destruct H as [H|H].
  - apply number_tree in H. destruct H as [<- H]. split; [left; auto|].
    unfold ids in *. cbn [preorder map] in *. rewrite app_nil_r in H. destruct H; [left; auto|right]. rewrite map_app. apply in_or_app. auto.
  - apply IH in H. split; [right; tauto|]. unfold ids. cbn [preorder map]. right. rewrite map_app. apply in_or_app. right. tauto.
Qed.

Lemma layout_trees F : forall ts r q, wf_ids F -> StronglySorted Z.lt ts -> In r (layout ts F) -> In q (layout ts F) ->
  n_tree r = n_tree q -> tree_of (n_pk r) F = tree_of (n_pk q) F.
Proof.
  induction F as [|a k _ F IH]; intros ts r q W So Hr Hq E; [destruct ts; destruct Hr|]. destruct ts as [|T ts]; [destruct Hr|].
  apply StronglySorted_inv in So. destruct So as [So Lt]. rewrite Forall_forall in Lt.
  assert (Sp : forall x, In x (layout (T :: ts) (Cons a k F)) ->
    (n_tree x = T /\ existsb (Nat.eqb (n_pk x)) (nid a :: ids k) = true) \/ (n_tree x <> T /\ In x (layout ts F) /\ existsb (Nat.eqb (n_pk x)) (nid a :: ids k) = false)).
  { intros x Hx. cbn [layout] in Hx. apply in_app_or in Hx. destruct Hx as [Hx|Hx].
    - apply number_tree in Hx. destruct Hx as [-> Hx]. left. split; auto. apply has_iff.
      unfold ids in Hx. cbn [preorder map] in Hx. rewrite app_nil_r in Hx. exact Hx.
    - right. destruct (layout_tree F ts x Hx) as [H1 H2]. split; [specialize (Lt _ H1); lia|]. split; auto.
      apply not_true_iff_false. rewrite has_iff. intros H. unfold wf_ids, ids in W. cbn [preorder map] in W.
      apply NoDup_cons_iff in W. destruct W as [W1 W2]. rewrite map_app in W1, W2. apply NoDup_app_iff in W2. destruct W2 as (_ & _ & W2).
      destruct H as [H|H]; [apply W1; apply in_or_app; right; rewrite H; exact H2|]. apply (W2 (n_pk x)); auto. }
  assert (W' : wf_ids F).
  { unfold wf_ids, ids in W. cbn [preorder map] in W. apply NoDup_cons_iff in W. destruct W as [_ W2]. rewrite map_app in W2.
    apply NoDup_app_iff in W2. apply W2. }
  cbn [tree_of]. destruct (Sp r Hr) as [(E1 & ->)|(N1 & I1 & ->)], (Sp q Hq) as [(E2 & ->)|(N2 & I2 & ->)]; auto; try congruence.
  eapply IH; eauto.
Qed.

Lemma ns_trees t F r q : stores t F -> In r t -> In q t -> n_tree r = n_tree q -> tree_of (n_pk r) F = tree_of (n_pk q) F.
Proof.
  intros (W & ts & (_ & So & _) & P) Hr Hq. apply (layout_trees F ts); auto; eapply Permutation_in; eauto.
Qed.

Section Domain.
Variable D : nsrow -> bool.
Variable K : nat -> bool.
Hypothesis Dtr : forall r r', D r = true -> n_tree r' = n_tree r -> D r' = true.
Notation local := (local nsrow n_pk ns_same (fun _ => True) D K).
Notation home := (home nsrow n_pk (fun _ => True) D K).

Lemma ns_last_local t nd last : get_last_child t nd = Some last -> n_tree last = n_tree nd.
Proof.
  intros E. apply last_opt_Some in E. destruct E as [l' E]. assert (E' : In last (l' ++ [last])) by (apply in_or_app; right; left; auto).
  rewrite <- E in E'. clear E. rename E' into E. unfold get_children, get_descendants in E. apply filter_In in E. destruct E as [E _].
  destruct (is_leaf nd) eqn:El; [destruct E|]. apply filter_In in E. destruct E as [E _]. unfold get_tree in E. rewrite El in E.
  apply (Permutation_in _ (isort_perm _ _)) in E. apply filter_In in E. destruct E as [_ E]. rewrite !andb_true_iff in E. lia.
Qed.

Lemma ns_last_same t t' nd : home t -> home t' -> filter D t' = filter D t -> D nd = true -> get_last_child t' nd = get_last_child t nd.
Proof.
  intros H H' E Dn. unfold get_last_child, get_children, get_descendants, get_tree. destruct (is_leaf nd); auto.
  assert (M : forall r, True -> (n_tree r =? n_tree nd)%Z && ((n_lft nd <=? n_lft r)%Z && (n_lft r <=? n_rgt nd - 1)%Z) && depth_ok None (n_depth nd) r = true -> mine nsrow n_pk D K r).
  { intros r _ Er. left. apply (Dtr nd); auto. rewrite !andb_true_iff in Er. lia. }
  rewrite (sel_dom nsrow n_pk (fun _ => True) D K _ t' H' M), (sel_dom nsrow n_pk (fun _ => True) D K _ t H M), E. auto.
Qed.

Lemma ns_child_local k x : K k = true -> K (nid x) = true -> local (ns_add_child k x).
Proof.
  intros Kk Kx. unfold ns_add_child. split; auto. intros [nd|] Ho; [|exact I]. destruct (Ho nd eq_refl) as (Dn & En & _). cbn [else_raise].
  assert (Fin : forall r, n_pk r = nid x -> n_tree r = n_tree nd -> local (Update (alter_sel (n_tree nd) (n_rgt nd)) (alter_row (n_rgt nd) 2) (Insert r Commit))).
  { intros r Er Tr. split.
    - intros a Ea. split; auto. intros _. unfold alter_sel in Ea. split; [left; apply (Dtr nd); auto; lia|]. split; auto.
      intros Da. apply (Dtr a); auto.
    - split; [apply (Dtr nd); auto|]. split; [rewrite Er; auto|]. split; auto. split; [|exact I].
      intros r' _ Sr. apply Nat.eqb_eq in Sr. right. rewrite <- Sr, Er. auto. }
  destruct (is_leaf nd).
  - apply Fin; auto.
  - intros t H. split.
    + destruct (get_last_child t nd) as [last|] eqn:El; [|exact I]. cbn [else_raise]. apply Fin; auto. cbn. eapply ns_last_local; eauto.
    + intros t' H' E. rewrite (ns_last_same t t' nd H H' E Dn). auto.
Qed.

Lemma delete_ranges_from l : forall last x, In x (delete_ranges last l) -> exists r, In r l /\ fst (fst x) = n_tree r.
Proof.
  induction l as [|r l IH]; intros last x; [intros []|]. cbn [delete_ranges]. destruct (match last with Some _ => _ | None => _ end).
  - intros H. destruct (IH _ _ H) as (q & Hq & E). exists q. split; auto. right. auto.
  - intros [<-|H]; [exists r; split; auto; left; auto|]. destruct (IH _ _ H) as (q & Hq & E). exists q. split; auto. right. auto.
Qed.

Lemma ns_delete_local l : (forall i, In i l -> K i = true) -> local (ns_delete l).
Proof.
  intros Kl t H.
  assert (M : forall r, True -> existsb (Nat.eqb (n_pk r)) l = true -> mine nsrow n_pk D K r).
  { intros r _ E. apply has_iff in E. right. auto. }
  split.
  - set (rs := delete_ranges None _).
    assert (Hr : forall x, In x rs -> forall r, n_tree r = fst (fst x) -> D r = true).
    { intros x Hx r Er. destruct (delete_ranges_from _ _ _ Hx) as (q & Hq & E). apply (Permutation_in _ (isort_perm _ _)) in Hq.
      apply filter_In in Hq. destruct Hq as [Hq Nq]. apply (Dtr q); [|congruence].
      eapply home_mine; [exact H|auto|]. apply M; auto. }
    assert (Cl : forall g, (forall x, In x g -> In x rs) -> local (ns_close_gaps g)).
    { induction g as [|[[T a] b] g IH]; intros Hg; [exact I|]. cbn [ns_close_gaps]. split; [|apply IH; intros; apply Hg; right; auto].
      intros r Er. split; auto. intros _. unfold alter_sel in Er. split; [|split; auto].
      - left. apply (Hr (T, a, b)); [apply Hg; left; auto|]. cbn. lia.
      - intros Dr. apply (Dtr r); auto. }
    destruct rs as [|x0 rs'] eqn:Ers; [exact I|]. split.
    + intros r _ Er. apply existsb_exists in Er. destruct Er as (x & Hx & Er). left. apply (Hr x Hx). destruct x as [[T a] b]. cbn in *. lia.
    + apply Cl. intros x Hx. apply (Permutation_in _ (isort_perm _ _)) in Hx. auto.
  - intros t' H' E. rewrite (sel_dom nsrow n_pk (fun _ => True) D K _ t' H' M), (sel_dom nsrow n_pk (fun _ => True) D K _ t H M), E. auto.
Qed.
End Domain.

Theorem ns_different_trees t F calls schedule : stores t F -> (forall c, In c calls -> in_tree F c) ->
  NoDup (flat_map new_ids calls) -> (forall i, In i (flat_map new_ids calls) -> ~ In i (ids F)) ->
  (forall i j c d, i <> j -> nth_error calls i = Some c -> nth_error calls j = Some d -> trees_apart F c d) ->
  let W := play n_pk ns_same (all_begin t (map ns_tx_of calls)) schedule in
  one_by_one ns_call_exec calls t (map fst (w_log W)) = (w_rows W, w_log W) /\ NoDup (map fst (w_log W)) /\
  stores (w_rows W) (fold_left (sp_call []) (succeeded calls (w_log W)) F) /\
  (finished W = true -> Permutation (map fst (w_log W)) (seq 0 (length calls))) /\
  exists schedule', finished (play n_pk ns_same W schedule') = true.
Proof.
  intros St In0 New0 Fr0 Ap0.
  assert (In1 : forall c i, In c calls -> In i (names c) -> In i (ids F)) by (intros c i Hc; apply names_in; auto).
  assert (Ids : forall i, In i (ids F) <-> In i (map n_pk t)) by (intros i; apply ConcNS.ids_iff; auto).
  apply (trees_serial nsrow n_pk ns_same ns_same_pk (fun _ => True) Z n_tree Z.eqb Z.eqb_eq t F calls) with (ready := ns_ready); auto.
  - apply ConcNS.nodup. exists F. auto.
  - intros r q. apply ns_trees. auto.
  - intros t1 c Hc _ _ H1. apply local_local_at; auto; [exact ns_same_pk|]. assert (Kn := fun i => keys_name nsrow n_pk Z n_tree Z.eqb Z.eqb_eq t F calls Ids In1 c i Hc).
    assert (Ne := keys_new nsrow n_pk Z n_tree Z.eqb t c).
    assert (Dt := dom_tr nsrow n_pk Z n_tree Z.eqb Z.eqb_eq t c).
    assert (I := In0 c Hc). destruct c as [|k x| | |l]; try (destruct I; fail); unfold ns_tx_of; cbn [ns_prog].
    + apply ns_child_local; auto; [apply Kn; left; auto|apply Ne; left; auto].
    + apply ns_delete_local; auto.
  - intros t1 c. apply ns_same_call.
  - intros t1 F1 c t2. apply ns_result.
  - intros t1 c d t2. apply ns_stays_ready.
  - intros c Hc. split.
    + assert (I := In0 c Hc). destruct c; try (destruct I; fail); discriminate.
    + intros i Hi H. apply (Fr0 i); [apply in_flat_map; eauto|]. apply Ids. auto.
Qed.
End NS.
