(** Transactions that give the result of a serial order: what has to be shown of them one
    at a time and in pairs. *)
From Coq Require Import List Arith Bool Lia Permutation.
From Verif Require Import Prelude ConcModel.
Import ListNotations.

Section OneByOne.
Variables R call : Type.
Variable exec : list R -> call -> res (list R).
Variable calls : list call.

(** The calls with the given numbers, one after the other; a call that fails changes
    nothing.  Returns the rows and what was raised. *)
Fixpoint one_by_one (t : list R) (order : list nat) : list R * list (nat * option exn) :=
  match order with
  | [] => (t, [])
  | i :: order =>
      match nth_error calls i with
      | None => one_by_one t order
      | Some c =>
          match exec t c with
          | Ok t' => let (r, l) := one_by_one t' order in (r, (i, None) :: l)
          | Err e => let (r, l) := one_by_one t order in (r, (i, Some e) :: l)
          end
      end
  end.

(** The calls that succeeded, in order. *)
Definition succeeded (log : list (nat * option exn)) : list call :=
  flat_map (fun e => match snd e, nth_error calls (fst e) with None, Some c => [c] | _, _ => [] end) log.

Lemma one_by_one_app t a b : one_by_one t (a ++ b) =
  let (t1, l1) := one_by_one t a in let (t2, l2) := one_by_one t1 b in (t2, l1 ++ l2).
Proof.
  revert t. induction a as [|i a IH]; intros t; cbn.
  - destruct (one_by_one t b); auto.
  - destruct (nth_error calls i) as [c|]; auto. destruct (exec t c) as [t'|e]; rewrite IH.
    + destruct (one_by_one t' a) as [t1 l1], (one_by_one t1 b); auto.
    + destruct (one_by_one t a) as [t1 l1], (one_by_one t1 b); auto.
Qed.
End OneByOne.
Arguments one_by_one {R call} exec calls t order.
Arguments succeeded {call} calls log.

Lemma nth_set_nth A i j (v : A) l : nth_error (set_nth i v l) j =
  if j =? i then option_map (fun _ => v) (nth_error l j) else nth_error l j.
Proof.
  revert i j. induction l as [|x l IH]; intros [|i] [|j]; cbn; auto.
  destruct (j =? i); auto.
Qed.
Lemma set_nth_length A i (v : A) l : length (set_nth i v l) = length l.
Proof. revert i. induction l as [|x l IH]; intros [|i]; cbn; auto. Qed.

Lemma nth_all_eq A (l l' : list A) : (forall j, nth_error l' j = nth_error l j) -> l' = l.
Proof.
  revert l'. induction l as [|a l IH]; intros [|b l'] H; auto.
  - specialize (H 0). discriminate.
  - specialize (H 0). discriminate.
  - f_equal; [specialize (H 0); cbn in H; congruence|]. apply IH. intros j. apply (H (S j)).
Qed.

Section Serial.
Variable R : Type.
Variable pk : R -> nat.
Variable same : R -> R -> bool.
Notation solo := (solo pk same).
Notation step := (step pk same).
Notation play := (play pk same).

Lemma solo_failed t x rows e : solo t x = End rows (Some e) -> rows = t.
Proof.
  unfold ConcModel.solo. cbv zeta. destruct x as [p ws ls fo]. cbn [x_prog x_found x_writes x_locks].
  assert (G : forall q ws ls, goes t q ws ls = End rows (Some e) -> rows = t).
  { intros q w l. unfold goes. destruct q; try discriminate. congruence. }
  destruct p; try discriminate; eauto.
  - congruence.
  - destruct fo; [eauto|discriminate].
  - destruct fo; [eauto|discriminate].
  - match goal with |- (if ?b then _ else _) = _ -> _ => destruct b end; [congruence|eauto].
Qed.

Lemma waits_begin x p : waits same x (begin p) = false.
Proof.
  unfold waits. cbn. destruct (x_prog x); auto; destruct (x_found x) as [l|]; auto;
  induction l; auto.
Qed.

Lemma blocked_false W i x : blocked same W i x = false <->
  forall j y, j <> i -> nth_error (w_txs W) j = Some (Some y) -> waits same x y = false.
Proof.
  unfold blocked. split.
  - intros H j y Nj E. destruct (waits same x y) eqn:Ew; auto. exfalso.
    apply not_true_iff_false in H. apply H. apply existsb_exists. exists j. split.
    + apply in_seq. assert (nth_error (w_txs W) j <> None) by congruence. apply nth_error_Some in H0. lia.
    + rewrite E, Ew. apply Nat.eqb_neq in Nj. rewrite Nj. reflexivity.
  - intros H. apply not_true_iff_false. intros E. apply existsb_exists in E. destruct E as (j & _ & E).
    apply andb_true_iff in E. destruct E as [E1 E2]. apply negb_true_iff, Nat.eqb_neq in E1.
    destruct (nth_error (w_txs W) j) as [[y|]|] eqn:E3; try discriminate. rewrite (H j y E1 E3) in E2. discriminate.
Qed.

Variable call : Type.
Variable start : call -> prog R.
Variable exec : list R -> call -> res (list R).
Variable ok : list R -> Prop.
Variable ready : list R -> call -> Prop.
Variables apart compat : call -> call -> Prop.

(** The states in the middle of the transaction of [c] run alone. *)
Inductive reach (t : list R) (c : call) : tx R -> Prop :=
| reach_first x : solo t (begin (start c)) = Go x -> reach t c x
| reach_next x x' : reach t c x -> solo t x = Go x' -> reach t c x'.

Record serializable : Prop := {
  s_start : forall t c rows, solo t (begin (start c)) <> End rows None;
  s_past : forall t c x, ok t -> ready t c -> reach t c x -> x <> begin (start c);
  s_end : forall t c x rows e, ok t -> ready t c -> x = begin (start c) \/ reach t c x -> solo t x = End rows e ->
    exec t c = match e with None => Ok rows | Some e => Err e end;
  s_ok : forall t c t', ok t -> ready t c -> exec t c = Ok t' -> ok t';
  s_ready : forall t t' c d, ok t -> ready t c -> ready t d -> apart c d -> exec t d = Ok t' -> ready t' c;
  s_stable : forall t t' c d x, ok t -> ready t c -> ready t d -> apart c d -> compat c d -> exec t d = Ok t' ->
    reach t c x -> reach t' c x;
  s_first : forall t c d x y, ok t -> ready t c -> ready t d -> apart c d ->
    solo t (begin (start c)) = Go x -> reach t d y -> waits same (begin (start c)) y = false -> compat c d;
  s_free : forall t c d x y, ok t -> ready t c -> ready t d -> apart c d -> compat c d ->
    reach t c x -> reach t d y -> waits same x y = false;
  s_sym : forall c d, compat c d -> compat d c }.

Variable SZ : serializable.
Variable calls : list call.
Variable t0 : list R.
Hypothesis all_apart : forall i j c d, i <> j -> nth_error calls i = Some c -> nth_error calls j = Some d -> apart c d.
Hypothesis ok0 : ok t0.
Hypothesis ready0 : forall c, In c calls -> ready t0 c.

Definition midway (t : list R) c x := x = begin (start c) \/ reach t c x.

Record inv (W : world R) : Prop := {
  i_log : one_by_one exec calls t0 (map fst (w_log W)) = (w_rows W, w_log W);
  i_ok : ok (w_rows W);
  i_len : length (w_txs W) = length calls;
  i_nodup : NoDup (map fst (w_log W));
  i_done : forall i, In i (map fst (w_log W)) <-> nth_error (w_txs W) i = Some None;
  i_run : forall i x, nth_error (w_txs W) i = Some (Some x) ->
    exists c, nth_error calls i = Some c /\ ready (w_rows W) c /\ midway (w_rows W) c x;
  i_pair : forall i j c d x y, i <> j -> nth_error calls i = Some c -> nth_error calls j = Some d ->
    nth_error (w_txs W) i = Some (Some x) -> nth_error (w_txs W) j = Some (Some y) ->
    x = begin (start c) \/ y = begin (start d) \/ compat c d }.

Lemma inv_begin : inv (all_begin t0 (map start calls)).
Proof.
  unfold all_begin. split; cbn.
  - reflexivity.
  - apply ok0.
  - rewrite !map_length. auto.
  - constructor.
  - intros i. split; [intros []|]. intros E. apply nth_error_In in E. apply in_map_iff in E. destruct E as (p & E & _). discriminate.
  - intros i x E. rewrite map_map in E. rewrite nth_error_map in E.
    destruct (nth_error calls i) as [c|] eqn:Ec; [|discriminate]. cbn in E. injection E as E. exists c.
    split; auto. split; [apply ready0; eapply nth_error_In; eauto|left; auto].
  - intros i j c d x y N Ec Ed Ex Ey. left. rewrite map_map in Ex. rewrite nth_error_map in Ex. rewrite Ec in Ex.
    cbn in Ex. congruence.
Qed.

Lemma inv_step W i : inv W -> inv (step W i).
Proof.
  intros I. unfold ConcModel.step. destruct (nth_error (w_txs W) i) as [[x|]|] eqn:Ex; auto.
  destruct (blocked same W i x) eqn:Eb; auto. rewrite blocked_false in Eb.
  destruct (i_run W I i x Ex) as (c & Ec & Rc & Mc).
  assert (Hi : i < length (w_txs W)) by (apply nth_error_Some; congruence).
  destruct (solo (w_rows W) x) as [x'|rows e] eqn:Es.
  - (* goes on *)
    destruct I as [I1 I2 I3 I4 I5 I6 I7]. split; cbn [w_rows w_txs w_log]; auto.
    + rewrite set_nth_length. auto.
    + intros j. rewrite nth_set_nth. rewrite I5. destruct (Nat.eqb_spec j i) as [->|]; [|tauto].
      rewrite Ex. cbn. split; intros; discriminate.
    + intros j y. rewrite nth_set_nth. destruct (Nat.eqb_spec j i) as [->|]; [|apply I6].
      rewrite Ex. cbn. intros E. injection E as <-. exists c. split; auto. split; auto. right.
      destruct Mc as [->|Mc]; [apply reach_first; auto|eapply reach_next; eauto].
    + assert (K : forall j d y, j <> i -> nth_error calls j = Some d -> nth_error (w_txs W) j = Some (Some y) ->
         y = begin (start d) \/ compat c d).
      { intros j d y N Ed Ey. destruct (I6 j y Ey) as (d' & Ed' & Rd & Md). rewrite Ed in Ed'. injection Ed' as <-.
        destruct Md as [Md|Md]; auto.
        assert (A : apart c d) by (apply (all_apart i j); auto).
        destruct (I7 i j c d x y (not_eq_sym N) Ec Ed Ex Ey) as [->|[->|C]]; auto.
        right. apply (s_first SZ (w_rows W) c d x' y); auto. apply (Eb j); auto. }
      intros j k d f y z N Ed Ef. rewrite !nth_set_nth.
      destruct (Nat.eqb_spec j i) as [->|Nj]; destruct (Nat.eqb_spec k i) as [->|Nk]; [lia| | |apply I7; auto].
      * rewrite Ex. cbn. intros E Ez. injection E as <-. rewrite Ec in Ed. injection Ed as <-.
        destruct (K k f z Nk Ef Ez); auto.
      * rewrite Ex. cbn. intros Ey E. injection E as <-. rewrite Ec in Ef. injection Ef as <-.
        destruct (K j d y Nj Ed Ey) as [H|H]; auto. right. right. apply (s_sym SZ); auto.
  - (* ends *)
    destruct I as [I1 I2 I3 I4 I5 I6 I7].
    assert (Ni : ~ In i (map fst (w_log W))) by (rewrite I5; congruence).
    assert (E := s_end SZ _ _ _ _ _ I2 Rc Mc Es).
    assert (Kr : forall j d y, j <> i -> nth_error calls j = Some d -> nth_error (w_txs W) j = Some (Some y) ->
       ready rows d /\ midway rows d y).
    { intros j d y N Ed Ey. destruct (I6 j y Ey) as (d' & Ed' & Rd & Md). rewrite Ed in Ed'. injection Ed' as <-.
      assert (A : apart d c) by (apply (all_apart j i); auto).
      destruct e as [e|]; [apply solo_failed in Es; subst rows; auto|].
      split; [apply (s_ready SZ (w_rows W) rows d c); auto|].
      destruct Md as [Md|Md]; [left; auto|].
      destruct (I7 i j c d x y (not_eq_sym N) Ec Ed Ex Ey) as [->|[->|C]].
      - exfalso. apply (s_start SZ (w_rows W) c rows); auto.
      - left. auto.
      - right. apply (s_stable SZ (w_rows W) rows d c); auto. apply (s_sym SZ); auto. }
    split; cbn [w_rows w_txs w_log].
    + rewrite map_app, one_by_one_app, I1. cbn [map fst one_by_one]. rewrite Ec, E.
      destruct e as [e|]; auto. apply solo_failed in Es. subst. auto.
    + destruct e as [e|]; [apply solo_failed in Es; subst; auto|]. eapply (s_ok SZ); eauto.
    + rewrite set_nth_length. auto.
    + rewrite map_app. cbn. apply (Permutation_NoDup (Permutation_cons_append _ _)). constructor; auto.
    + intros j. rewrite map_app, in_app_iff, nth_set_nth, I5. cbn.
      destruct (Nat.eqb_spec j i) as [->|N].
      * rewrite Ex. cbn. tauto.
      * split; [intros [H|[H|[]]]; auto; congruence|auto].
    + intros j y. rewrite nth_set_nth. destruct (Nat.eqb_spec j i) as [->|N]; [rewrite Ex; discriminate|].
      intros Ey. destruct (I6 j y Ey) as (d & Ed & _). exists d. split; auto. apply (Kr j); auto.
    + intros j k d f y z N Ed Ef. rewrite !nth_set_nth.
      destruct (Nat.eqb_spec j i) as [->|Nj]; [rewrite Ex; discriminate|].
      destruct (Nat.eqb_spec k i) as [->|Nk]; [rewrite Ex; discriminate|]. apply I7; auto.
Qed.

Theorem inv_play W schedule : inv W -> inv (play W schedule).
Proof. revert W. induction schedule as [|i l IH]; intros W I; cbn; auto. apply IH, inv_step, I. Qed.

(** A transaction that has no one to wait for can be brought to its end. *)
Definition unhindered (W : world R) (i : nat) (x : tx R) : Prop :=
  forall j c d y, j <> i -> nth_error calls i = Some c -> nth_error calls j = Some d ->
    nth_error (w_txs W) j = Some (Some y) -> y = begin (start d) \/ reach (w_rows W) c x /\ compat c d.

Lemma unhindered_free W i x : inv W -> nth_error (w_txs W) i = Some (Some x) -> unhindered W i x ->
  blocked same W i x = false.
Proof.
  intros I Ex U. apply blocked_false. intros j y N Ey.
  destruct (i_run W I i x Ex) as (c & Ec & Rc & Mc). destruct (i_run W I j y Ey) as (d & Ed & Rd & Md).
  destruct (U j c d y N Ec Ed Ey) as [->|[H1 H2]]; [apply waits_begin|].
  destruct Md as [->|Md]; [apply waits_begin|].
  apply (s_free SZ (w_rows W) c d); auto; [apply (i_ok W I)|apply (all_apart i j); auto].
Qed.

Definition brought W i := exists l, nth_error (w_txs (play W l)) i = Some None /\
  forall j, j <> i -> nth_error (w_txs (play W l)) j = nth_error (w_txs W) j.

Lemma step_end W i x rows e : inv W -> nth_error (w_txs W) i = Some (Some x) -> unhindered W i x ->
  solo (w_rows W) x = End rows e -> brought W i.
Proof.
  intros I Ex U Es. exists [i]. cbn. unfold ConcModel.step. rewrite Ex, (unhindered_free W i x I Ex U), Es.
  cbn. split.
  - rewrite nth_set_nth, Nat.eqb_refl, Ex. reflexivity.
  - intros j N. rewrite nth_set_nth. apply Nat.eqb_neq in N. rewrite N. auto.
Qed.

Lemma step_go W i x x' : inv W -> nth_error (w_txs W) i = Some (Some x) -> unhindered W i x ->
  solo (w_rows W) x = Go x' ->
  (forall W', inv W' -> nth_error (w_txs W') i = Some (Some x') -> unhindered W' i x' -> brought W' i) -> brought W i.
Proof.
  intros I Ex U Es K. assert (I' := inv_step W i I). revert I'.
  unfold ConcModel.step. rewrite Ex, (unhindered_free W i x I Ex U), Es. intros I'.
  destruct (K _ I') as (l & E1 & E2).
  - cbn. rewrite nth_set_nth, Nat.eqb_refl, Ex. reflexivity.
  - intros j c d y N Ec Ed. cbn. rewrite nth_set_nth. rewrite (proj2 (Nat.eqb_neq j i) N). intros Ey.
    destruct (U j c d y N Ec Ed Ey) as [H|[H1 H2]]; auto. right. split; auto. eapply reach_next; eauto.
  - exists (i :: l). cbn. unfold ConcModel.step at 2 4. rewrite Ex, (unhindered_free W i x I Ex U), Es. split; auto.
    intros j N. etransitivity; [apply (E2 j N)|]. cbn.
    rewrite nth_set_nth. apply Nat.eqb_neq in N. rewrite N. auto.
Qed.

Lemma run_out p : forall W i x, x_prog x = p -> inv W -> nth_error (w_txs W) i = Some (Some x) -> unhindered W i x ->
  brought W i.
Proof.
  assert (G : forall q, (forall W i x, x_prog x = q -> inv W -> nth_error (w_txs W) i = Some (Some x) -> unhindered W i x -> brought W i) ->
    forall W i x ws ls, inv W -> nth_error (w_txs W) i = Some (Some x) -> unhindered W i x ->
    solo (w_rows W) x = goes (w_rows W) q ws ls -> brought W i).
  { intros q IH W i x ws ls I Ex U Es. unfold goes in Es.
    assert (K : solo (w_rows W) x = Go (mkTx q ws ls None) -> brought W i).
    { intros E. apply (step_go W i x _ I Ex U E). intros W' I' Ex' U'. apply (IH W' i _ (eq_refl : x_prog (mkTx q ws ls None) = q) I' Ex' U'). }
    destruct q; auto. eapply step_end; eauto. }
  induction p as [|e|k c IH|c IH|sel f c IH|sel c IH|r c IH]; intros W i x Ep I Ex U.
  - eapply step_end; eauto. unfold ConcModel.solo. rewrite Ep. reflexivity.
  - eapply step_end; eauto. unfold ConcModel.solo. rewrite Ep. reflexivity.
  - eapply (G _ (IH _)); eauto. unfold ConcModel.solo. rewrite Ep. reflexivity.
  - eapply (G _ (IH _)); eauto. unfold ConcModel.solo. rewrite Ep. reflexivity.
  - assert (K : forall W ks x, x_prog x = Update sel f c -> x_found x = Some ks -> inv W -> nth_error (w_txs W) i = Some (Some x) ->
      unhindered W i x -> brought W i).
    { clear W x Ep I Ex U. intros W ks x Ep Ef I Ex U. eapply (G _ IH); eauto. unfold ConcModel.solo. rewrite Ep, Ef. reflexivity. }
    destruct (x_found x) as [ks|] eqn:Ef; [eapply K; eauto|].
    eapply step_go; eauto.
    + unfold ConcModel.solo. rewrite Ep, Ef. reflexivity.
    + intros W' I' Ex' U'. eapply K; [| |exact I'|exact Ex'|exact U']; reflexivity.
  - assert (K : forall W ks x, x_prog x = Delete sel c -> x_found x = Some ks -> inv W -> nth_error (w_txs W) i = Some (Some x) ->
      unhindered W i x -> brought W i).
    { clear W x Ep I Ex U. intros W ks x Ep Ef I Ex U. eapply (G _ IH); eauto. unfold ConcModel.solo. rewrite Ep, Ef. reflexivity. }
    destruct (x_found x) as [ks|] eqn:Ef; [eapply K; eauto|].
    eapply step_go; eauto.
    + unfold ConcModel.solo. rewrite Ep, Ef. reflexivity.
    + intros W' I' Ex' U'. eapply K; [| |exact I'|exact Ex'|exact U']; reflexivity.
  - destruct (existsb (same r) (visible pk (w_rows W) x)) eqn:Eb.
    + eapply step_end; eauto. unfold ConcModel.solo. rewrite Ep, Eb. reflexivity.
    + eapply (G _ IH); eauto. unfold ConcModel.solo. rewrite Ep, Eb. reflexivity.
Qed.

Definition running (W : world R) : nat := length (filter (fun o => match o with None => false | Some _ => true end) (w_txs W)).

Lemma brought_fewer A (l l' : list (option A)) i x : length l' = length l -> nth_error l i = Some (Some x) ->
  nth_error l' i = Some None -> (forall j, j <> i -> nth_error l' j = nth_error l j) ->
  S (length (filter (fun o => match o with None => false | Some _ => true end) l')) =
  length (filter (fun o => match o with None => false | Some _ => true end) l).
Proof.
  revert l' i. induction l as [|a l IH]; intros [|a' l'] i EL E1 E2 E3; cbn in EL; try lia; [destruct i; discriminate|].
  destruct i as [|i].
  - cbn in E1, E2. injection E1 as ->. injection E2 as ->. cbn. f_equal.
    assert (l' = l); [|subst; auto]. apply nth_all_eq. intros j. apply (E3 (S j)). lia.
  - cbn in E1, E2. assert (Ea := E3 0 ltac:(lia)). cbn in Ea. injection Ea as ->.
    specialize (IH l' i ltac:(lia) E1 E2). cbn. assert (IH' : _) by (apply IH; intros j N; apply (E3 (S j)); lia).
    destruct a; cbn; lia.
Qed.

Lemma some_running W : running W <> 0 -> exists i x, nth_error (w_txs W) i = Some (Some x).
Proof.
  unfold running. intros H. destruct (filter _ (w_txs W)) as [|o l] eqn:E; [cbn in H; lia|].
  assert (Ho : In o (filter (fun o => match o with None => false | Some _ => true end) (w_txs W))) by (rewrite E; left; auto).
  apply filter_In in Ho. destruct Ho as [Ho E1]. destruct o as [x|]; [|discriminate].
  apply In_nth_error in Ho. destruct Ho as [i Ho]. eauto.
Qed.

Lemma none_running W : running W = 0 -> finished W = true.
Proof.
  unfold running, finished. intros H. apply forallb_forall. intros o Ho. destruct o as [x|]; auto.
  assert (Hx : In (Some x) (filter (fun o : option (tx R) => match o with None => false | Some _ => true end) (w_txs W))) by (apply filter_In; auto).
  destruct (filter _ (w_txs W)); [destruct Hx|cbn in H; lia].
Qed.

(** There is a running transaction that is not hindered. *)
Lemma some_unhindered W : inv W -> running W <> 0 ->
  exists i x, nth_error (w_txs W) i = Some (Some x) /\ unhindered W i x.
Proof.
  intros I H.
  assert (D : (exists k z f, nth_error (w_txs W) k = Some (Some z) /\ nth_error calls k = Some f /\ ready (w_rows W) f /\ reach (w_rows W) f z) \/
     forall k z f, In k (seq 0 (length (w_txs W))) -> nth_error (w_txs W) k = Some (Some z) -> nth_error calls k = Some f -> z = begin (start f)).
  { generalize (seq 0 (length (w_txs W))). intros l. induction l as [|k l [IH|IH]]; [right; intros k z f []|left; auto|].
    destruct (nth_error (w_txs W) k) as [[z|]|] eqn:Ez.
    - destruct (i_run W I k z Ez) as (f & Ef & Rf & [M|M]); [|left; exists k, z, f; auto].
      right. intros k' z' f' [<-|Hk] Ez' Ef'; [congruence|eauto].
    - right. intros k' z' f' [<-|Hk] Ez' Ef'; [congruence|eauto].
    - right. intros k' z' f' [<-|Hk] Ez' Ef'; [congruence|eauto]. }
  destruct D as [(k & z & f & Ez & Ef & Rf & M)|D].
  - exists k, z. split; auto. intros j c d y N Ec Ed Ey. rewrite Ef in Ec. injection Ec as <-.
    destruct (i_pair W I k j f d z y (not_eq_sym N) Ef Ed Ez Ey) as [E|[E|E]]; auto.
    exfalso. apply (s_past SZ _ _ _ (i_ok W I) Rf M); auto.
  - destruct (some_running W H) as (i & x & Ex). exists i, x. split; auto. intros j c d y N Ec Ed Ey. left.
    apply (D j y d); auto. apply in_seq. assert (nth_error (w_txs W) j <> None) by congruence. apply nth_error_Some in H0. lia.
Qed.

(** From every state reached, all the transactions can be brought to their ends. *)
Theorem can_finish W : inv W -> exists schedule, finished (play W schedule) = true.
Proof.
  remember (running W) as n eqn:En. revert W En. induction n as [|n IH]; intros W En I.
  - exists []. apply none_running. auto.
  - destruct (some_unhindered W I ltac:(lia)) as (i & x & Ex & U).
    destruct (run_out (x_prog x) W i x eq_refl I Ex U) as (l & E1 & E2).
    assert (I' := inv_play W l I).
    assert (EL : length (w_txs (play W l)) = length (w_txs W)) by (rewrite (i_len _ I'), (i_len _ I); auto).
    assert (F := brought_fewer _ _ _ i x EL Ex E1 E2).
    destruct (IH (play W l)) as (l' & E); auto.
    + unfold running in *. lia.
    + exists (l ++ l'). unfold ConcModel.play in *. rewrite fold_left_app. auto.
Qed.

Theorem reached_serial schedule : let W := play (all_begin t0 (map start calls)) schedule in
  one_by_one exec calls t0 (map fst (w_log W)) = (w_rows W, w_log W) /\ ok (w_rows W) /\ NoDup (map fst (w_log W)) /\
  (finished W = true -> Permutation (map fst (w_log W)) (seq 0 (length calls))) /\
  exists schedule', finished (play W schedule') = true.
Proof.
  intros W. assert (I : inv W) by (apply inv_play, inv_begin). split; [apply I|]. split; [apply I|]. split; [apply I|].
  split; [|apply can_finish; auto]. intros F. apply NoDup_Permutation; [apply I|apply seq_NoDup|].
  intros i. rewrite (i_done W I), in_seq, <- (i_len W I). cbn. split.
  - intros E. assert (nth_error (w_txs W) i <> None) by congruence. apply nth_error_Some in H. lia.
  - intros [_ Hi]. apply nth_error_Some in Hi. destruct (nth_error (w_txs W) i) as [[x|]|] eqn:E; auto; [|congruence].
    unfold finished in F. rewrite forallb_forall in F. apply nth_error_In in E. apply F in E. discriminate.
Qed.
End Serial.
