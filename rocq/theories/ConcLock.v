(** Transactions that give the result of a serial order although they touch the same rows:
    locks are disjoint, and what has to be shown is that the commit of one does not disturb
    another one that holds other locks (C66). *)
From Coq Require Import List Arith Bool Lia Permutation.
From Verif Require Import Prelude ConcModel ConcRun.
Import ListNotations.

Section After.
Variable R : Type.
Variable pk : R -> nat.

(** What the writes of a transaction make of a row. *)
Fixpoint after (ws : list (write R)) (a : R) : option R :=
  match ws with
  | [] => Some a
  | Put r :: ws => after ws (if pk a =? pk r then r else a)
  | Gone r :: ws => if pk a =? pk r then None else after ws a
  | New _ :: ws => after ws a
  end.

Definition no_new (w : write R) : Prop := match w with New _ => False | _ => True end.

Fixpoint keep_some {A B} (f : A -> option B) (l : list A) : list B :=
  match l with [] => [] | a :: l => match f a with Some b => b :: keep_some f l | None => keep_some f l end end.

Lemma keep_some_in {A B} (f : A -> option B) l b : In b (keep_some f l) <-> exists a, In a l /\ f a = Some b.
Proof.
  induction l as [|a l IH]; cbn.
  - split; [intros []|intros (a & [] & _)].
  - destruct (f a) as [b'|] eqn:E; cbn; rewrite IH.
    + split.
      * intros [<-|(x & H & Hx)]; eauto.
      * intros (x & [<-|H] & Hx); [left; congruence|right; eauto].
    + split.
      * intros (x & H & Hx); eauto.
      * intros (x & [<-|H] & Hx); [congruence|eauto].
Qed.

Lemma keep_some_ext {A B} (f g : A -> option B) l : (forall a, In a l -> f a = g a) -> keep_some f l = keep_some g l.
Proof. induction l as [|a l IH]; intros H; cbn; auto. rewrite (H a) by (left; auto). rewrite IH; auto. intros b Hb. apply H. right. auto. Qed.

Lemma keep_some_all {A} (f : A -> option A) l : (forall a, In a l -> f a = Some a) -> keep_some f l = l.
Proof. induction l as [|a l IH]; intros H; cbn; auto. rewrite (H a) by (left; auto). rewrite IH; auto. intros b Hb. apply H. right. auto. Qed.

Lemma keep_some_some {A B} (g : A -> B) (s : A -> bool) l :
  keep_some (fun a => if s a then None else Some (g a)) l = map g (filter (fun a => negb (s a)) l).
Proof. induction l as [|a l IH]; cbn; auto. destruct (s a); cbn; rewrite IH; auto. Qed.

Lemma fold_after ws : forall t, Forall no_new ws -> fold_left (apply_write pk) ws t = keep_some (after ws) t.
Proof.
  induction ws as [|w ws IH]; intros t N.
  - cbn. symmetry. apply keep_some_all. auto.
  - apply Forall_cons_iff in N. destruct N as [Nw N]. cbn [fold_left]. rewrite IH by auto. destruct w as [r|r|r]; [|destruct Nw|].
    + cbn [apply_write after]. clear. induction t as [|a t IH]; cbn; auto. rewrite IH. auto.
    + cbn [apply_write after]. clear. induction t as [|a t IH]; cbn; auto. destruct (pk a =? pk r); cbn; rewrite IH; auto.
Qed.

Lemma after_app ws ws' a : after (ws ++ ws') a = match after ws a with Some b => after ws' b | None => None end.
Proof. revert a. induction ws as [|[r|r|r] ws IH]; intros a; cbn; auto. destruct (pk a =? pk r); auto. Qed.

Lemma after_pk ws a b : after ws a = Some b -> pk b = pk a.
Proof.
  revert a. induction ws as [|[r|r|r] ws IH]; intros a; cbn.
  - congruence.
  - intros H. apply IH in H. destruct (Nat.eqb_spec (pk a) (pk r)); congruence.
  - apply IH.
  - destruct (pk a =? pk r); [discriminate|]. apply IH.
Qed.

Lemma after_other ws a : ~ In (pk a) (map (fun w => pk (written w)) ws) -> after ws a = Some a.
Proof.
  revert a. induction ws as [|w ws IH]; intros a H; cbn; auto. cbn in H.
  assert (E : pk a =? pk (written w) = false) by (apply Nat.eqb_neq; intros E; apply H; auto).
  destruct w as [r|r|r]; cbn in E; rewrite ?E; apply IH; tauto.
Qed.

Lemma after_puts (s : R -> bool) f l a : NoDup (map pk l) -> In a l -> (forall r, pk (f r) = pk r) ->
  after (map (fun r => Put (f r)) (filter s l)) a = Some (if s a then f a else a).
Proof.
  intros N Ha Ef. induction l as [|b l IH]; [destruct Ha|]. cbn in N. apply NoDup_cons_iff in N. destruct N as [Nb N].
  assert (O : forall c, pk c = pk b -> after (map (fun r => Put (f r)) (filter s l)) c = Some c).
  { intros c Ec. apply after_other. rewrite Ec, map_map. cbn. intros H. apply Nb. apply in_map_iff in H. destruct H as (x & Ex & Hx).
    apply filter_In in Hx. rewrite Ef in Ex. rewrite <- Ex. apply in_map. tauto. }
  destruct Ha as [->|Ha].
  - cbn. destruct (s a); cbn.
    + rewrite Ef, Nat.eqb_refl. apply O. auto.
    + apply O. auto.
  - cbn. destruct (s b); cbn; auto. rewrite Ef.
    destruct (Nat.eqb_spec (pk a) (pk b)) as [E|E]; auto. exfalso. apply Nb. rewrite <- E. apply in_map. auto.
Qed.

Lemma after_gones (s : R -> bool) l a : NoDup (map pk l) -> In a l ->
  after (map Gone (filter s l)) a = if s a then None else Some a.
Proof.
  intros N Ha. induction l as [|b l IH]; [destruct Ha|]. cbn in N. apply NoDup_cons_iff in N. destruct N as [Nb N].
  destruct Ha as [->|Ha].
  - cbn. destruct (s a); cbn.
    + rewrite Nat.eqb_refl. auto.
    + apply after_other. rewrite map_map. cbn. intros H. apply Nb. apply in_map_iff in H. destruct H as (x & Ex & Hx).
      apply filter_In in Hx. rewrite <- Ex. apply in_map. tauto.
  - cbn. destruct (s b); cbn; auto.
    destruct (Nat.eqb_spec (pk a) (pk b)) as [E|E]; auto. exfalso. apply Nb. rewrite <- E. apply in_map. auto.
Qed.

Lemma keep_some_pks ws t : map pk (keep_some (after ws) t) = map pk (filter (fun a => match after ws a with Some _ => true | None => false end) t).
Proof.
  induction t as [|a t IH]; cbn; auto. destruct (after ws a) as [b|] eqn:E; cbn; rewrite IH; auto. rewrite (after_pk _ _ _ E). auto.
Qed.

Lemma keep_some_nodup ws t : NoDup (map pk t) -> NoDup (map pk (keep_some (after ws) t)).
Proof.
  intros N. rewrite keep_some_pks. induction t as [|a t IH]; cbn; [constructor|]. cbn in N. apply NoDup_cons_iff in N. destruct N as [Na N].
  destruct (after ws a); cbn; auto. constructor; auto. intros H. apply Na. apply in_map_iff in H. destruct H as (x & Ex & Hx).
  apply filter_In in Hx. rewrite <- Ex. apply in_map. tauto.
Qed.

End After.
Arguments after {R} pk ws a.
Arguments no_new {R} w.

Section Lock.
Variable R : Type.
Variable pk : R -> nat.
Variable same : R -> R -> bool.
Notation solo := (solo pk same).
Notation step := (step pk same).
Notation play := (play pk same).

(** Locks that no two running transactions share. *)
Definition locks_apart (W : world R) : Prop := forall i j x y, i <> j ->
  nth_error (w_txs W) i = Some (Some x) -> nth_error (w_txs W) j = Some (Some y) ->
  forall k, In k (x_locks x) -> ~ In k (x_locks y).

(** The locks a step takes. *)
Lemma solo_locks t x x' k : solo t x = Go x' -> In k (x_locks x') ->
  In k (x_locks x) \/ forall y, waits same x y = false -> ~ In k (x_locks y).
Proof.
  unfold ConcModel.solo. cbv zeta. destruct x as [p ws ls fo]. cbn [x_prog x_found x_writes x_locks].
  assert (G : forall t q ws ls, goes t q ws ls = Go x' -> x_locks x' = ls).
  { intros t' q w l. unfold goes. destruct q; try discriminate; intros E; injection E as <-; auto. }
  assert (Ks : forall ks (y : tx R), existsb (fun k => existsb (Nat.eqb k) (x_locks y)) ks = false -> In k ks -> ~ In k (x_locks y)).
  { intros ks y E Hk Hy. apply not_true_iff_false in E. apply E. apply existsb_exists. exists k. split; auto.
    apply existsb_exists. exists k. rewrite Nat.eqb_refl. auto. }
  destruct p as [|e|k0 c|c|sel f c|sel c|r c]; try discriminate.
  - intros E. apply G in E. rewrite E. destruct (hd_error _); auto. intros [<-|H]; auto. right. intros y Hw Hy.
    unfold waits in Hw. cbn in Hw. apply not_true_iff_false in Hw. apply Hw. apply existsb_exists. exists k0. rewrite Nat.eqb_refl. auto.
  - intros E. apply G in E. rewrite E. auto.
  - destruct fo as [ks|].
    + intros E. apply G in E. rewrite E, in_app_iff. intros [H|H]; auto. right. intros y Hw. exact (Ks ks y Hw H).
    + intros E. injection E as <-. auto.
  - destruct fo as [ks|].
    + intros E. apply G in E. rewrite E, in_app_iff. intros [H|H]; auto. right. intros y Hw. exact (Ks ks y Hw H).
    + intros E. injection E as <-. auto.
  - destruct (existsb _ _); [discriminate|]. intros E. apply G in E. rewrite E. auto.
Qed.

Lemma apart_step W i : locks_apart W -> locks_apart (step W i).
Proof.
  intros A. unfold ConcModel.step. destruct (nth_error (w_txs W) i) as [[x|]|] eqn:Ex; auto.
  destruct (blocked same W i x) eqn:Eb; auto. rewrite blocked_false in Eb.
  destruct (solo (w_rows W) x) as [x'|rows e] eqn:Es.
  - assert (K : forall j y, j <> i -> nth_error (w_txs W) j = Some (Some y) -> forall k, In k (x_locks x') -> ~ In k (x_locks y)).
    { intros j y N Ey k Hk. destruct (solo_locks _ _ _ k Es Hk) as [H|H].
      - apply (A i j x y); auto.
      - apply H. apply (Eb j); auto. }
    intros j l y z N. cbn [w_txs]. rewrite !nth_set_nth.
    destruct (Nat.eqb_spec j i) as [->|Nj], (Nat.eqb_spec l i) as [->|Nl].
    + congruence.
    + rewrite Ex. cbn. intros E Ez. injection E as <-. apply (K l); auto.
    + rewrite Ex. cbn. intros Ey E k Hy Hz. injection E as <-. apply (K j y Nj Ey k); auto.
    + apply A. auto.
  - intros j l y z N. cbn [w_txs]. rewrite !nth_set_nth.
    destruct (Nat.eqb_spec j i) as [->|Nj]; [rewrite Ex; discriminate|].
    destruct (Nat.eqb_spec l i) as [->|Nl]; [rewrite Ex; intros _; discriminate|]. apply A. auto.
Qed.

Lemma waits_held x y : match x_prog x with Insert _ _ => False | _ => True end ->
  waits same x y = true -> exists k, In k (x_locks y).
Proof.
  unfold waits. destruct (x_prog x) as [|e|k c|c|sel f c|sel c|r c]; try discriminate; intros H.
  - intros E. apply existsb_exists in E. destruct E as (k' & Hk & _). eauto.
  - destruct (x_found x) as [ks|]; [|discriminate]. intros E. apply existsb_exists in E. destruct E as (k & _ & E).
    apply existsb_exists in E. destruct E as (k' & Hk & _). eauto.
  - destruct (x_found x) as [ks|]; [|discriminate]. intros E. apply existsb_exists in E. destruct E as (k & _ & E).
    apply existsb_exists in E. destruct E as (k' & Hk & _). eauto.
  - destruct H.
Qed.

Variable call : Type.
Variable start : call -> prog R.
Variable exec : list R -> call -> res (list R).
Variable ok : list R -> Prop.
Variable apart : call -> call -> Prop.
(** The states of the transaction of a call, while the given rows are the committed ones. *)
Variable Q : list R -> call -> tx R -> Prop.
(** The call can begin. *)
Variable good : list R -> call -> Prop.

Record undisturbed : Prop := {
  u_begin : forall t c, ok t -> good t c -> Q t c (begin (start c));
  u_go : forall t c x x', ok t -> Q t c x -> solo t x = Go x' -> Q t c x';
  u_end : forall t c x rows e, ok t -> Q t c x -> solo t x = End rows e ->
    exec t c = match e with None => Ok rows | Some e => Err e end;
  u_ok : forall t c x t', ok t -> Q t c x -> exec t c = Ok t' -> ok t';
  u_other : forall t c d x y rows, ok t -> apart c d -> Q t c x -> Q t d y ->
    (forall k, In k (x_locks x) -> ~ In k (x_locks y)) -> solo t y = End rows None -> Q rows c x }.

Variable U : undisturbed.
Variable calls : list call.
Variable t0 : list R.
Hypothesis all_apart : forall i j c d, i <> j -> nth_error calls i = Some c -> nth_error calls j = Some d -> apart c d.
Hypothesis ok0 : ok t0.
Hypothesis all_good : forall c, In c calls -> good t0 c.

Record linv (W : world R) : Prop := {
  l_log : one_by_one exec calls t0 (map fst (w_log W)) = (w_rows W, w_log W);
  l_ok : ok (w_rows W);
  l_len : length (w_txs W) = length calls;
  l_nodup : NoDup (map fst (w_log W));
  l_done : forall i, In i (map fst (w_log W)) <-> nth_error (w_txs W) i = Some None;
  l_run : forall i x, nth_error (w_txs W) i = Some (Some x) -> exists c, nth_error calls i = Some c /\ Q (w_rows W) c x;
  l_locks : locks_apart W }.

Lemma linv_begin : linv (all_begin t0 (map start calls)).
Proof.
  unfold all_begin. split; cbn.
  - reflexivity.
  - apply ok0.
  - rewrite !map_length. auto.
  - constructor.
  - intros i. split; [intros []|]. intros E. apply nth_error_In in E. apply in_map_iff in E. destruct E as (p & E & _). discriminate.
  - intros i x E. rewrite map_map in E. rewrite nth_error_map in E.
    destruct (nth_error calls i) as [c|] eqn:Ec; [|discriminate]. cbn in E. injection E as <-. exists c. split; auto. apply (u_begin U); [apply ok0|]. eapply all_good, nth_error_In, Ec.
  - intros i j x y _ Ex _ k Hk. cbn in Ex. rewrite map_map in Ex. apply nth_error_In in Ex. apply in_map_iff in Ex.
    destruct Ex as (c & E & _). injection E as <-. destruct Hk.
Qed.

Lemma linv_step W i : linv W -> linv (step W i).
Proof.
  intros I. assert (LA := apart_step W i (l_locks W I)). revert LA. unfold ConcModel.step. destruct (nth_error (w_txs W) i) as [[x|]|] eqn:Ex; auto.
  destruct (blocked same W i x) eqn:Eb; auto. intros LA.
  destruct (l_run W I i x Ex) as (c & Ec & Qc).
  assert (Hi : i < length (w_txs W)) by (apply nth_error_Some; congruence).
  destruct I as [I1 I2 I3 I4 I5 I6 I7]. destruct (solo (w_rows W) x) as [x'|rows e] eqn:Es.
  - split; cbn [w_rows w_txs w_log]; auto.
    + rewrite set_nth_length. auto.
    + intros j. rewrite nth_set_nth. rewrite I5. destruct (Nat.eqb_spec j i) as [->|]; [|tauto].
      rewrite Ex. cbn. split; intros; discriminate.
    + intros j y. rewrite nth_set_nth. destruct (Nat.eqb_spec j i) as [->|]; [|apply I6].
      rewrite Ex. cbn. intros E. injection E as <-. exists c. split; auto. eapply (u_go U); eauto.
  - assert (Ni : ~ In i (map fst (w_log W))) by (rewrite I5; congruence).
    assert (E := u_end U _ _ _ _ _ I2 Qc Es).
    split; cbn [w_rows w_txs w_log]; auto.
    + rewrite map_app, one_by_one_app, I1. cbn [map fst one_by_one]. rewrite Ec, E.
      destruct e as [e|]; auto. apply solo_failed in Es. subst. auto.
    + destruct e as [e|]; [apply solo_failed in Es; subst; auto|]. eapply (u_ok U); [exact I2|exact Qc|exact E].
    + rewrite set_nth_length. auto.
    + rewrite map_app. cbn. apply (Permutation_NoDup (Permutation_cons_append _ _)). constructor; auto.
    + intros j. rewrite map_app, in_app_iff, nth_set_nth, I5. cbn.
      destruct (Nat.eqb_spec j i) as [->|N].
      * rewrite Ex. cbn. tauto.
      * split; [intros [H|[H|[]]]; auto; congruence|auto].
    + intros j y. rewrite nth_set_nth. destruct (Nat.eqb_spec j i) as [->|N]; [rewrite Ex; discriminate|].
      intros Ey. destruct (I6 j y Ey) as (d & Ed & Qd). exists d. split; auto.
      destruct e as [e|]; [apply solo_failed in Es; subst rows; auto|].
      apply (u_other U (w_rows W) d c y x); auto; [apply (all_apart j i); auto|]. apply (I7 j i); auto.
Qed.

Lemma linv_play W schedule : linv W -> linv (play W schedule).
Proof. revert W. induction schedule as [|i l IH]; intros W I; cbn; auto. apply IH, linv_step, I. Qed.

Theorem locked_serial schedule : let W := play (all_begin t0 (map start calls)) schedule in
  one_by_one exec calls t0 (map fst (w_log W)) = (w_rows W, w_log W) /\ ok (w_rows W) /\ NoDup (map fst (w_log W)) /\
  (finished W = true -> Permutation (map fst (w_log W)) (seq 0 (length calls))).
Proof.
  intros W. assert (I : linv W) by (apply linv_play, linv_begin). split; [apply I|]. split; [apply I|]. split; [apply I|].
  intros F. apply NoDup_Permutation; [apply I|apply seq_NoDup|].
  intros i. rewrite (l_done W I), in_seq, <- (l_len W I). cbn. split.
  - intros E. assert (nth_error (w_txs W) i <> None) by congruence. apply nth_error_Some in H. lia.
  - intros [_ Hi]. apply nth_error_Some in Hi. destruct (nth_error (w_txs W) i) as [[x|]|] eqn:E; auto; [|congruence].
    unfold finished in F. rewrite forallb_forall in F. apply nth_error_In in E. apply F in E. discriminate.
Qed.

(** Transactions that wait only for others that are about to commit never wait for ever. *)
Hypothesis late : forall t c d x y, ok t -> apart c d -> Q t c x -> Q t d y -> waits same x y = true -> x_prog y = Commit.

Notation running := (running R).

Lemma run_set_none W i x rows log : nth_error (w_txs W) i = Some (Some x) ->
  S (running (mkW rows (set_nth i None (w_txs W)) log)) = running W.
Proof.
  intros E. apply (brought_fewer _ (w_txs W) _ i x); cbn; auto.
  - apply set_nth_length.
  - rewrite nth_set_nth, Nat.eqb_refl, E. auto.
  - intros j N. rewrite nth_set_nth. apply Nat.eqb_neq in N. rewrite N. auto.
Qed.

(** Either a transaction makes its step, or another one can end. *)
Lemma step_or_end W i x : linv W -> nth_error (w_txs W) i = Some (Some x) ->
  (exists s, S (running (play W s)) = running W) \/
  exists x', solo (w_rows W) x = Go x' /\ step W i = mkW (w_rows W) (set_nth i (Some x') (w_txs W)) (w_log W).
Proof.
  intros I Ex. destruct (blocked same W i x) eqn:Eb.
  - left. unfold blocked in Eb. apply existsb_exists in Eb. destruct Eb as (j & _ & E). apply andb_true_iff in E. destruct E as [Nj E].
    apply negb_true_iff, Nat.eqb_neq in Nj.
    destruct (nth_error (w_txs W) j) as [[y|]|] eqn:Ey; try discriminate.
    destruct (l_run W I i x Ex) as (c & Ec & Qc). destruct (l_run W I j y Ey) as (d & Ed & Qd).
    assert (Ep := late _ _ _ _ _ (l_ok W I) (all_apart i j c d (not_eq_sym Nj) Ec Ed) Qc Qd E).
    exists [j]. cbn. unfold ConcModel.step. rewrite Ey.
    replace (blocked same W j y) with false.
    + unfold ConcModel.solo. rewrite Ep. apply (run_set_none W j y). auto.
    + symmetry. apply blocked_false. intros m z _ _. unfold waits. rewrite Ep. auto.
  - destruct (solo (w_rows W) x) as [x'|rows e] eqn:Es.
    + right. exists x'. split; auto. unfold ConcModel.step. rewrite Ex, Eb, Es. auto.
    + left. exists [i]. cbn. unfold ConcModel.step. rewrite Ex, Eb, Es. apply (run_set_none W i x). auto.
Qed.

Lemma run_on p : forall W i x, x_prog x = p -> linv W -> nth_error (w_txs W) i = Some (Some x) ->
  exists s, S (running (play W s)) = running W.
Proof.
  assert (St : forall W i x, linv W -> nth_error (w_txs W) i = Some (Some x) ->
    (forall W' x', linv W' -> nth_error (w_txs W') i = Some (Some x') -> running W' = running W -> solo (w_rows W) x = Go x' ->
       exists s, S (running (play W' s)) = running W') -> exists s, S (running (play W s)) = running W).
  { intros W i x I Ex K. destruct (step_or_end W i x I Ex) as [H|(x' & Es & E)]; auto.
    assert (I' := linv_step W i I).
    assert (N' : nth_error (w_txs (step W i)) i = Some (Some x')) by (rewrite E; cbn; rewrite nth_set_nth, Nat.eqb_refl, Ex; auto).
    assert (R' : running (step W i) = running W).
    { rewrite E. unfold ConcRun.running. cbn. clear - Ex. revert i Ex. generalize (w_txs W). intros l.
      induction l as [|a l IH]; intros [|i] Ex; cbn in *; try discriminate; auto.
      - injection Ex as ->. reflexivity.
      - specialize (IH i Ex). destruct a; cbn; auto. }
    destruct (K (step W i) x' I' N' R' Es) as [s Hs]. exists (i :: s). cbn. unfold ConcModel.play in Hs. rewrite Hs. auto. }
  assert (G : forall q t ws ls x', @goes R t q ws ls = Go x' -> x_prog x' = q).
  { intros q t ws ls x'. unfold goes. destruct q; try discriminate; intros E; injection E as <-; auto. }
  induction p as [|e|k c IH|c IH|sel f c IH|sel c IH|r c IH]; intros W i x Ep I Ex; apply (St W i x I Ex); intros W' x' I' Ex' R' Es;
    unfold ConcModel.solo in Es; rewrite Ep in Es; try discriminate.
  - apply G in Es. eapply IH; eauto.
  - apply G in Es. eapply IH; eauto.
  - assert (K : forall W ks x, x_prog x = Update sel f c -> x_found x = Some ks -> linv W -> nth_error (w_txs W) i = Some (Some x) ->
      exists s, S (running (play W s)) = running W).
    { clear - IH St G. intros W ks x Ep Ef I Ex. apply (St W i x I Ex). intros W' x' I' Ex' R' Es.
      unfold ConcModel.solo in Es. rewrite Ep, Ef in Es. apply G in Es. eapply IH; eauto. }
    destruct (x_found x) as [ks|] eqn:Ef; [apply G in Es; eapply IH; eauto|]. injection Es as <-. eapply K; [| |exact I'|exact Ex']; reflexivity.
  - assert (K : forall W ks x, x_prog x = Delete sel c -> x_found x = Some ks -> linv W -> nth_error (w_txs W) i = Some (Some x) ->
      exists s, S (running (play W s)) = running W).
    { clear - IH St G. intros W ks x Ep Ef I Ex. apply (St W i x I Ex). intros W' x' I' Ex' R' Es.
      unfold ConcModel.solo in Es. rewrite Ep, Ef in Es. apply G in Es. eapply IH; eauto. }
    destruct (x_found x) as [ks|] eqn:Ef; [apply G in Es; eapply IH; eauto|]. injection Es as <-. eapply K; [| |exact I'|exact Ex']; reflexivity.
  - destruct (existsb _ _); [discriminate|]. apply G in Es. eapply IH; eauto.
Qed.

Theorem locked_finish schedule : exists schedule',
  finished (play (play (all_begin t0 (map start calls)) schedule) schedule') = true.
Proof.
  assert (I : linv (play (all_begin t0 (map start calls)) schedule)) by (apply linv_play, linv_begin).
  revert I. generalize (play (all_begin t0 (map start calls)) schedule). intros W.
  remember (running W) as n eqn:En. revert W En. induction n as [|n IH]; intros W En I.
  - exists []. apply none_running. auto.
  - destruct (some_running _ W) as (i & x & Ex); [lia|]. destruct (run_on (x_prog x) W i x eq_refl I Ex) as [s Hs].
    destruct (IH (play W s)) as [s' Hs']; [lia|apply linv_play; auto|]. exists (s ++ s').
    unfold ConcModel.play in *. rewrite fold_left_app. auto.
Qed.
End Lock.
