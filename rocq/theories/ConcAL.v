(** Concurrent add_child calls on adjacency lists (C41). *)
From Coq Require Import List Arith Lia Bool ZArith Permutation.
From Verif Require Import Prelude Forest SpecFacts SpecSane CommonModel Order History SpecRun
  ALModel ALInv ALUpd ALHist ConcModel ConcRun.
Import ListNotations.
Local Open Scope nat_scope.

Section AL.
Variable o : ordering.

Definition al_table_exec (t : al_table) (c : nat * node) : res al_table := al_exec o t (CAddChild (fst c) (snd c)).

Definition ok (t : al_table) : Prop := True.
Definition ready (t : al_table) (c : nat * node) : Prop := In (fst c) (map a_pk t) /\ ~ In (nid (snd c)) (map a_pk t).
Definition apart (c d : nat * node) : Prop := nid (snd c) <> nid (snd d) /\ (o = [] -> fst c <> fst d).
Definition compat (c d : nat * node) : Prop := True.
Definition start (c : nat * node) := al_add_child o (fst c) (snd c).

(** The row that the call inserts. *)
Definition newrow (t : al_table) (c : nat * node) : alrow :=
  mkAL (nid (snd c)) (Some (fst c)) (if is_sorted o then 0%Z else next_sib t (Some (fst c))) (ndata (snd c)).

Lemma get_some t k : In k (map a_pk t) -> exists r, get_by_pk t k = Ok r /\ a_pk r = k.
Proof.
  intros H. unfold get_by_pk. apply in_map_iff in H. destruct H as (r & Er & Hr).
  destruct (filter (fun r => a_pk r =? k) t) as [|r' l] eqn:Ef.
  - exfalso. assert (Hf : In r (filter (fun r => a_pk r =? k) t)) by (apply filter_In; split; auto; apply Nat.eqb_eq; auto).
    rewrite Ef in Hf. destruct Hf.
  - exists r'. split; auto. assert (Hf : In r' (filter (fun r => a_pk r =? k) t)) by (rewrite Ef; left; auto).
    apply filter_In in Hf. apply Nat.eqb_eq, Hf.
Qed.

Lemma unused t (r : alrow) : ~ In (a_pk r) (map a_pk t) -> existsb (al_same r) t = false.
Proof.
  intros N. apply not_true_iff_false. intros E. apply existsb_exists in E. destruct E as (a & Ha & E).
  apply Nat.eqb_eq in E. apply N. rewrite E. apply in_map. auto.
Qed.

Lemma exec_eq t c : ready t c -> al_table_exec t c = Ok (newrow t c :: t).
Proof.
  destruct c as [k x]. intros [Hk Hx]. cbn [fst snd] in *. unfold al_table_exec, al_exec. cbn [fst snd].
  destruct (get_some t k Hk) as (r & -> & Er). cbn [bind]. unfold add_child. cbn [bind fst fresh o_row]. rewrite Er.
  fold (newrow t (k, x)). unfold save_row.
  assert (E : existsb (fun y => a_pk y =? a_pk (newrow t (k, x))) t = false).
  { rewrite <- (unused t (newrow t (k, x)) Hx). clear. induction t as [|a t IH]; auto. cbn [existsb].
    unfold al_same at 1. f_equal; auto. apply Nat.eqb_sym. }
  unfold newrow in *. cbn [fst snd a_pk] in *. rewrite E. reflexivity.
Qed.

(** The states in the middle of the call. *)
Inductive mid (t : al_table) (c : nat * node) : tx alrow -> Prop :=
| mid_insert : o = [] -> mid t c (mkTx (Insert (newrow t c) Commit) [] [] None)
| mid_commit : existsb (al_same (newrow t c)) t = false -> mid t c (mkTx Commit [New (newrow t c)] [] None).

Notation solo := (solo a_pk al_same).
Notation reach := (reach alrow a_pk al_same (nat * node) start).

Lemma solo_insert t c : solo t (mkTx (Insert (newrow t c) Commit) [] [] None) =
  if existsb (al_same (newrow t c)) t then End t (Some IntegrityError) else Go (mkTx Commit [New (newrow t c)] [] None).
Proof. reflexivity. Qed.

Lemma solo_first t c : solo t (begin (start c)) =
  if is_sorted o
  then if existsb (al_same (newrow t c)) t then End t (Some IntegrityError) else Go (mkTx Commit [New (newrow t c)] [] None)
  else Go (mkTx (Insert (newrow t c) Commit) [] [] None).
Proof.
  unfold start, newrow, al_add_child, begin, is_sorted. destruct o; reflexivity.
Qed.

Lemma reach_mid t c y : reach t c y -> mid t c y.
Proof.
  induction 1 as [y E1|y y' R IH E1].
  - rewrite solo_first in E1. destruct (is_sorted o) eqn:Eo.
    + destruct (existsb _ t) eqn:Ex; [discriminate|]. injection E1 as <-. apply mid_commit. auto.
    + injection E1 as <-. apply mid_insert. destruct o; [auto|discriminate].
  - destruct IH as [Eo|Ex].
    + rewrite solo_insert in E1. destruct (existsb _ t) eqn:Ex; [discriminate|]. injection E1 as <-. apply mid_commit; auto.
    + discriminate.
Qed.

Lemma mid_reach t c y : mid t c y -> reach t c y.
Proof.
  assert (K : o = [] -> reach t c (mkTx (Insert (newrow t c) Commit) [] [] None)).
  { intros Eo. apply reach_first. rewrite solo_first. rewrite Eo at 1. reflexivity. }
  intros [Eo|Ex]; auto. destruct (is_sorted o) eqn:Es.
  - apply reach_first. rewrite solo_first, Es, Ex. reflexivity.
  - eapply reach_next; [apply K; destruct o; [auto|discriminate]|]. rewrite solo_insert, Ex. reflexivity.
Qed.

Lemma newrow_stable t c d : apart c d -> newrow (newrow t d :: t) c = newrow t c.
Proof.
  intros [_ A]. unfold newrow at 1 3. f_equal. destruct (is_sorted o) eqn:Es; auto.
  unfold next_sib. cbn [filter]. cbn [newrow a_parent].
  assert (E : par_eqb (Some (fst d)) (Some (fst c)) = false).
  { apply par_eqb_false. intros E. injection E as E. apply A; auto. destruct o; [auto|discriminate]. }
  rewrite E. reflexivity.
Qed.

Lemma al_serializable : serializable alrow a_pk al_same (nat * node) start al_table_exec ok ready apart compat.
Proof.
  constructor.
  - intros t c rows. rewrite solo_first. destruct (is_sorted o); [|discriminate]. destruct (existsb _ t); discriminate.
  - intros t c y _ Rd R E. apply reach_mid in R. destruct R as [Eo|Ex].
    + unfold start, al_add_child, begin in E. rewrite Eo in E. discriminate.
    + unfold start, al_add_child, begin in E. destruct o; discriminate.
  - intros t c y rows e _ Rd M E. rewrite (exec_eq t c Rd).
    assert (Ex : existsb (al_same (newrow t c)) t = false) by (apply unused, Rd).
    destruct M as [->|M].
    + rewrite solo_first, Ex in E. destruct (is_sorted o); discriminate.
    + apply reach_mid in M. destruct M as [Eo|_].
      * rewrite solo_insert, Ex in E. discriminate.
      * injection E as <- <-. reflexivity.
  - intros. exact Logic.I.
  - intros t t' c d _ Rc Rd A E. rewrite (exec_eq t d Rd) in E. injection E as <-. destruct Rc as [R1 R2].
    split; cbn [map newrow a_pk]; [right; auto|]. intros [H|H]; auto. apply (proj1 A). auto.
  - intros t t' c d y _ Rc Rd A _ E R. rewrite (exec_eq t d Rd) in E. injection E as <-.
    apply reach_mid in R. apply mid_reach. destruct R as [Eo|Ex]; rewrite <- (newrow_stable t c d A); constructor; auto.
    rewrite (newrow_stable t c d A). cbn [existsb]. rewrite Ex, orb_false_r. apply Nat.eqb_neq. apply (proj1 A).
  - intros. exact Logic.I.
  - intros t c d y y' _ Rc Rd A _ R R'. apply reach_mid in R. apply reach_mid in R'.
    destruct R as [Eo|Ex]; [|reflexivity]. unfold waits. cbn [x_prog]. destruct R' as [_|_]; [reflexivity|].
    cbn [x_writes existsb written]. rewrite orb_false_r. apply Nat.eqb_neq. apply (proj1 A).
  - intros. exact Logic.I.
Qed.

(** ** The forest *)
Lemma ids_iff t F k : stores o t F -> In k (ids F) <-> In k (map a_pk t).
Proof.
  intros (W & _ & so & Fit & _). split; intros H.
  - apply (Permutation_in _ (Permutation_sym (perm_pks so t F W Fit))); auto.
  - apply (Permutation_in _ (perm_pks so t F W Fit)); auto.
Qed.

Definition add (F : forest node) (c : nat * node) := sp_add_child (gt_opt o (ndata (snd c))) (fst c) (snd c) F.

Lemma exec_stores t F c t' : stores o t F -> ready t c -> (o <> [] -> has_values o (ndata (snd c))) ->
  al_table_exec t c = Ok t' -> stores o t' (add F c).
Proof.
  intros St Rd V E. destruct c as [k x].
  assert (Fr : fresh_call F (CAddChild k x)).
  { intros i [<-|[]]. rewrite (ids_iff t F _ St). apply Rd. }
  assert (A := al_call_ok o t F (CAddChild k x) St Fr V). unfold al_table_exec in E. cbn [fst snd] in E. rewrite E in A.
  unfold sp_exec in A. assert (Hk : has k F = true) by (apply has_spec; rewrite (ids_iff t F _ St); apply Rd).
  rewrite Hk in A. exact A.
Qed.

Lemma ready_after t c d : ready t c -> ready t d -> nid (snd c) <> nid (snd d) -> ready (newrow t d :: t) c.
Proof.
  intros [R1 R2] _ A. split; cbn [map newrow a_pk]; [right; auto|]. intros [H|H]; auto.
Qed.

(** Calls that are ready succeed one at a time. *)
Lemma one_by_one_ok calls : NoDup (map (fun c => nid (snd c)) calls) -> (o <> [] -> Forall (fun c => has_values o (ndata (snd c))) calls) ->
  forall order t F t' log, stores o t F -> NoDup order ->
  (forall i c, In i order -> nth_error calls i = Some c -> ready t c) ->
  one_by_one al_table_exec calls t order = (t', log) ->
  stores o t' (fold_left add (succeeded calls log) F) /\ Forall (fun e => snd e = None) log.
Proof.
  intros ND V. induction order as [|i order IH]; intros t F t' log St NO Rd E; cbn [one_by_one] in E.
  - injection E as <- <-. auto.
  - apply NoDup_cons_iff in NO. destruct NO as [Ni NO]. destruct (nth_error calls i) as [c|] eqn:Ec.
    2:{ apply (IH t F t' log); auto. intros; eapply Rd; eauto; right; auto. }
    assert (Rc := Rd i c (or_introl eq_refl) Ec). assert (Ex := exec_eq t c Rc). rewrite Ex in E.
    destruct (one_by_one al_table_exec calls (newrow t c :: t) order) as [r l] eqn:E2. injection E as <- <-.
    unfold succeeded. cbn [flat_map fst snd]. rewrite Ec. cbn [app fold_left]. fold (succeeded calls l).
    destruct (IH (newrow t c :: t) (add F c) r l) as [H1 H2]; auto.
    + apply (exec_stores t F c); auto. intros No. specialize (V No). rewrite Forall_forall in V. apply V. eapply nth_error_In; eauto.
    + intros j d Hj Ed. apply ready_after; auto; [apply (Rd j); auto; right; auto|]. intros Q. apply Ni.
      assert (i = j); [|subst; auto]. apply (proj1 (NoDup_nth_error _) ND).
      * rewrite map_length. apply nth_error_Some. congruence.
      * rewrite !nth_error_map, Ec, Ed. cbn. congruence.
Qed.

Theorem al_concurrent t F calls schedule : stores o t F ->
  NoDup (map (fun c => nid (snd c)) calls) -> (o = [] -> NoDup (map fst calls)) ->
  (forall c, In c calls -> In (fst c) (ids F) /\ ~ In (nid (snd c)) (ids F)) ->
  (o <> [] -> Forall (fun c => has_values o (ndata (snd c))) calls) ->
  let W := play a_pk al_same (all_begin t (map start calls)) schedule in
  one_by_one al_table_exec calls t (map fst (w_log W)) = (w_rows W, w_log W) /\ NoDup (map fst (w_log W)) /\
  Forall (fun e => snd e = None) (w_log W) /\
  stores o (w_rows W) (fold_left add (succeeded calls (w_log W)) F) /\
  (finished W = true -> Permutation (map fst (w_log W)) (seq 0 (length calls))) /\
  exists schedule', finished (play a_pk al_same W schedule') = true.
Proof.
  intros St ND NP Fr V W.
  assert (NthI : forall A B (f : A -> B) l, NoDup (map f l) -> forall i j c d, i <> j -> nth_error l i = Some c -> nth_error l j = Some d -> f c <> f d).
  { intros A B f l N i j c d Nij Ec Ed Q. apply Nij. apply (proj1 (NoDup_nth_error _) N).
    - rewrite map_length. apply nth_error_Some. congruence.
    - rewrite !nth_error_map, Ec, Ed. cbn. congruence. }
  assert (Ap : forall i j c d, i <> j -> nth_error calls i = Some c -> nth_error calls j = Some d -> apart c d).
  { intros i j c d N Ec Ed. split.
    - apply (NthI _ _ (fun c => nid (snd c)) calls ND i j); auto.
    - intros Eo. apply (NthI _ _ fst calls (NP Eo) i j); auto. }
  assert (Rd : forall c, In c calls -> ready t c).
  { intros c Hc. unfold ready. rewrite <- !(ids_iff t F _ St). auto. }
  destruct (reached_serial alrow a_pk al_same _ start al_table_exec ok ready apart compat al_serializable calls t Ap
    Logic.I Rd schedule) as (H1 & _ & H3 & H4 & H5). fold W in H1, H3, H4, H5.
  destruct (one_by_one_ok calls ND V _ t F (w_rows W) (w_log W) St H3) as [K1 K2]; auto 6.
  intros i c _ Ec. apply Rd. eapply nth_error_In; eauto.
Qed.
End AL.

(** ** Several children of one parent, without node_order_by *)
Section Unsorted.

(** A row without its sib_order. *)
Definition plain (r : alrow) : nat * option nat * fields := (a_pk r, a_parent r, a_data r).
Definition plain_of (c : nat * node) : nat * option nat * fields := (nid (snd c), Some (fst c), ndata (snd c)).

Variables (calls : list (nat * node)) (t0 : al_table).
Hypothesis ids_apart : NoDup (map (fun c => nid (snd c)) calls).
Hypothesis ready0 : forall c, In c calls -> ready t0 c.

(** Below its parent [k], a child with this sib_order comes after all the children of [t0]. *)
Definition late (k : nat) (s : Z) : Prop := forall r, In r t0 -> a_parent r = Some k -> (a_sib r < s)%Z.

Inductive midway (c : nat * node) : tx alrow -> Prop :=
| mw_begin : midway c (begin (al_add_child [] (fst c) (snd c)))
| mw_insert s : late (fst c) s -> midway c (mkTx (Insert (mkAL (nid (snd c)) (Some (fst c)) s (ndata (snd c))) Commit) [] [] None)
| mw_commit s : late (fst c) s -> midway c (mkTx Commit [New (mkAL (nid (snd c)) (Some (fst c)) s (ndata (snd c)))] [] None).

Record inv (W : world alrow) : Prop := {
  i_rows : exists new, w_rows W = new ++ t0 /\ Permutation (map plain new) (map plain_of (succeeded calls (w_log W))) /\
    Forall (fun r => exists k, a_parent r = Some k /\ late k (a_sib r)) new;
  i_good : Forall (fun e => snd e = None) (w_log W);
  i_len : length (w_txs W) = length calls;
  i_nodup : NoDup (map fst (w_log W));
  i_done : forall i, In i (map fst (w_log W)) <-> nth_error (w_txs W) i = Some None;
  i_run : forall i x, nth_error (w_txs W) i = Some (Some x) -> exists c, nth_error calls i = Some c /\ midway c x }.

Lemma nid_apart i j c d : i <> j -> nth_error calls i = Some c -> nth_error calls j = Some d -> nid (snd c) <> nid (snd d).
Proof.
  intros N Ec Ed Q. apply N. apply (proj1 (NoDup_nth_error _) ids_apart).
  - rewrite map_length. apply nth_error_Some. congruence.
  - rewrite !nth_error_map, Ec, Ed. cbn. congruence.
Qed.

Lemma done_call log c : In c (succeeded calls log) -> exists i, In i (map fst log) /\ nth_error calls i = Some c.
Proof.
  unfold succeeded. rewrite in_flat_map. intros ([i e] & H1 & H2). cbn in H2. destruct e; [destruct H2|].
  exists i. split; [apply (in_map fst _ _ H1)|]. destruct (nth_error calls i); [|destruct H2]. destruct H2 as [->|[]]; auto.
Qed.

(** The key of a running call is not in use. *)
Lemma key_free W i x c : inv W -> nth_error (w_txs W) i = Some (Some x) -> nth_error calls i = Some c ->
  ~ In (nid (snd c)) (map a_pk (w_rows W)).
Proof.
  intros I Ex Ec H. destruct (i_rows W I) as (new & E & P & _). rewrite E, map_app, in_app_iff in H. destruct H as [H|H].
  - assert (H' : In (nid (snd c)) (map (fun d => nid (snd d)) (succeeded calls (w_log W)))).
    { apply (Permutation_map (fun p : nat * option nat * fields => fst (fst p))) in P. rewrite !map_map in P.
      apply (Permutation_in _ P). exact H. }
    apply in_map_iff in H'. destruct H' as (d & Ed & Hd). apply done_call in Hd. destruct Hd as (j & Hj & Ej).
    apply (i_done W I) in Hj. apply (nid_apart j i d c); auto. congruence.
  - apply (ready0 c); auto. eapply nth_error_In; eauto.
Qed.

Lemma free W i x : inv W -> nth_error (w_txs W) i = Some (Some x) -> blocked al_same W i x = false.
Proof.
  intros I Ex. apply blocked_false. intros j y N Ey. destruct (i_run W I i x Ex) as (c & Ec & Mc).
  destruct (i_run W I j y Ey) as (d & Ed & Md). destruct Mc as [|s _|s _]; try reflexivity.
  unfold waits. cbn [x_prog]. destruct Md as [|s' _|s' _]; try reflexivity. cbn [x_writes existsb written].
  rewrite orb_false_r. apply Nat.eqb_neq. apply (nid_apart i j); auto.
Qed.

(** What is left to do. *)
Definition left_of (x : tx alrow) : nat := match x_prog x with Select _ => 3 | Insert _ _ => 2 | _ => 1 end.
Definition left_opt (x : option (tx alrow)) : nat := match x with Some x => left_of x | None => 0 end.
Definition work (W : world alrow) : nat := list_sum (map left_opt (w_txs W)).

Lemma work_set i (x : option (tx alrow)) y l : nth_error l i = Some x -> left_opt y < left_opt x ->
  list_sum (map left_opt (set_nth i y l)) < list_sum (map left_opt l).
Proof.
  revert i. induction l as [|a l IH]; intros [|i] E L; try discriminate; cbn [set_nth map list_sum fold_right] in *.
  - injection E as ->. unfold list_sum. cbn [fold_right]. lia.
  - specialize (IH i E L). unfold list_sum in *. cbn [fold_right]. lia.
Qed.

Lemma late_next new k : late k (next_sib (new ++ t0) (Some k)).
Proof.
  intros r Hr Ep. unfold next_sib.
  assert (H : In (a_sib r) (map a_sib (filter (fun r => par_eqb (a_parent r) (Some k)) (new ++ t0)))).
  { apply in_map, filter_In. split; [apply in_app_iff; auto|]. rewrite Ep. apply par_eqb_refl. }
  assert (M := agg_max (map a_sib (filter (fun r => par_eqb (a_parent r) (Some k)) (new ++ t0)))).
  destruct (agg Z.max _) as [m|]; cbn [or0].
  - destruct M as [_ M]. specialize (M _ H). lia.
  - rewrite M in H. destruct H.
Qed.

Lemma inv_set W i x x' : inv W -> nth_error (w_txs W) i = Some (Some x) ->
  (forall c, nth_error calls i = Some c -> midway c x') -> inv (mkW (w_rows W) (set_nth i (Some x') (w_txs W)) (w_log W)).
Proof.
  intros [I1 I2 I3 I4 I5 I6] Ex M. split; cbn [w_rows w_txs w_log]; auto.
  - rewrite set_nth_length. auto.
  - intros j. rewrite nth_set_nth. rewrite I5. destruct (Nat.eqb_spec j i) as [->|]; [|tauto].
    rewrite Ex. cbn. split; intros; discriminate.
  - intros j y. rewrite nth_set_nth. destruct (Nat.eqb_spec j i) as [->|]; [|apply I6].
    rewrite Ex. cbn. intros E. injection E as <-. destruct (I6 i x Ex) as (c & Ec & _). exists c. auto.
Qed.

Notation step := (step a_pk al_same).
Notation play := (play a_pk al_same).

Lemma step_ok W i x : inv W -> nth_error (w_txs W) i = Some (Some x) -> inv (step W i) /\ work (step W i) < work W.
Proof.
  intros I Ex. unfold ConcModel.step. rewrite Ex, (free W i x I Ex).
  destruct (i_run W I i x Ex) as (c & Ec & M). assert (K := key_free W i x c I Ex Ec).
  assert (Hi : i < length (w_txs W)) by (apply nth_error_Some; congruence).
  destruct M as [|s L|s L].
  - cbn [solo begin al_add_child x_prog goes x_writes x_locks]. split.
    + eapply inv_set; eauto. intros c' Ec'. rewrite Ec in Ec'. injection Ec' as <-.
      destruct (i_rows W I) as (new & E & _). unfold visible. cbn [x_writes fold_left]. rewrite E. apply mw_insert. apply late_next.
    + unfold work. cbn [w_txs]. eapply work_set; eauto.
  - unfold solo. cbn [x_prog x_writes x_locks visible fold_left]. unfold visible. cbn [x_writes fold_left]. rewrite unused by exact K. cbn [goes]. split.
    + eapply inv_set; eauto. intros c' Ec'. rewrite Ec in Ec'. injection Ec' as <-. apply mw_commit. auto.
    + unfold work. cbn [w_txs]. eapply work_set; eauto.
  - cbn [solo x_prog visible x_writes fold_left apply_write]. split.
    2:{ unfold work. cbn [w_txs]. eapply work_set; eauto. }
    destruct I as [I1 I2 I3 I4 I5 I6].
    assert (Ni : ~ In i (map fst (w_log W))) by (rewrite I5; congruence).
    split; cbn [w_rows w_txs w_log].
    + destruct I1 as (new & E & P & G). exists (mkAL (nid (snd c)) (Some (fst c)) s (ndata (snd c)) :: new). rewrite E. split; auto. split.
      * unfold succeeded. rewrite flat_map_app. cbn [flat_map fst snd]. rewrite Ec, app_nil_r. fold (succeeded calls (w_log W)).
        rewrite map_app. cbn [map]. unfold plain at 1. cbn [a_pk a_parent a_data]. fold (plain_of c).
        apply (Permutation_trans (l' := plain_of c :: map plain_of (succeeded calls (w_log W)))); [constructor; auto|apply Permutation_cons_append].
      * constructor; auto. exists (fst c). auto.
    + rewrite Forall_app. auto.
    + rewrite set_nth_length. auto.
    + rewrite map_app. cbn. apply (Permutation_NoDup (Permutation_cons_append _ _)). constructor; auto.
    + intros j. rewrite map_app, in_app_iff, nth_set_nth, I5. cbn. destruct (Nat.eqb_spec j i) as [->|N].
      * rewrite Ex. cbn. tauto.
      * split; [intros [H|[H|[]]]; auto; congruence|auto].
    + intros j y. rewrite nth_set_nth. destruct (Nat.eqb_spec j i) as [->|N]; [rewrite Ex; discriminate|]. apply I6.
Qed.

Lemma inv_step W i : inv W -> inv (step W i).
Proof.
  intros I. destruct (nth_error (w_txs W) i) as [[x|]|] eqn:Ex; [apply (step_ok W i x I Ex)| |];
    unfold ConcModel.step; rewrite Ex; auto.
Qed.
Lemma inv_play W l : inv W -> inv (play W l).
Proof. revert W. induction l as [|i l IH]; intros W I; cbn; auto. apply IH, inv_step, I. Qed.

Lemma inv_begin : inv (all_begin t0 (map (start []) calls)).
Proof.
  unfold all_begin. split; cbn [w_rows w_txs w_log].
  - exists []. repeat split; constructor.
  - constructor.
  - rewrite !map_length. auto.
  - constructor.
  - intros i. split; [intros []|]. intros E. apply nth_error_In in E. apply in_map_iff in E. destruct E as (p & E & _). discriminate.
  - intros i x E. rewrite map_map in E. rewrite nth_error_map in E.
    destruct (nth_error calls i) as [c|] eqn:Ec; [|discriminate]. cbn [option_map] in E. injection E as <-. exists c. split; auto. apply mw_begin.
Qed.

Lemma can_finish W : inv W -> exists l, finished (play W l) = true.
Proof.
  remember (work W) as n eqn:En. revert W En. induction n as [n IH] using (well_founded_induction lt_wf). intros W En I.
  destruct (finished W) eqn:Ef; [exists []; auto|].
  assert (Hx : exists i x, nth_error (w_txs W) i = Some (Some x)).
  { apply (some_running alrow). intros Hr. apply (none_running alrow) in Hr. congruence. }
  destruct Hx as (i & x & Ex). destruct (step_ok W i x I Ex) as [I' L].
  destruct (IH (work (step W i))) with (W := step W i) as [l El]; auto; [lia|]. exists (i :: l). exact El.
Qed.

(** The finished calls one at a time. *)
Lemma one_by_one_plain : forall log t, NoDup (map fst log) -> Forall (fun e => snd e = None) log ->
  (forall i, In i (map fst log) -> exists c, nth_error calls i = Some c /\ ready t c) ->
  exists t', one_by_one (al_table_exec []) calls t (map fst log) = (t', log) /\
    Permutation (map plain t') (map plain_of (succeeded calls log) ++ map plain t).
Proof.
  induction log as [|[i e] log IH]; intros t ND G Rd; [exists t; split; auto|].
  cbn [map fst] in ND. apply NoDup_cons_iff in ND. destruct ND as [Ni ND].
  assert (Ge : e = None /\ Forall (fun e => snd e = None) log) by (inversion G; auto). destruct Ge as [-> G'].
  destruct (Rd i (or_introl eq_refl)) as (c & Ec & Rc). cbn [map fst one_by_one]. rewrite Ec, (exec_eq [] t c Rc).
  destruct (IH (newrow [] t c :: t)) as (t' & E & P); auto.
  - intros j Hj. destruct (Rd j (or_intror Hj)) as (d & Ed & Rj). exists d. split; auto. apply ready_after; auto.
    apply (nid_apart j i); auto. intros ->. auto.
  - exists t'. rewrite E. split; auto. rewrite P. unfold succeeded. cbn [flat_map fst snd]. rewrite Ec. cbn [app map].
    fold (succeeded calls log). unfold plain at 1. cbn [newrow a_pk a_parent a_data]. fold (plain_of c).
    symmetry. apply Permutation_middle.
Qed.

Theorem al_unsorted F schedule : stores [] t0 F ->
  let W := play (all_begin t0 (map (start []) calls)) schedule in
  exists t', one_by_one (al_table_exec []) calls t0 (map fst (w_log W)) = (t', w_log W) /\ NoDup (map fst (w_log W)) /\
  Forall (fun e => snd e = None) (w_log W) /\
  stores [] t' (fold_left (add []) (succeeded calls (w_log W)) F) /\
  Permutation (map plain (w_rows W)) (map plain t') /\
  (forall r s, In r (w_rows W) -> In s (w_rows W) -> a_parent r = a_parent s -> In (a_pk r) (ids F) -> ~ In (a_pk s) (ids F) ->
     (a_sib r < a_sib s)%Z) /\
  (finished W = true -> Permutation (map fst (w_log W)) (seq 0 (length calls))) /\
  exists schedule', finished (play W schedule') = true.
Proof.
  intros St W. assert (I : inv W) by (apply inv_play, inv_begin). 
  assert (Rd : forall i, In i (map fst (w_log W)) -> exists c, nth_error calls i = Some c /\ ready t0 c).
  { intros i Hi. apply (i_done W I) in Hi. destruct (nth_error calls i) as [c|] eqn:Ec.
    - exists c. split; auto. apply ready0. eapply nth_error_In; eauto.
    - apply nth_error_None in Ec. rewrite <- (i_len W I) in Ec. apply nth_error_None in Ec. congruence. }
  destruct (one_by_one_plain (w_log W) t0 (i_nodup W I) (i_good W I) Rd) as (t' & E & P).
  destruct (i_rows W I) as (new & En & Pn & G).
  exists t'. split; auto. split; [apply I|]. split; [apply I|]. split.
  { apply (one_by_one_ok [] calls ids_apart) with (order := map fst (w_log W)) (t := t0); auto; [intros No; destruct (No eq_refl)|apply I|].
    intros i c Hi Ec. destruct (Rd i Hi) as (c' & Ec' & R). congruence. }
  split.
  { rewrite P, En, map_app, Pn. reflexivity. }
  split.
  { intros r s Hr Hs Ep Ir Is. rewrite En in Hr, Hs. rewrite in_app_iff in Hr, Hs.
    rewrite (ids_iff [] t0 F _ St) in Ir. rewrite (ids_iff [] t0 F _ St) in Is.
    destruct Hs as [Hs|Hs]; [|destruct Is; apply in_map; auto]. destruct Hr as [Hr|Hr].
    - exfalso. assert (Hp : In (plain r) (map plain_of (succeeded calls (w_log W)))) by (apply (Permutation_in _ Pn), in_map, Hr).
      apply in_map_iff in Hp. destruct Hp as (c & Ec & Hc). apply done_call in Hc. destruct Hc as (j & Hj & Ej).
      assert (R := ready0 c (nth_error_In _ _ Ej)). apply (proj2 R). unfold plain, plain_of in Ec.
      assert (Eid : nid (snd c) = a_pk r) by congruence. rewrite Eid. auto.
    - rewrite Forall_forall in G. destruct (G s Hs) as (k & Ek & L). apply L; auto. congruence. }
  split; [|apply can_finish; auto]. intros Fi. apply NoDup_Permutation; [apply I|apply seq_NoDup|].
  intros i. rewrite (i_done W I), in_seq, <- (i_len W I). cbn. split.
  - intros E'. assert (H : nth_error (w_txs W) i <> None) by congruence. apply nth_error_Some in H. lia.
  - intros [_ Hi]. apply nth_error_Some in Hi. destruct (nth_error (w_txs W) i) as [[x|]|] eqn:E'; auto; [|congruence].
    unfold finished in Fi. rewrite forallb_forall in Fi. apply nth_error_In in E'. apply Fi in E'. discriminate.
Qed.
End Unsorted.
