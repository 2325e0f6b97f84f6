(** Histories of calls on nested set tables (C16). *)
From Coq Require Import String List Arith ZArith Lia Bool Permutation Sorted.
From Verif Require Import Prelude Forest SpecFacts CommonModel Order History NSModel NSInv NSReads NSUpd NSAdd NSMove NSMoveOk NSDelete.
Import ListNotations.

(** One call with freshly fetched nodes (objects.get(pk=...)) on the model of ns_tree.py. *)
Definition ns_exec (o : ordering) (db : ns_db) (c : call) : res ns_db :=
  match c with
  | CAddRoot x => do r <- add_root o db x; Ok (fst r)
  | CAddChild p x =>
      do t <- get_by_pk (ns_rows db) p;
      do r <- add_child o db t x; Ok (fst (fst r))
  | CAddSibling t p x =>
      do t <- get_by_pk (ns_rows db) t;
      do r <- add_sibling o db (fresh t) p x; Ok (fst r)
  | CMove n t p =>
      do n <- get_by_pk (ns_rows db) n;
      do t <- get_by_pk (ns_rows db) t;
      do r <- move o db (fresh n) (fresh t) p; Ok (fst (fst r))
  | CDelete l => Ok (delete_queryset db (fun r => existsb (Nat.eqb (n_pk r)) l))
  end.

Lemma get_pk_cases t F k : stores t F ->
  (get_by_pk t k = Err DoesNotExist /\ has k F = false) \/
  (exists r, get_by_pk t k = Ok r /\ In r t /\ n_pk r = k /\ has k F = true).
Proof.
  intros (W & ts & I & P). assert (Pk := pks _ F ts I P). destruct (has k F) eqn:E.
  - right. apply has_spec in E. destruct (pk_row _ F ts I P _ E) as (r & Hr & <-). exists r.
    rewrite (get_by_pk_in _ F ts W I P r Hr). auto.
  - left. split; auto. apply has_false in E. unfold get_by_pk.
    replace (filter (fun r => (n_pk r =? k)%nat) t) with (@nil nsrow); auto.
    symmetry. apply filter_none. intros r Hr. apply Nat.eqb_neq. intros <-. apply E.
    apply (Permutation_in _ Pk), in_map. auto.
Qed.

Lemma stored_data t F r : stores t F -> In r t -> data_of (n_pk r) F = n_data r.
Proof.
  intros (W & ts & I & P) Hr. apply (in_t _ F ts P) in Hr.
  change (n_pk r) with (nid (row_node r)). rewrite (data_of_spec _ F (row_node r)); auto.
  rewrite <- (layout_nodes ts F) by apply I. apply in_map. auto.
Qed.

Definition ns_rel (db : ns_db) (F : forest node) : Prop := stores (ns_rows db) F.

(** One call has the outcome of the specification, for every input. *)
Theorem ns_call_ok o db F c : ns_rel db F -> fresh_call F c -> agree ns_rel (ns_exec o db c) (sp_exec o F c).
Proof.
  unfold ns_rel. intros St Fr. destruct c as [x|p x|t p x|n t p|l]; unfold fresh_call in Fr; simpl in Fr; unfold ns_exec, sp_exec, sp_call.
  - destruct (add_root_ok o db F x St) as (db' & r & E & _ & _ & S'); auto. rewrite E. cbn [bind fst agree]. auto.
  - destruct (get_pk_cases _ _ p St) as [[E H]|(r & E & Hr & Er & H)]; rewrite E, H; cbn [bind agree]; auto.
    destruct (add_child_ok o db F r x St) as (db' & r' & t' & E' & _ & _ & S' & _); auto.
    { rewrite Er. apply has_spec. auto. }
    rewrite E'. cbn [bind fst agree]. rewrite Er in S'. auto.
  - destruct (get_pk_cases _ _ t St) as [[E H]|(r & E & Hr & Er & H)]; rewrite E, H; cbn [bind agree]; auto.
    change (sorts o) with (is_sorted o). destruct (prepare_pos_add (is_sorted o) p) as [P|e] eqn:EP; cbn [bind].
    + destruct (add_sibling_ok o db F (fresh r) p P x St (good_fresh _ _ Hr)) as (db' & r' & E' & _ & _ & S'); auto.
      rewrite E'. cbn [bind fst agree]. cbn [fresh o_row] in S'. rewrite Er in S'. auto.
    + unfold add_sibling. rewrite EP. cbn [bind agree]. auto.
  - destruct (get_pk_cases _ _ n St) as [[E H]|(rn & E & Hrn & Ern & H)]; rewrite E, H; cbn [bind agree andb]; auto.
    destruct (get_pk_cases _ _ t St) as [[E1 H1]|(rt & E1 & Hrt & Ert & H1)]; rewrite E1, H1; cbn [bind agree]; auto.
    change (sorts o) with (is_sorted o). destruct (prepare_pos_move (is_sorted o) p) as [P|e] eqn:EP; cbn [bind].
    + destruct (move_ok o db F (fresh rn) (fresh rt) p P St (good_fresh _ _ Hrn) (good_fresh _ _ Hrt) EP)
        as [[D R]|[D (db' & n' & t' & R & S' & _)]]; cbn [fresh o_row] in *; rewrite Ern, Ert in *; rewrite R.
      * rewrite (proj2 (insideb_spec F n t P) D). cbn [bind agree]. auto.
      * rewrite (proj2 (insideb_false F n t P) D). cbn [bind fst agree].
        rewrite <- (stored_data _ _ _ St Hrn), Ern in S'. exact S'.
    + unfold move. rewrite EP. cbn [bind agree]. auto.
  - cbn [agree]. assert (S' := delete_queryset_ok db F (fun r => existsb (Nat.eqb (n_pk r)) l) St).
    erewrite remove_all_ext; [apply S'|]. intros i Hi. cbn beta.
    destruct (get_pk_cases _ _ i St) as [[_ H]|(r & _ & Hr & Er & _)]; [apply has_false in H; tauto|].
    apply eq_true_iff_eq. rewrite !existsb_exists. split.
    + intros (j & Hj & E). apply Nat.eqb_eq in E. subst j. exists r. split; auto.
      rewrite Er, Nat.eqb_refl. simpl. apply existsb_exists. exists i. rewrite Nat.eqb_refl. auto.
    + intros (r' & Hr' & E). apply andb_true_iff in E. destruct E as [E1 E2]. apply Nat.eqb_eq in E1.
      apply existsb_exists in E2. destruct E2 as (j & Hj & E2). apply Nat.eqb_eq in E2.
      exists j. split; auto. apply Nat.eqb_eq. lia.
Qed.

Lemma empty_stores : stores [] Nil.
Proof. split; [constructor|]. exists []. split; [|constructor]. repeat split; constructor. Qed.

(** C16: every history of calls from the empty table. *)
Theorem ns_history o cs : NoDup (flat_map new_ids cs) ->
  let (db, done) := run (ns_exec o) (mkNSDB [] []) cs in
  let (F, done') := run (sp_exec o) Nil cs in
  done = done' /\ stores (ns_rows db) F.
Proof.
  intros ND. apply (sim _ (ns_exec o) o ns_rel (fun _ => True)); auto.
  - intros s F c HR Fr _. apply ns_call_ok; auto.
  - apply empty_stores.
  - apply Forall_forall. auto.
Qed.
