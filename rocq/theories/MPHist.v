(** Histories of calls on materialized path tables (C03). *)
From Coq Require Import String List Arith ZArith Lia Bool Permutation Sorted.
From Verif Require Import Prelude Forest NumConv SpecFacts PathTab CommonModel Order History MPModel MPStep
  MPInv MPAdd MPMove MPMoveOk MPDelete MPReads.
Import ListNotations.

(** One call with freshly fetched nodes (objects.get(pk=...)) on the model of
    mp_tree.py; the new object has numchild 0. *)
Definition mp_exec (cfg : mp_cfg) (db : mp_db) (c : call) : res mp_db :=
  let new (x : node) := mkNew (nid x) 0 (ndata x) in
  match c with
  | CAddRoot x => do r <- add_root cfg db (new x); Ok (fst r)
  | CAddChild p x =>
      do t <- get_by_pk (db_rows db) p;
      do r <- add_child cfg db t (new x); Ok (fst (fst r))
  | CAddSibling t p x =>
      do t <- get_by_pk (db_rows db) t;
      do r <- add_sibling cfg db t p (new x); Ok (fst r)
  | CMove n t p =>
      do n <- get_by_pk (db_rows db) n;
      do t <- get_by_pk (db_rows db) t;
      do r <- move cfg db n t p; Ok (fst (fst r))
  | CDelete l =>
      Ok (mkDB (delete_queryset cfg (db_rows db) (fun r => existsb (Nat.eqb (m_pk r)) l)) (db_sig db))
  end.

(** Every sibling list has two free steps at its end. *)
Definition roomy (cfg : mp_cfg) (t : mp_table) : Prop :=
  forall r, In r t -> undigits (radix cfg) (last_step cfg (m_path r)) + 2 < radix cfg ^ steplen cfg.

(** The key space is used up somewhere: a node has the last step of all, or a node
    has no room for a child's path in the column. *)
Definition mp_full (cfg : mp_cfg) (t : mp_table) : Prop :=
  (exists q r, In r t /\ m_path r = q ++ repeat (radix cfg - 1) (steplen cfg)) \/
  (exists r, In r t /\ maxlen cfg < length (m_path r) + steplen cfg).

Section Hist.
Variable cfg : mp_cfg.
Hypothesis radix2 : 2 <= radix cfg.
Hypothesis step1 : 1 <= steplen cfg.
Notation o := (order_by cfg).

Lemma is_sorted_sorts : is_sorted cfg = sorts o.
Proof. reflexivity. Qed.

Lemma ordered_splits d (L : list node) : o <> [] -> has_values o d ->
  StronglySorted (not_after o) L -> Forall (fun a => has_values o (ndata a)) L ->
  splits (fun n => sorted_after o d (ndata n)) L.
Proof. intros No Hd S V. apply sorted_splits; auto. Qed.

Lemma get_pk_cases t F k : stores cfg t F ->
  (get_by_pk t k = Err DoesNotExist /\ ~ In k (ids F)) \/
  (exists r, get_by_pk t k = Ok r /\ In r t /\ m_pk r = k /\ In k (ids F)).
Proof.
  intros (f & L & N & <- & I). destruct (in_dec Nat.eq_dec k (map m_pk t)) as [H|H].
  - right. assert (H' := H). apply in_map_iff in H. destruct H as (r & <- & Hr). exists r.
    rewrite (get_by_pk_lay cfg t f r L I Hr). repeat (split; auto).
    apply (Permutation_in _ (lay_pks cfg _ _ L) H').
  - left. split.
    + unfold get_by_pk. replace (filter (fun r => m_pk r =? k) t) with (@nil mprow); auto.
      symmetry. apply filter_none. intros r Hr. apply Nat.eqb_neq. intros <-. apply H. apply in_map. auto.
    + intros Hk. apply H. apply (Permutation_in _ (Permutation_sym (lay_pks cfg _ _ L)) Hk).
Qed.

Lemma stored_data t F r : stores cfg t F -> In r t -> data_of (m_pk r) F = m_data r /\
  (o <> [] -> values_f o F -> has_values o (m_data r)).
Proof.
  intros (f & L & N & <- & I) Hr. destruct (lay_in cfg _ _ _ L Hr) as ([p a] & Hx & ->).
  assert (Hp : In (fst a) (preorder (kerase f))).
  { rewrite kerase_preorder. apply (in_map (fun y => fst (snd y)) _ _ Hx). }
  split.
  - change (m_data (mkrow cfg (p, a))) with (ndata (fst a)).
    change (m_pk (mkrow cfg (p, a))) with (nid (fst a)). apply data_of_spec; auto.
  - intros _ V. unfold values_f in V. rewrite Forall_forall in V. apply (V _ Hp).
Qed.

Definition mp_rel (db : mp_db) (F : forest node) : Prop := stores cfg (db_rows db) F /\ ordered o F.

(** One call has the outcome of the specification, or the call is a legal one and
    raises PathOverflow because the key space is used up. *)
Theorem mp_call_ok db F c :
  mp_rel db F -> (o <> [] -> call_values o c) -> fresh_call F c ->
  (match c with CMove _ _ _ => roomy cfg (db_rows db) | _ => True end) ->
  agree mp_rel (mp_exec cfg db c) (sp_exec o F c) \/
  (mp_exec cfg db c = Err PathOverflow /\ mp_full cfg (db_rows db) /\ exists F', sp_exec o F c = Ok F').
Proof.
  intros [St O] V Fr Rm. assert (WF : wf_ids F) by (destruct St as (f & _ & _ & _ & W); auto).
  assert (Os := sp_call_ordered o F c WF O V). unfold fresh_call in Fr.
  assert (Tk : forall q, step_taken cfg (db_rows db) q -> mp_full cfg (db_rows db)).
  { intros q (r & Hr & E). left. exists q, r. auto. }
  destruct c as [x|p x|t p x|n t p|l]; simpl in V, Fr; unfold mp_exec, sp_exec.
  - (* add_root *)
    destruct (add_root_ok cfg radix2 step1 db F (mkNew (nid x) 0 (ndata x)) St) as [(db' & r & E & _ & _ & _ & S')|[E T]]; auto.
    + simpl. intros Hs. rewrite is_sorted_sorts in Hs. apply sorts_true in Hs.
      destruct (O Hs). apply ordered_splits; auto; [apply roots_sorted|apply roots_values]; auto.
    + left. rewrite E. cbn [bind fst agree]. split; auto. simpl.
      unfold opt_gt in S'. rewrite is_sorted_sorts in S'. destruct x; apply S'.
    + right. rewrite E. cbn [bind]. split; auto. split; eauto.
  - (* add_child *)
    destruct (get_pk_cases _ _ p St) as [[E H]|(r & E & Hr & Er & Hi)]; rewrite E; cbn [bind].
    { apply has_false in H. rewrite H. left. cbn [agree]. auto. }
    rewrite (proj2 (has_spec _ _) Hi).
    destruct (add_child_ok cfg radix2 step1 db F r (mkNew (nid x) 0 (ndata x)) St)
      as (nd & Hnd & _ & [(db' & r' & t' & E' & _ & _ & _ & _ & S')|[E' T]]); auto.
    { rewrite Er; auto. }
    { intros Hs. rewrite is_sorted_sorts in Hs. apply sorts_true in Hs. destruct (O Hs) as [S1 S2].
      apply ordered_splits; auto; destruct (kids_of (Some (m_pk r)) F) as [l|] eqn:El; try constructor;
      destruct (sorted_kids o _ F l S1 S2 El); [apply roots_sorted|apply roots_values]; auto. }
    + left. rewrite E'. cbn [bind fst agree]. split; auto. simpl. rewrite Er in S'.
      unfold opt_gt in S'. rewrite is_sorted_sorts in S'. destruct x; apply S'.
    + right. rewrite E'. cbn [bind]. split; auto. split; eauto. destruct T as [T|[_ T]]; eauto. right. eauto.
  - (* add_sibling *)
    destruct (get_pk_cases _ _ t St) as [[E H]|(r & E & Hr & Er & Hi)]; rewrite E; cbn [bind].
    { apply has_false in H. rewrite H. left. cbn [agree]. auto. }
    rewrite (proj2 (has_spec _ _) Hi).
    simpl sp_call in *. rewrite <- is_sorted_sorts in *. destruct (prepare_pos_add (is_sorted cfg) p) as [P|e] eqn:EP.
    2:{ left. unfold add_sibling. rewrite EP. cbn [bind agree]. auto. }
    cbn [bind].
    destruct (add_sibling_ok cfg radix2 step1 db F r p P (mkNew (nid x) 0 (ndata x)) St)
      as [(db' & r' & E' & _ & _ & _ & S')|[E' T]]; auto.
    { simpl. intros ->. destruct (list_eq_dec (fun a b : nat * bool => ltac:(repeat decide equality)) o []) as [Eo|No].
      - exfalso. rewrite is_sorted_sorts, Eo in EP. apply (prepare_add_unsorted p SortedSibling EP). auto.
      - destruct (O No) as [S1 S2]. destruct (siblings_sorted o (m_pk r) F S1 S2). apply ordered_splits; auto. }
    + left. rewrite E'. cbn [bind fst agree]. split; auto. simpl in S'. rewrite Er in S'. destruct x; apply S'.
    + right. rewrite E'. cbn [bind]. split; auto. split; eauto.
  - (* move *)
    destruct (get_pk_cases _ _ n St) as [[E H]|(rn & E & Hrn & Ern & Hin)]; rewrite E; cbn [bind].
    { apply has_false in H. rewrite H. left. cbn [agree andb]. auto. }
    rewrite (proj2 (has_spec _ _) Hin). cbn [andb].
    destruct (get_pk_cases _ _ t St) as [[E1 H]|(rt & E1 & Hrt & Ert & Hit)]; rewrite E1; cbn [bind].
    { apply has_false in H. rewrite H. left. cbn [agree]. auto. }
    rewrite (proj2 (has_spec _ _) Hit).
    simpl sp_call in *. rewrite <- is_sorted_sorts in *. destruct (prepare_pos_move (is_sorted cfg) p) as [P|e] eqn:EP.
    2:{ left. unfold move. rewrite EP. cbn [bind agree]. auto. }
    cbn [bind].
    destruct (stored_data _ _ _ St Hrn) as [Ed Vd].
    assert (Dec : o = [] \/ o <> []) by (destruct o; [auto|right; discriminate]).
    assert (G : (inside F (m_pk rn) (m_pk rt) P /\ move cfg db rn rt p = Err InvalidMoveToDescendant) \/
     (~ inside F (m_pk rn) (m_pk rt) P /\
      ((exists db' node' target', move cfg db rn rt p = Ok (db', node', target') /\
       stores cfg (db_rows db') (sp_move (m_pk rn) (m_pk rt) P (gt_of o (m_data rn)) F)) \/
       move cfg db rn rt p = Err PathOverflow /\ mp_full cfg (db_rows db)))).
    { destruct (move_ok cfg radix2 step1 db F rn rt p P St) as [H|[H1 [(db' & n' & t' & E' & S' & _)|[H2 H3]]]]; auto.
      - intros ->. destruct Dec as [Eo|No].
        + exfalso. rewrite is_sorted_sorts, Eo in EP. destruct (prepare_move_unsorted p SortedSibling EP). congruence.
        + destruct (O No) as [S1 S2]. destruct (siblings_sorted o (m_pk rt) F S1 S2). apply ordered_splits; auto.
      - intros ->. destruct Dec as [Eo|No].
        + exfalso. rewrite is_sorted_sorts, Eo in EP. destruct (prepare_move_unsorted p SortedChild EP). congruence.
        + destruct (O No) as [S1 S2]. apply ordered_splits; auto;
            destruct (kids_of (Some (m_pk rt)) F) as [l|] eqn:El; try constructor;
            destruct (sorted_kids o _ F l S1 S2 El); [apply roots_sorted|apply roots_values]; auto.
      - intros _ r Hr _. apply Rm; auto.
      - right. split; auto. left. exists db', n', t'. auto.
      - right. split; auto. right. split; eauto. }
    rewrite Ern, Ert in G.
    destruct G as [[D E']|[D [(db' & n' & t' & E' & S')|[E' Fu]]]]; rewrite E'; cbn [bind fst].
    + left. rewrite (proj2 (insideb_spec F n t P) D). cbn [agree]. auto.
    + left. rewrite (proj2 (insideb_false F n t P) D). cbn [agree]. split; auto. rewrite <- Ed, Ern in S'. auto.
    + right. rewrite (proj2 (insideb_false F n t P) D). split; auto. split; eauto.
  - (* delete *)
    left. cbn [agree]. split; auto. simpl. assert (S' := delete_queryset_ok cfg radix2 step1 _ F
       (fun r => existsb (Nat.eqb (m_pk r)) l) St).
    erewrite remove_all_ext; [apply S'|]. intros i Hi. simpl.
    destruct (get_pk_cases _ _ i St) as [[_ H]|(r & _ & Hr & Er & _)]; [tauto|].
    apply eq_true_iff_eq. rewrite !existsb_exists. split.
    + intros (j & Hj & E). apply Nat.eqb_eq in E. subst j. exists r. split; auto.
      rewrite Er, Nat.eqb_refl. simpl. apply existsb_exists. exists i. rewrite Nat.eqb_refl. auto.
    + intros (r' & Hr' & E). apply andb_true_iff in E. destruct E as [E1 E2]. apply Nat.eqb_eq in E1.
      apply existsb_exists in E2. destruct E2 as (j & Hj & E2). apply Nat.eqb_eq in E2.
      exists j. split; auto. apply Nat.eqb_eq. lia.
Qed.

(** All move calls are made on tables with room. *)
Fixpoint roomy_run (db : mp_db) (cs : list call) : Prop :=
  match cs with
  | [] => True
  | c :: cs =>
      (match c with CMove _ _ _ => roomy cfg (db_rows db) | _ => True end) /\
      roomy_run (match mp_exec cfg db c with Ok db' => db' | Err _ => db end) cs
  end.

Theorem mp_history_from cs : forall db F,
  stores cfg (db_rows db) F -> ordered o F ->
  NoDup (flat_map new_ids cs) -> (forall i, In i (flat_map new_ids cs) -> ~ In i (ids F)) ->
  (o <> [] -> Forall (call_values o) cs) -> roomy_run db cs ->
  let (db', ok) := run (mp_exec cfg) db cs in
  stores cfg (db_rows db') (fold_left (sp_call o) ok F) /\ ordered o (fold_left (sp_call o) ok F).
Proof.
  induction cs as [|c cs IH]; intros db F St O ND Fr V Rm; [simpl; auto|].
  simpl in ND, Fr, Rm. destruct Rm as [Rm1 Rm2].
  apply NoDup_app_iff in ND. destruct ND as (ND1 & ND2 & ND3).
  assert (WF : wf_ids F) by (destruct St as (f & _ & _ & _ & W); auto).
  assert (V1 : o <> [] -> call_values o c) by (intros No; specialize (V No); inversion V; auto).
  assert (V2 : o <> [] -> Forall (call_values o) cs) by (intros No; specialize (V No); inversion V; auto).
  cbn [run].
  assert (G : (exists db', mp_exec cfg db c = Ok db' /\ stores cfg (db_rows db') (sp_call o F c)) \/
              (exists e, mp_exec cfg db c = Err e)).
  { assert (Fc : fresh_call F c) by (intros i Hi; apply Fr; apply in_app_iff; auto).
    destruct (mp_call_ok db F c (conj St O) V1 Fc Rm1) as [A|(E & _)]; [|right; eauto].
    destruct (mp_exec cfg db c) as [db'|e]; [|eauto]. destruct (sp_exec o F c) as [F'|] eqn:E; [|destruct A].
      apply sp_exec_ok in E. subst F'. left. exists db'. split; auto. apply A. }
  destruct G as [(db' & E & S')|(e & E)].
  - rewrite E in *. specialize (IH db' (sp_call o F c) S' (sp_call_ordered o F c WF O V1) ND2).
    destruct (run (mp_exec cfg) db' cs) as [db2 ok]. simpl. apply IH; auto.
    intros i Hi Hin. apply sp_call_ids in Hin. destruct Hin as [Hin|Hin].
    + apply (Fr i); auto. apply in_app_iff; auto.
    + apply (ND3 i); auto.
  - rewrite E in *. apply IH; auto. intros i Hi. apply Fr. apply in_app_iff; auto.
Qed.

Lemma empty_stores : stores cfg [] Nil.
Proof. exists Nil. repeat split; simpl; auto; constructor. Qed.

(** C03: from the empty table. *)
Theorem mp_history cs :
  NoDup (flat_map new_ids cs) -> (o <> [] -> Forall (call_values o) cs) -> roomy_run (mkDB [] []) cs ->
  let (db', ok) := run (mp_exec cfg) (mkDB [] []) cs in
  stores cfg (db_rows db') (fold_left (sp_call o) ok Nil) /\ ordered o (fold_left (sp_call o) ok Nil).
Proof.
  intros ND V Rm. apply mp_history_from; auto.
  - apply empty_stores.
  - intros _. split; simpl; auto. constructor.
Qed.
End Hist.
