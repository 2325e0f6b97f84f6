(** Theorems about dump_bulk and load_bulk (C12, C13, C22) for the four implementations. *)
From Coq Require Import String List Arith Lia Bool ZArith Permutation.
From Verif Require Import Prelude Forest SpecFacts SpecSane CommonModel Order History SpecKids SpecPerm Fixture AnnFacts
  BulkModel BulkFacts BulkTrees BulkLoad BulkMP BulkCreate BulkLT BulkLTSorted.
From Verif Require MPModel MPInv MPCheck PropsMP MPRefuted NSModel NSInv PropsNS ALModel ALInv ALReads ALAnswers PropsAL
  LTModel LTInv PropsLT LTHist NSHist ALHist MPHist.
Import ListNotations.
Local Open Scope nat_scope.

(** ** The specification *)

(** [append up g F] is [F] with the forest [g] after the children of [up] (after the roots):
    its lists of children. *)
Theorem append_means up g F : wf_ids F -> is_up up F -> wf_ids g -> (forall i, In i (ids g) -> ~ In i (ids F)) ->
  wf_ids (append up g F) /\
  (forall L, kid_list up F = Some L -> kid_list up (append up g F) = Some (L ++ roots g)) /\
  (forall q, q <> up -> (forall i, q = Some i -> ~ In i (ids g)) -> kid_list q (append up g F) = kid_list q F) /\
  (forall i, In i (ids g) -> kid_list (Some i) (append up g F) = kid_list (Some i) g).
Proof.
  intros W U Wg D. assert (W' := append_wf up g F W U Wg D). split; auto. split; [|split].
  - intros L E. unfold kid_list in *. destruct (kids_of up F) as [c|] eqn:Ec; [|discriminate]. injection E as <-.
    rewrite (append_kids up g F c W W' Ec). cbn. rewrite roots_fapp. auto.
  - intros q Nq Hq. unfold kid_list, append. destruct q as [i|].
    + specialize (Hq i eq_refl). cbn [kids_of]. destruct up as [p|]; cbn [at_kids].
      * clear U W W' D. induction F as [|a k IHk r IHr]; auto. cbn [at_node children_of].
        destruct (Nat.eqb_spec (nid a) p) as [Ep|Ep]; cbn [children_of];
          (destruct (Nat.eqb_spec (nid a) i) as [Ei|Ei]; [try (exfalso; apply Nq; congruence); cbn; rewrite roots_at_node; auto|]).
        -- rewrite children_of_fapp. assert (Eg : children_of i g = None).
           { destruct (children_of i g) eqn:E; auto. exfalso. apply Hq. apply (children_in _ _ _ E). }
           rewrite Eg. destruct (children_of i k); auto.
        -- destruct (children_of i (at_node p (fun c => fapp c g) k)) as [x|], (children_of i k) as [y|];
             cbn [option_map] in *; try discriminate; auto.
      * rewrite children_of_fapp. destruct (children_of i F); auto.
        destruct (children_of i g) eqn:E; auto. exfalso. apply Hq. apply (children_in _ _ _ E).
    + destruct up as [p|]; [|congruence]. cbn. rewrite roots_at_node. auto.
  - intros i Hi. unfold kid_list, append. cbn [kids_of]. f_equal. assert (Di := D i Hi).
    assert (N : forall f, ~ In i (ids f) -> children_of i f = None).
    { intros f H. destruct (children_of i f) eqn:E; auto. exfalso. apply H. apply (children_in _ _ _ E). }
    destruct up as [p|]; cbn [at_kids].
    + specialize (U p eq_refl). clear W W' D. induction F as [|a k IHk r IHr]; [destruct U|].
      rewrite ids_cons in *. simpl in U, Di. rewrite in_app_iff in *. cbn [at_node].
      destruct (Nat.eqb_spec (nid a) p) as [Ep|Ep]; cbn [children_of]; (destruct (Nat.eqb_spec (nid a) i); [tauto|]).
      * rewrite children_of_fapp, (N k) by tauto. destruct (children_of i g) eqn:E; auto. exfalso.
        apply children_some in Hi. destruct Hi as (x & Hx). congruence.
      * destruct (in_dec Nat.eq_dec p (ids k)) as [Hk|Hk].
        -- rewrite IHk by tauto. destruct (children_of i g) eqn:E; auto. exfalso.
           apply children_some in Hi. destruct Hi as (x & Hx). congruence.
        -- rewrite (at_node_notin p _ k Hk), (N k) by tauto. apply IHr; tauto.
    + rewrite children_of_fapp, (N F) by auto. auto.
Qed.

Example append_means_example : is_up (Some 2) ex_F /\
  append (Some 2) (Cons (nd 11 1) (Cons (nd 12 2) Nil Nil) Nil) ex_F =
  Cons (nd 7 70) Nil
   (Cons (nd 1 10) (Cons (nd 3 30) Nil (Cons (nd 5 50) Nil Nil))
   (Cons (nd 2 20) (Cons (nd 4 40) (Cons (nd 6 60) Nil Nil) (Cons (nd 9 90) (Cons (nd 10 100) Nil Nil)
     (Cons (nd 11 1) (Cons (nd 12 2) Nil Nil) Nil))) Nil)).
Proof. split; [intros p E; injection E as <-; vm_compute; tauto|reflexivity]. Qed.

Lemma append_none (g : forest node) : append None g Nil = g.
Proof. reflexivity. Qed.

(** A stored sorted forest can be loaded in its own order. *)
Lemma follows_self o F : ordered o F -> follows o [] F.
Proof. intros O No. destruct (O No) as (S & V). split; auto. split; auto. intros c x []. Qed.

Lemma narrow_append m up g F : narrow m (append up g F) -> is_up up F -> narrow m g.
Proof.
  assert (A : forall c, narrow m (fapp c g) -> narrow m g).
  { induction c as [|a k _ r IH]; auto. cbn [fapp narrow]. tauto. }
  unfold append. destruct up as [p|]; cbn [at_kids]; [|intros H _; eauto]. intros H U. specialize (U p eq_refl).
  revert H U. induction F as [|a k IHk r IHr]; [intros _ []|]. rewrite ids_cons. cbn [at_node In]. rewrite in_app_iff.
  destruct (Nat.eqb_spec (nid a) p) as [E|E]; cbn [narrow].
  - intros (_ & H & _) _. eauto.
  - intros (_ & H1 & H2) [U|[U|U]]; [tauto|eauto|eauto].
Qed.

(** ** C12: materialized paths *)
Section MP.
Import MPModel MPInv.
Variable cfg : mp_cfg.
Hypothesis radix2 : 2 <= radix cfg.
Hypothesis step1 : 1 <= steplen cfg.
Notation o := (order_by cfg).

(** A dump is the stored forest, or the branch of the parent. *)
Theorem C12_dump t F parent keep_ids : stores cfg t F -> (forall p, parent = Some p -> In p t) ->
  mp_dump_bulk cfg t parent keep_ids =
  Ok (fmap (fun x => mkItem (if keep_ids then Some (nid x) else None) (ndata x)) (branch (option_map m_pk parent) F)).
Proof. apply mp_dump_ok; auto. Qed.

(** Dumping a table and loading the dump into an empty one gives the same forest, sorted or
    not: the paths that existed fit in the column, so the compacted ones do. *)
Theorem C12_round_trip t F next : stores cfg t F -> ordered o F -> (forall r, In r t -> length (m_path r) <= maxlen cfg) ->
  exists data db', mp_dump_bulk cfg t None true = Ok data /\
    mp_load_bulk cfg next true (mkDB [] []) data None = Ok (db', ids F) /\ stores cfg (db_rows db') F.
Proof.
  intros St O Fit. exists (dumped true F).
  assert (ED := mp_dump_ok cfg radix2 step1 t F None true St (fun p H => ltac:(discriminate))). cbn [branch option_map] in ED.
  assert (W : wf_ids F) by (destruct St as (f & _ & _ & _ & W); auto).
  destruct (mp_load_last cfg radix2 step1 next true (mkDB [] []) Nil (dumped true F) None F) as [(db' & E & S & _)|(_ & N)].
  - exists Nil. repeat split; constructor.
  - intros No. split; constructor.
  - discriminate.
  - apply describes_dumped.
  - auto.
  - intros i _ [].
  - apply follows_self. auto.
  - exists db'. split; auto.
  - exfalso. apply N. split; [intros r up x []|]. rewrite append_none. apply (stored_fits cfg radix2 step1 t); auto.
Qed.

(** Loading below a parent (or as roots) appends the described forest after the existing
    children; in sorted trees this supposes that it comes after them.  [describes] says
    which nodes the data stands for.  The only failure is PathOverflow, which does not
    occur if the steps of every list of siblings are at most its length and the result
    fits in the steps and in the column. *)
Theorem C12_load_last next keep_ids db F data parent g : stores cfg (db_rows db) F -> ordered o F ->
  (forall p, parent = Some p -> In (m_pk p) (ids F)) -> describes keep_ids next data g ->
  wf_ids g -> (forall i, In i (ids g) -> ~ In i (ids F)) ->
  let up := option_map m_pk parent in follows o (kl up F) g ->
  (exists db', mp_load_bulk cfg next keep_ids db data parent = Ok (db', ids g) /\
     stores cfg (db_rows db') (append up g F) /\ ordered o (append up g F)) \/
  (mp_load_bulk cfg next keep_ids db data parent = Err PathOverflow /\
   ~ (compact cfg (db_rows db) F /\ fits cfg (append up g F))).
Proof. apply mp_load_last; auto. Qed.

(** In general every node is put, in preorder, where add_child or add_root puts it. *)
Theorem C12_load_any next keep_ids db F data parent g : stores cfg (db_rows db) F -> ordered o F ->
  (forall p, parent = Some p -> In (m_pk p) (ids F)) -> describes keep_ids next data g ->
  wf_ids g -> (forall i, In i (ids g) -> ~ In i (ids F)) -> (o <> [] -> values_f o g) ->
  let up := option_map m_pk parent in
  (exists db', mp_load_bulk cfg next keep_ids db data parent = Ok (db', ids g) /\
     stores cfg (db_rows db') (sp_load o up g F) /\ ordered o (sp_load o up g F)) \/
  mp_load_bulk cfg next keep_ids db data parent = Err PathOverflow.
Proof. apply mp_load_any; auto. Qed.

(** keep_ids with a missing primary key. *)
Theorem C12_missing_id next db data parent : (exists it, In it (preorder data) /\ it_pk it = None) ->
  mp_load_bulk cfg next true db data parent = Err KeyError.
Proof. intros H. unfold mp_load_bulk. rewrite (prepare_missing next data 0 H). auto. Qed.

(** ** C13: bulk_create *)

(** Missing for the whole claim: new nodes that are not in the model's order, see
    C13_sorted_refuted, and more children than there are steps, see C13_wide_refuted. *)
Theorem C13_bulk_create_partial next keep_ids db F data parent g : stores cfg (db_rows db) F -> ordered o F ->
  (forall p, parent = Some p -> In (m_pk p) (ids F)) -> describes_tops keep_ids next data g ->
  wf_ids g -> (forall i, In i (ids g) -> ~ In i (ids F)) -> narrow (radix cfg ^ steplen cfg) g ->
  let up := option_map m_pk parent in follows o (kl up F) g ->
  (exists db', mp_load_bulk_create cfg next keep_ids db data parent = Ok (db', map nid (roots g) ++ kids_ids g) /\
     stores cfg (db_rows db') (append up g F)) \/
  (mp_load_bulk_create cfg next keep_ids db data parent = Err PathOverflow /\
   ~ (compact cfg (db_rows db) F /\ fits cfg (append up g F))).
Proof. apply mp_bulk_create_last; auto. Qed.

(** Both variants with keep_ids: the same forest. *)
Theorem C13_same_partial next db F data parent g : stores cfg (db_rows db) F -> ordered o F ->
  (forall p, parent = Some p -> In (m_pk p) (ids F)) -> describes true next data g ->
  wf_ids g -> (forall i, In i (ids g) -> ~ In i (ids F)) ->
  let up := option_map m_pk parent in follows o (kl up F) g ->
  compact cfg (db_rows db) F -> fits cfg (append up g F) ->
  exists db1 db2 l, mp_load_bulk cfg next true db data parent = Ok (db1, ids g) /\
    mp_load_bulk_create cfg next true db data parent = Ok (db2, l) /\ Permutation l (ids g) /\
    stores cfg (db_rows db1) (append up g F) /\ stores cfg (db_rows db2) (append up g F).
Proof.
  intros St O Hp De Wg D up Fo C Fi.
  destruct (C12_load_last next true db F data parent g St O Hp De Wg D Fo) as [(db1 & E1 & S1 & _)|(_ & N)]; [|exfalso; apply N; auto].
  assert (U : is_up up F) by (intros p E; unfold up in E; destruct parent as [q|]; [|discriminate]; injection E as <-; auto).
  assert (Nw : narrow (radix cfg ^ steplen cfg) g) by (apply (narrow_append _ up g F); auto; apply Fi).
  destruct (C13_bulk_create_partial next true db F data parent g St O Hp De Wg D Nw Fo) as [(db2 & E2 & S2)|(_ & N)]; [|exfalso; apply N; auto].
  exists db1, db2, (map nid (roots g) ++ kids_ids g). split; auto. split; auto. split; auto.
  clear. induction g as [|x k _ r IH]; auto. cbn [roots map kids_ids]. rewrite ids_cons. cbn [app].
  constructor. rewrite <- IH. rewrite !app_assoc. apply Permutation_app_tail. apply Permutation_app_comm.
Qed.
End MP.

(** Loading the dump of the example below its node 2, with new primary keys from 20. *)
Definition from20 (n : nat) : nat := 20 + n.
Definition ex_g : forest node :=
  Cons (nd 20 70) Nil
 (Cons (nd 21 10) (Cons (nd 22 30) Nil (Cons (nd 23 50) Nil Nil))
 (Cons (nd 24 20) (Cons (nd 25 40) (Cons (nd 26 60) Nil Nil) (Cons (nd 27 90) (Cons (nd 28 100) Nil Nil) Nil)) Nil)).
(** The first level is numbered first by bulk_create. *)
Definition ex_h : forest node :=
  Cons (nd 20 70) Nil
 (Cons (nd 21 10) (Cons (nd 23 30) Nil (Cons (nd 24 50) Nil Nil))
 (Cons (nd 22 20) (Cons (nd 25 40) (Cons (nd 26 60) Nil Nil) (Cons (nd 27 90) (Cons (nd 28 100) Nil Nil) Nil)) Nil)).

Lemma describes_ex : describes false from20 (dumped true ex_F) ex_g.
Proof. split; vm_compute; reflexivity. Qed.

Example C12_example :
  (forall r, In r (MPModel.db_rows PropsMP.ex_db) -> length (MPModel.m_path r) <= 40) /\
  mp_dump_bulk PropsMP.c10 (MPModel.db_rows PropsMP.ex_db) None true = Ok (dumped true ex_F) /\
  mp_dump_bulk PropsMP.c10 (MPModel.db_rows PropsMP.ex_db) (Some (PropsMP.row PropsMP.ex_db 9)) false =
    Ok (Cons (mkItem None [Some 90%Z]) (Cons (mkItem None [Some 100%Z]) Nil Nil) Nil) /\
  wf_ids ex_g /\ (forall i, In i (ids ex_g) -> ~ In i (ids ex_F)) /\
  (exists db' l, mp_load_bulk PropsMP.c10 from20 false PropsMP.ex_db (dumped true ex_F) (Some (PropsMP.row PropsMP.ex_db 2)) = Ok (db', l) /\
     l = ids ex_g /\
     map MPModel.m_pk (MPModel.get_tree (MPModel.db_rows db') None None) =
       [7; 1; 3; 5; 2; 4; 6; 9; 10; 20; 21; 22; 23; 24; 25; 26; 27; 28]) /\
  (exists db' l, mp_load_bulk_create PropsMP.c10 from20 false PropsMP.ex_db (dumped true ex_F) (Some (PropsMP.row PropsMP.ex_db 2)) = Ok (db', l) /\
     l = [20; 21; 22; 23; 24; 25; 26; 27; 28] /\
     map MPModel.m_pk (MPModel.get_tree (MPModel.db_rows db') None None) =
       [7; 1; 3; 5; 2; 4; 6; 9; 10; 20; 21; 23; 24; 22; 25; 26; 27; 28]).
Proof.
  split; [intros r Hr; apply Nat.leb_le; revert r Hr; apply forallb_forall; vm_compute; reflexivity|].
  split; [vm_compute; reflexivity|]. split; [vm_compute; reflexivity|].
  split; [apply nodup_b; vm_compute; reflexivity|].
  split; [intros i Hi; revert Hi; vm_compute; intuition (subst; discriminate)|].
  split; eexists; eexists; (split; [vm_compute; reflexivity|]); split; vm_compute; reflexivity.
Qed.

Example C13_example : describes_tops false from20 (dumped true ex_F) ex_h /\ narrow 100 ex_h /\
  fits PropsMP.c10 (append (Some 1) ex_h ex_F) /\ compact PropsMP.c10 (MPModel.db_rows (fst (run (MPHist.mp_exec PropsMP.c10) PropsMP.mp_empty
    [CAddRoot (nd 1 1); CAddChild 1 (nd 2 1)]))) (Cons (nd 1 1) (Cons (nd 2 1) Nil Nil) Nil).
Proof.
  split; [split; vm_compute; reflexivity|].
  split; [cbn; repeat split; apply Nat.ltb_lt; vm_compute; reflexivity|].
  split.
  - split; [apply Nat.ltb_lt; vm_compute; reflexivity|]. split; [|apply Nat.leb_le; vm_compute; reflexivity].
    unfold append. cbn [at_kids at_node ex_F nd nid Nat.eqb fapp narrow roots length]. repeat split; apply Nat.ltb_lt; vm_compute; reflexivity.
  - intros r up x Hr Hx Ex. vm_compute in Hr. destruct up as [[|[|[|i]]]|]; vm_compute in Hx;
      repeat match goal with H : _ \/ _ |- _ => destruct H end; subst; try contradiction; try discriminate; vm_compute; auto.
Qed.

(** A sorted tree: the order is descending.  The first node of the data is put at the first
    step and its child below it; then the second one comes before it, and the first one is
    moved away from its child. *)
Definition out_of_order : forest item :=
  Cons (mkItem (Some 1) [Some 10%Z]) (Cons (mkItem (Some 3) [Some 5%Z]) Nil Nil)
 (Cons (mkItem (Some 2) [Some 20%Z]) Nil Nil).

Theorem C13_sorted_refuted : exists cfg next data db1 db2 l1 l2,
  2 <= MPModel.radix cfg /\ 1 <= MPModel.steplen cfg /\
  mp_load_bulk cfg next true (MPModel.mkDB [] []) data None = Ok (db1, l1) /\
  mp_load_bulk_create cfg next true (MPModel.mkDB [] []) data None = Ok (db2, l2) /\
  (exists F, MPInv.stores cfg (MPModel.db_rows db1) F) /\ ~ exists F, MPInv.stores cfg (MPModel.db_rows db2) F.
Proof.
  exists PropsMP.s10, from20, out_of_order. do 4 eexists. split; [apply PropsMP.le_b; reflexivity|]. split; [apply PropsMP.le_b; reflexivity|].
  split; [vm_compute; reflexivity|]. split; [vm_compute; reflexivity|]. split.
  - destruct (C12_load_any PropsMP.s10 (PropsMP.le_b 2 10 eq_refl) (PropsMP.le_b 1 2 eq_refl) from20 true (MPModel.mkDB [] []) Nil out_of_order None
      (Cons (nd 1 10) (Cons (nd 3 5) Nil Nil) (Cons (nd 2 20) Nil Nil))) as [(db' & E & S & _)|E].
    + exists Nil. repeat split; constructor.
    + intros No. split; constructor.
    + discriminate.
    + split; reflexivity.
    + apply nodup_b. reflexivity.
    + intros i _ [].
    + intros _. assert (H : forall x, In x [nd 1 10; nd 3 5; nd 2 20] -> has_values so (ndata x)).
      { intros x Hx. cbn in Hx. decompose [or] Hx; subst; try contradiction; intros i d [E|[]]; injection E as <- <-; discriminate. }
      apply Forall_forall. exact H.
    + eexists. vm_compute in E. injection E as <-. exact S.
    + vm_compute in E. discriminate.
  - apply MPRefuted.not_stored; [apply PropsMP.le_b; reflexivity|apply PropsMP.le_b; reflexivity|]. vm_compute. discriminate.
Qed.

(** More children than there are steps: load_bulk raises PathOverflow, with bulk_create the
    paths get too long a step and the table is corrupt. *)
Definition too_wide : forest item :=
  Cons (mkItem (Some 1) []) (Cons (mkItem (Some 2) []) Nil (Cons (mkItem (Some 3) []) Nil Nil)) Nil.

Theorem C13_wide_refuted : exists cfg next data db2 l2,
  2 <= MPModel.radix cfg /\ 1 <= MPModel.steplen cfg /\ MPModel.order_by cfg = [] /\
  mp_load_bulk cfg next true (MPModel.mkDB [] []) data None = Err PathOverflow /\
  mp_load_bulk_create cfg next true (MPModel.mkDB [] []) data None = Ok (db2, l2) /\
  ~ exists F, MPInv.stores cfg (MPModel.db_rows db2) F.
Proof.
  exists (MPModel.mkCfg 2 1 40 []), from20, too_wide. do 2 eexists. split; [apply PropsMP.le_b; reflexivity|]. split; [apply PropsMP.le_b; reflexivity|].
  split; [reflexivity|]. split; [vm_compute; reflexivity|]. split; [vm_compute; reflexivity|].
  apply MPRefuted.not_stored; [apply PropsMP.le_b; reflexivity|apply PropsMP.le_b; reflexivity|]. vm_compute. discriminate.
Qed.

(** Paths longer than the column: load_bulk raises PathOverflow, bulk_create does not look. *)
Theorem C13_deep_refuted : exists cfg next data db2 l2,
  2 <= MPModel.radix cfg /\ 1 <= MPModel.steplen cfg /\ MPModel.order_by cfg = [] /\
  mp_load_bulk cfg next true (MPModel.mkDB [] []) data None = Err PathOverflow /\
  mp_load_bulk_create cfg next true (MPModel.mkDB [] []) data None = Ok (db2, l2) /\
  exists r, In r (MPModel.db_rows db2) /\ MPModel.maxlen cfg < length (MPModel.m_path r).
Proof.
  exists (MPModel.mkCfg 10 2 2 []), from20, too_wide. do 2 eexists. split; [apply PropsMP.le_b; reflexivity|]. split; [apply PropsMP.le_b; reflexivity|].
  split; [reflexivity|]. split; [vm_compute; reflexivity|]. split; [vm_compute; reflexivity|].
  eexists. split; [left; reflexivity|]. vm_compute. lia.
Qed.

(** ** C22: nested sets *)
Section NS.
Import NSModel NSInv.
Variable o : ordering.

Theorem C22_dump t F parent keep_ids : stores t F -> (forall p, parent = Some p -> In p t) ->
  ns_dump_bulk t parent keep_ids =
  Ok (fmap (fun x => mkItem (if keep_ids then Some (nid x) else None) (ndata x)) (branch (option_map n_pk parent) F)).
Proof. apply ns_dump_ok. Qed.

Theorem C22_round_trip t F next : stores t F -> ordered o F ->
  exists data db', ns_dump_bulk t None true = Ok data /\
    ns_load_bulk o next true (mkNSDB [] []) data None = Ok (db', ids F) /\ stores (ns_rows db') F.
Proof.
  intros St O. exists (dumped true F).
  assert (ED := ns_dump_ok t F None true St (fun p H => ltac:(discriminate))). cbn [branch option_map] in ED.
  assert (W := PropsNS.stores_wf _ _ St). assert (On : ordered o Nil) by (intros No; split; constructor).
  destruct (ns_load_ok o next true (mkNSDB [] []) Nil (dumped true F) None F) as (db' & E & S & _); auto.
  - apply NSHist.empty_stores.
  - discriminate.
  - apply describes_dumped.
  - intros No. apply O. auto.
  - exists db'. split; auto. split; auto. cbn [option_map] in S. rewrite sp_load_follows in S; auto.
    + constructor.
    + intros p H. discriminate.
    + apply follows_self. auto.
Qed.

Theorem C22_load_last next keep_ids db F data parent g : stores (ns_rows db) F -> ordered o F ->
  (forall p, parent = Some p -> In (n_pk p) (ids F)) -> describes keep_ids next data g ->
  wf_ids g -> (forall i, In i (ids g) -> ~ In i (ids F)) ->
  let up := option_map n_pk parent in follows o (kl up F) g ->
  exists db', ns_load_bulk o next keep_ids db data parent = Ok (db', ids g) /\ stores (ns_rows db') (append up g F).
Proof.
  intros St O Hp De Wg D up Fo. destruct (ns_load_ok o next keep_ids db F data parent g) as (db' & E & S & _); auto.
  - intros No. apply (Fo No).
  - exists db'. split; auto. fold up in S. rewrite sp_load_follows in S; auto.
    + eapply PropsNS.stores_wf; eauto.
    + intros p E1. unfold up in E1. destruct parent as [q|]; [|discriminate]. injection E1 as <-. auto.
Qed.

Theorem C22_load_any next keep_ids db F data parent g : stores (ns_rows db) F -> ordered o F ->
  (forall p, parent = Some p -> In (n_pk p) (ids F)) -> describes keep_ids next data g ->
  wf_ids g -> (forall i, In i (ids g) -> ~ In i (ids F)) -> (o <> [] -> values_f o g) ->
  let up := option_map n_pk parent in
  exists db', ns_load_bulk o next keep_ids db data parent = Ok (db', ids g) /\
    stores (ns_rows db') (sp_load o up g F) /\ ordered o (sp_load o up g F).
Proof. apply ns_load_ok. Qed.
End NS.

Example C22_example :
  ns_dump_bulk (NSModel.ns_rows PropsNS.ex_db) None true = Ok (dumped true ex_F) /\
  (exists db' l, ns_load_bulk [] from20 false PropsNS.ex_db (dumped true ex_F) (Some (PropsNS.row PropsNS.ex_db 2)) = Ok (db', l) /\
     l = ids ex_g /\
     map NSModel.n_pk (NSModel.get_tree (NSModel.ns_rows db') None None) =
       [7; 1; 3; 5; 2; 4; 6; 9; 10; 20; 21; 22; 23; 24; 25; 26; 27; 28]).
Proof.
  split; [vm_compute; reflexivity|]. eexists; eexists; (split; [vm_compute; reflexivity|]); split; vm_compute; reflexivity.
Qed.

(** ** Adjacency lists *)
Section AL.
Import ALModel ALInv ALReads ALAnswers.
Variable o : ordering.
Notation pk n := (a_pk (o_row n)).

Theorem C12_al_dump t F parent keep_ids : stores o t F -> o = [] \/ strict o F ->
  (forall p, parent = Some p -> In (o_row p) t /\ good_depth F p) ->
  al_dump_bulk o t parent keep_ids =
  Ok (fmap (fun x => mkItem (if keep_ids then Some (nid x) else None) (ndata x)) (branch (option_map (fun p => pk p) parent) F)).
Proof. intros St H. apply al_dump_ok; auto. apply PropsAL.C27_reads; auto. Qed.

Theorem C12_al_load next keep_ids t F data parent g : stores o t F ->
  (forall p, parent = Some p -> In (pk p) (ids F)) -> describes keep_ids next data g ->
  wf_ids g -> (forall i, In i (ids g) -> ~ In i (ids F)) -> (o <> [] -> values_f o g) ->
  let up := option_map (fun p => pk p) parent in
  exists t', al_load_bulk o next keep_ids t data parent = Ok (t', ids g) /\ stores o t' (sp_load o up g F) /\
    (follows o (kl up F) g -> sp_load o up g F = append up g F).
Proof.
  intros St Hp De Wg D V up. destruct (al_load_ok o next keep_ids t F data parent g) as (t' & E & S); auto.
  exists t'. split; auto. split; auto. intros Fo. apply sp_load_follows; auto.
  - eapply PropsAL.stores_wf; eauto.
  - intros p E1. unfold up in E1. destruct parent as [q|]; [|discriminate]. injection E1 as <-. auto.
  - apply St.
Qed.

Theorem C12_al_round_trip t F next : stores o t F -> o = [] \/ strict o F ->
  exists data t', al_dump_bulk o t None true = Ok data /\
    al_load_bulk o next true [] data None = Ok (t', ids F) /\ stores o t' F.
Proof.
  intros St H. exists (dumped true F). assert (O : ordered o F) by apply St.
  assert (ED : al_dump_bulk o t None true = Ok (dumped true F)) by (apply (C12_al_dump t F None true St H); discriminate).
  destruct (C12_al_load next true [] Nil (dumped true F) None F) as (t' & E & S & Fo).
  - apply ALHist.empty_stores.
  - discriminate.
  - apply describes_dumped.
  - eapply PropsAL.stores_wf; eauto.
  - intros i _ [].
  - intros No. apply O. auto.
  - exists t'. split; auto. split; auto. rewrite Fo in S; auto. apply follows_self. auto.
Qed.
End AL.

Example C12_al_example :
  al_dump_bulk [] PropsAL.ex_t None true = Ok (dumped true ex_F) /\
  (exists t' l, al_load_bulk [] from20 false PropsAL.ex_t (dumped true ex_F) (Some (ALModel.fresh (PropsAL.row PropsAL.ex_t 2))) = Ok (t', l) /\
     l = ids ex_g /\ al_dump_bulk [] t' None true = Ok (dumped true (append (Some 2) ex_g ex_F))).
Proof.
  split; [vm_compute; reflexivity|]. eexists; eexists; (split; [vm_compute; reflexivity|]); split; vm_compute; reflexivity.
Qed.

(** ** ltree *)
Section LT.
Import LTModel LTInv.
Variable cfg : lt_cfg.
Hypothesis max2 : 2 <= label_max cfg.

Theorem C12_lt_dump t F parent keep_ids : stores cfg t F -> (forall p, parent = Some p -> In p t) ->
  lt_dump_bulk t parent keep_ids =
  Ok (fmap (fun x => mkItem (if keep_ids then Some (nid x) else None) (ndata x)) (branch (option_map l_pk parent) F)).
Proof. apply lt_dump_ok. Qed.

(** Below a node the order is kept.  The failures: a label has the greatest length, or the
    labels of one or two letters are used up. *)
Theorem C12_lt_load_below next keep_ids db F data parent g : lt_order cfg = [] -> stores cfg (lt_rows db) F -> In parent (lt_rows db) ->
  describes keep_ids next data g -> wf_ids g -> (forall i, In i (ids g) -> ~ In i (ids F)) ->
  (exists db', lt_load_bulk cfg next keep_ids db data (Some parent) = Ok (db', ids g) /\
     stores cfg (lt_rows db') (append (Some (l_pk parent)) g F)) \/
  (exists e, lt_load_bulk cfg next keep_ids db data (Some parent) = Err e /\ (e = DataError \/ e = ValueError)).
Proof. intros. apply (lt_load_below cfg max2); auto. Qed.

(** As roots, or in a tree with node_order_by: up to the order of siblings. *)
Theorem C12_lt_load_partial next keep_ids db F data parent g : stores cfg (lt_rows db) F ->
  (forall p, parent = Some p -> In p (lt_rows db)) ->
  describes keep_ids next data g -> wf_ids g -> (forall i, In i (ids g) -> ~ In i (ids F)) ->
  (exists db' G, lt_load_bulk cfg next keep_ids db data parent = Ok (db', ids g) /\
     stores cfg (lt_rows db') G /\ same_kids (append (option_map l_pk parent) g F) G) \/
  (exists e, lt_load_bulk cfg next keep_ids db data parent = Err e /\ (e = DataError \/ e = ValueError)).
Proof.
  intros S H1 H2 H3 H4.
  destruct (lt_load_sorted cfg max2 next keep_ids db F data parent g S H1 H2 H3 H4) as [(db' & G & E & S' & _ & Sk)|H]; [left; eauto|right; auto].
Qed.
End LT.

Example C12_lt_example :
  lt_dump_bulk (LTModel.lt_rows PropsLT.ex_db) None true = Ok (dumped true ex_F) /\
  (exists db' l, lt_load_bulk PropsLT.c0 from20 false PropsLT.ex_db (dumped true ex_F) (Some (PropsLT.row PropsLT.ex_db 2)) = Ok (db', l) /\
     l = ids ex_g /\ PropsLT.pks db' = [7; 1; 3; 5; 2; 4; 6; 9; 10; 20; 21; 22; 23; 24; 25; 26; 27; 28]).
Proof.
  split; [vm_compute; reflexivity|]. eexists; eexists; (split; [vm_compute; reflexivity|]); split; vm_compute; reflexivity.
Qed.

(** Loading below node 6 of a tree in descending order. *)
Example C12_lt_sorted_example : exists db' l,
  lt_load_bulk PropsLT.cs (fun n => n) true PropsLT.so_db
    (Cons (mkItem (Some 20) [Some 15%Z]) (Cons (mkItem (Some 21) [Some 7%Z]) Nil (Cons (mkItem (Some 22) [Some 9%Z]) Nil Nil))
      (Cons (mkItem (Some 23) [Some 99%Z]) Nil Nil)) (Some (PropsLT.row PropsLT.so_db 6)) = Ok (db', l) /\
  l = [20; 21; 22; 23] /\ PropsLT.pks db' = [2; 6; 23; 20; 22; 21; 1; 4; 5; 3].
Proof. eexists; eexists; (split; [vm_compute; reflexivity|]); split; vm_compute; reflexivity. Qed.

(** Twenty-seven roots: the last one is labelled AA, which is between A and B. *)
Theorem C12_lt_round_trip_refuted : exists g db', wf_ids g /\
  lt_load_bulk PropsLT.c0 from20 true LTHist.lt_empty (dumped true g) None = Ok (db', ids g) /\
  lt_dump_bulk (LTModel.lt_rows db') None true <> Ok (dumped true g).
Proof.
  exists (fold_right (fun i f => Cons (mkNode i []) Nil f) Nil (seq 1 27)). eexists.
  split; [apply nodup_b; vm_compute; reflexivity|]. split; [vm_compute; reflexivity|]. vm_compute. discriminate.
Qed.

Print Assumptions C12_dump.
Print Assumptions C12_round_trip.
Print Assumptions C12_load_last.
Print Assumptions C12_load_any.
Print Assumptions C13_bulk_create_partial.
Print Assumptions C13_same_partial.
Print Assumptions C13_sorted_refuted.
Print Assumptions C13_wide_refuted.
Print Assumptions C22_dump.
Print Assumptions C22_round_trip.
Print Assumptions C22_load_last.
Print Assumptions C22_load_any.
Print Assumptions C12_al_round_trip.
Print Assumptions C12_al_load.
Print Assumptions C12_lt_load_below.
Print Assumptions C12_lt_load_partial.
Print Assumptions C12_al_dump.
Print Assumptions C12_lt_dump.
Print Assumptions C12_lt_round_trip_refuted.
Print Assumptions C12_missing_id.
Print Assumptions C13_deep_refuted.
Print Assumptions append_means.
