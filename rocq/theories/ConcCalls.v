(** The transactions of ConcModel, alone, do what the calls of the other models do (C65). *)
From Coq Require Import String List Arith Lia Bool ZArith Permutation.
From Verif Require Import Prelude Forest SpecFacts CommonModel Order History ConcModel ConcRun ConcAlone.
From Verif Require SpecRun MPModel MPInv MPHist MPStep MPSignals ConcMP NSModel NSInv NSHist ConcNS ALModel ALInv ALReads ALHist ConcAL
  LTModel LTInv LTHist ConcLT ConcDelAL.
Import ListNotations.
Local Open Scope nat_scope.

Section Order.
Variables R call : Type.
Variable pk : R -> nat.
Variable same : R -> R -> bool.
Variable exec : list R -> call -> res (list R).
Variable start : call -> prog R.
Variable ok : list R -> Prop.
Variable ready : list R -> call -> Prop.
Variable apart : call -> call -> Prop.
Hypothesis same_call : forall t c, ok t -> ready t c -> alone R pk same t (start c) = exec t c.
Hypothesis stays_ok : forall t c t', ok t -> ready t c -> exec t c = Ok t' -> ok t'.
Hypothesis stays_ready : forall t c d t', ok t -> ready t c -> ready t d -> apart c d -> exec t c = Ok t' -> ready t' d.

Lemma one_by_one_same calls : (forall i j c d, i <> j -> nth_error calls i = Some c -> nth_error calls j = Some d -> apart c d) ->
  forall order t, NoDup order -> ok t -> (forall i c, In i order -> nth_error calls i = Some c -> ready t c) ->
  one_by_one (alone R pk same) (map start calls) t order = one_by_one exec calls t order.
Proof.
  intros A. induction order as [|i order IH]; intros t N O Rd; auto.
  apply NoDup_cons_iff in N. destruct N as [Ni N]. cbn [one_by_one]. rewrite nth_error_map.
  destruct (nth_error calls i) as [c|] eqn:E; cbn [option_map].
  - assert (Rc := Rd i c (or_introl eq_refl) E). rewrite (same_call t c O Rc). destruct (exec t c) as [t'|e] eqn:Ex.
    + rewrite IH; auto.
      * eapply stays_ok; eauto.
      * intros j d Hj Ej. assert (i <> j) by (intros ->; auto). apply (stays_ready t c d t'); eauto. apply (Rd j); auto. right. auto.
    + rewrite IH; auto. intros j d Hj. apply Rd. right. auto.
  - apply IH; auto. intros j d Hj. apply Rd. right. auto.
Qed.
End Order.

Definition new_apart (c d : call) : Prop := forall i, In i (new_ids c) -> ~ In i (new_ids d).
Lemma calls_apart l : NoDup (flat_map new_ids l) -> forall i j c d, i <> j -> nth_error l i = Some c -> nth_error l j = Some d -> new_apart c d.
Proof.
  induction l as [|a l IH]; intros N i j c d Nij Hi Hj; [destruct i; discriminate|].
    cbn in N. apply NoDup_app_iff in N. destruct N as (N1 & N2 & N3).
    destruct i as [|i], j as [|j]; cbn in Hi, Hj; [congruence| | |].
    - injection Hi as <-. intros k Hk Hk'. apply (N3 k); auto. apply in_flat_map. exists d. split; auto. eapply nth_error_In; eauto.
    - injection Hj as <-. intros k Hk Hk'. apply (N3 k); auto. apply in_flat_map. exists c. split; auto. eapply nth_error_In; eauto.
    - apply (IH N2 i j); auto.
Qed.

(** ** Materialized paths *)
Section MP.
Import MPModel MPInv MPHist.
Variable cfg : mp_cfg.
Hypothesis radix2 : 2 <= radix cfg.
Hypothesis step1 : 1 <= steplen cfg.
Notation o := (order_by cfg).
Notation alone := (alone mprow m_pk mp_same).

Definition rows (r : res mp_db) : res mp_table := do db <- r; Ok (db_rows db).

Lemma set_same p r : set_row cfg p p r = r.
Proof.
  unfold set_row. destruct (ppre p (m_path r)) eqn:E; auto. rewrite Nat.eqb_refl, (MPSignals.ppre_refl_set _ _ E). destruct r; auto.
Qed.

Lemma set_twice old new t : map (fun y => if ppre old (m_path y) then set_row cfg old new y else y) t = map (set_row cfg old new) t.
Proof. apply map_ext. intros y. destruct (ppre old (m_path y)) eqn:E; auto. unfold set_row. rewrite E. auto. Qed.

Lemma set_pks old new t : map m_pk (map (set_row cfg old new) t) = map m_pk t.
Proof. rewrite map_map. apply map_ext. intros r. unfold set_row. destruct (ppre old (m_path r)); auto. Qed.

Lemma shift_alone c tp l : forall db, move_siblings cfg db None tp l = Err IntegrityError \/
  (exists e, move_siblings cfg db None tp l = Err e /\ alone (db_rows db) (mp_shift cfg l c) = Err e) \/
  exists db', move_siblings cfg db None tp l = Ok (db', None, tp) /\ map m_pk (db_rows db') = map m_pk (db_rows db) /\
    alone (db_rows db) (mp_shift cfg l c) = alone (db_rows db') c.
Proof.
  induction l as [|r l IH]; intros db; cbn [move_siblings mp_shift].
  - right. right. exists db. auto.
  - destruct (inc_path cfg (m_path r)) as [inc|e]; cbn [bind or_raise]; [|right; left; eauto].
    cbn [ConcAlone.alone]. rewrite set_twice. unfold set_newpath. destruct (peq (m_path r) inc) eqn:Ep.
    + apply MPStep.peq_iff in Ep. rewrite <- Ep. cbn [bind]. rewrite (map_ext _ (fun r => r) (set_same _)), map_id.
      match goal with |- context [move_siblings cfg ?d None tp l] => destruct (IH d) as [H|[H|(db' & H1 & H2 & H3)]] end; auto.
      right. right. exists db'. auto.
    + destruct (paths_clash cfg (m_path r) inc (db_rows db)); cbn [bind]; auto.
      match goal with |- context [move_siblings cfg ?d None tp l] => destruct (IH d) as [H|[H|(db' & H1 & H2 & H3)]] end; auto.
      right. right. exists db'. cbn [db_rows] in H2, H3. rewrite set_pks in H2. auto.
Qed.

Lemma save_alone db r : ~ In (m_pk r) (map m_pk (db_rows db)) ->
  save_row db r = Err IntegrityError \/ rows (save_row db r) = alone (db_rows db) (Insert r Commit).
Proof.
  intros N. unfold save_row. destruct (existsb (fun x => peq _ _ && _) (db_rows db)) eqn:E; auto. right.
  assert (Npk : existsb (fun a => m_pk a =? m_pk r) (db_rows db) = false).
  { apply not_true_iff_false. intros Ex. apply existsb_exists in Ex. destruct Ex as (a & Ha & Ea). apply Nat.eqb_eq in Ea.
    apply N. rewrite <- Ea. apply in_map. auto. }
  rewrite Npk. cbn [rows bind db_rows ConcAlone.alone].
  replace (existsb (mp_same r) (db_rows db)) with false; auto. symmetry. apply not_true_iff_false. intros Ex.
  apply existsb_exists in Ex. destruct Ex as (a & Ha & Ea). unfold mp_same in Ea. apply orb_true_iff in Ea. destruct Ea as [Ea|Ea].
  - apply Nat.eqb_eq in Ea. apply N. rewrite Ea. apply in_map. auto.
  - apply not_true_iff_false in E. apply E. apply existsb_exists. exists a. split; auto.
    apply MPStep.peq_iff in Ea. rewrite Ea, (proj2 (MPStep.peq_iff _ _) eq_refl). cbn. apply negb_true_iff, Nat.eqb_neq.
    intros Q. apply N. rewrite <- Q. apply in_map. auto.
Qed.

Lemma upd_nc_eq p g t : map (fun r => if peq (m_path r) p then set_nc r (g (m_nc r)) else r) t = map (upd_nc p g) t.
Proof. reflexivity. Qed.
Lemma upd_nc_pk_eq k g t : map (fun r => if m_pk r =? k then set_nc r (g (m_nc r)) else r) t = map (upd_nc_pk k g) t.
Proof. reflexivity. Qed.
Lemma upd_nc_pks p g t : map m_pk (map (upd_nc p g) t) = map m_pk t.
Proof. rewrite map_map. apply map_ext. intros r. unfold upd_nc. destruct (peq _ _); auto. Qed.
Lemma upd_nc_pk_pks p g t : map m_pk (map (upd_nc_pk p g) t) = map m_pk t.
Proof. rewrite map_map. apply map_ext. intros r. unfold upd_nc_pk. destruct (_ =? _); auto. Qed.

Lemma insert_sibling_alone db x depth np : ~ In (nid x) (map m_pk (db_rows db)) ->
  let r := mp_new x np depth in
  let saved := save_row (match get_basepath cfg np (depth - 1) with [] => db | _ => increment_numchild db (get_basepath cfg np (depth - 1)) end) r in
  saved = Err IntegrityError \/ alone (db_rows db) (mp_insert_sibling cfg x depth np) = rows saved.
Proof.
  intros N r saved. unfold saved, mp_insert_sibling. destruct (get_basepath cfg np (depth - 1)) as [|d p].
  - destruct (save_alone db r) as [H|H]; auto.
  - unfold increment_numchild. destruct (save_alone (mkDB (map (upd_nc (d :: p) S) (db_rows db)) (db_sig db)) r) as [H|H]; auto.
    cbn [db_rows]. rewrite upd_nc_pks. auto.
Qed.

Definition newobj_of (x : node) : newobj := mkNew (nid x) 0 (ndata x).

Lemma sorted_alone db target x : is_sorted cfg = true -> ~ In (nid x) (map m_pk (db_rows db)) ->
  let r := add_sibling cfg db target (Some "sorted-sibling"%string) (newobj_of x) in
  r = Err IntegrityError \/ alone (db_rows db) (mp_add_sorted cfg target x) = do q <- r; Ok (db_rows (fst q)).
Proof.
  intros So N r. unfold r, add_sibling, mp_add_sorted. rewrite So. change (prepare_pos_add true (Some "sorted-sibling"%string)) with (Ok SortedSibling : res pos).
  cbn [bind ConcAlone.alone newobj_of new_data new_pk new_nc].
  destruct (hd_error (sorted_siblings cfg (db_rows db) target (ndata x))) as [first|] eqn:Eh.
  - destruct (get_lastpos cfg (m_path first)) as [n|e] eqn:El; cbn [bind or_raise]; auto.
    cbn [ConcAlone.alone]. unfold reorder. cbn [goes_last bind].
    destruct (collect_movesiblings cfg _ _) as [ms|e] eqn:Ec; cbn [bind or_raise]; auto.
    set (np := get_path cfg (m_path target) (m_depth target) n) in *.
    destruct (shift_alone (mp_insert_sibling cfg x (m_depth target) np) (m_path target) (rev ms) db) as [H|[(e & H1 & H2)|(db' & H1 & H2 & H3)]].
    + rewrite H. auto.
    + right. rewrite H1, H2. auto.
    + rewrite H1. cbn [bind]. rewrite H3.
      destruct (insert_sibling_alone db' x (m_depth target) np) as [H|H]; [rewrite H2; auto| |].
      * left. fold (mp_new x np (m_depth target)). rewrite H. auto.
      * right. rewrite H. unfold rows. fold (mp_new x np (m_depth target)). destruct (save_row _ _); auto.
  - cbn [ConcAlone.alone]. unfold reorder. cbn [goes_last bind].
    destruct (get_last_sibling cfg (db_rows db) target) as [last|]; cbn [opt_res else_raise bind]; auto.
    destruct (inc_path cfg (m_path last)) as [np|e]; cbn [bind or_raise]; auto.
    destruct (insert_sibling_alone db x (m_depth target) np) as [H|H]; auto.
    + left. fold (mp_new x np (m_depth target)). rewrite H. auto.
    + right. rewrite H. unfold rows. fold (mp_new x np (m_depth target)). destruct (save_row _ _); auto.
Qed.

Lemma get_hd (t : mp_table) k : hd_error (filter (fun r => m_pk r =? k) t) = match get_by_pk t k with Ok r => Some r | Err _ => None end.
Proof. unfold get_by_pk. destruct (filter _ t); auto. Qed.

Lemma get_pk t k r : get_by_pk t k = Ok r -> m_pk r = k.
Proof.
  unfold get_by_pk. destruct (filter (fun r => m_pk r =? k) t) as [|a l] eqn:E; [discriminate|]. intros H. injection H as <-.
  assert (Ha : In a (filter (fun r => m_pk r =? k) t)) by (rewrite E; left; auto). apply filter_In in Ha. apply Nat.eqb_eq, Ha.
Qed.

(** The calls that have a transaction in ConcModel. *)
Definition mp_prog (c : call) : option (prog mprow) :=
  match c with
  | CAddRoot x => Some (mp_add_root cfg x)
  | CAddChild k x => Some (mp_add_child cfg k x)
  | CDelete l => Some (mp_delete cfg l)
  | _ => None
  end.

Lemma exec_alone db c p : mp_prog c = Some p -> (forall i, In i (new_ids c) -> ~ In i (map m_pk (db_rows db))) ->
  mp_exec cfg db c = Err IntegrityError \/ alone (db_rows db) p = rows (mp_exec cfg db c).
Proof.
  intros Ep N. destruct c as [x|k x| | |l]; cbn [mp_prog] in Ep; try discriminate; injection Ep as <-; cbn [mp_exec].
  - (* add_root *)
    assert (Nx : ~ In (nid x) (map m_pk (db_rows db))) by (apply N; left; auto).
    unfold add_root, mp_add_root. cbn [ConcAlone.alone]. destruct (get_last_root_node (db_rows db)) as [last|].
    + destruct (is_sorted cfg) eqn:So.
      * destruct (sorted_alone db last x So Nx) as [H|H]; fold (newobj_of x); [rewrite H; auto|]. right. rewrite H.
        unfold rows. destruct (add_sibling _ _ _ _ _) as [[db' r]|e]; auto.
      * destruct (inc_path cfg (m_path last)) as [np|e]; cbn [bind or_raise]; auto. cbn [new_pk new_nc new_data].
        destruct (save_alone db (mp_new x np 1)) as [H|H]; auto; unfold mp_new in *; [rewrite H; auto|]. right. rewrite <- H. unfold rows.
        destruct (save_row _ _); auto.
    + cbn [new_pk new_nc new_data].
      destruct (save_alone db (mp_new x (get_path cfg [] 1 1) 1)) as [H|H]; auto; unfold mp_new in *; [rewrite H; auto|].
      right. rewrite <- H. unfold rows. destruct (save_row _ _); auto.
  - (* add_child *)
    assert (Nx : ~ In (nid x) (map m_pk (db_rows db))) by (apply N; left; auto).
    unfold mp_add_child. cbn [ConcAlone.alone]. rewrite get_hd.
    destruct (get_by_pk (db_rows db) k) as [nd|e] eqn:Eg; cbn [bind else_raise].
    2:{ right. unfold get_by_pk in Eg. destruct (filter _ _); [injection Eg as <-|discriminate]. auto. }
    assert (Ek := get_pk _ _ _ Eg). unfold add_child. rewrite Ek, Eg. cbn [bind].
    destruct (is_sorted cfg && negb (is_leaf nd)) eqn:Es.
    + apply andb_true_iff in Es. destruct Es as [So _]. cbn [ConcAlone.alone].
      destruct (get_last_child cfg (db_rows db) nd) as [last|]; cbn [opt_res else_raise bind]; auto.
      destruct (sorted_alone db last x So Nx) as [H|H]; fold (newobj_of x); [rewrite H; auto|]. right. rewrite H.
      unfold rows. destruct (add_sibling _ _ _ _ _) as [[db' r]|e]; auto.
    + assert (I : forall np, let s := save_row (mkDB (map (upd_nc_pk k S) (db_rows db)) (db_sig db)) (mp_new x np (m_depth nd + 1)) in
        s = Err IntegrityError \/ alone (db_rows db) (mp_insert_child k x (m_depth nd + 1) np) = rows s).
      { intros np s. unfold s. destruct (save_alone (mkDB (map (upd_nc_pk k S) (db_rows db)) (db_sig db)) (mp_new x np (m_depth nd + 1))) as [H|H]; auto.
        cbn [db_rows]. rewrite upd_nc_pk_pks. auto. }
      rewrite Ek. cbn [new_pk new_nc new_data]. destruct (is_leaf nd) eqn:Ef.
      * destruct (maxlen cfg <? _) eqn:Em; cbn [bind]; auto.
        destruct (I (get_path cfg (m_path nd) (m_depth nd + 1) 1)) as [H|H]; unfold mp_new in *.
        -- rewrite H. auto.
        -- right. rewrite H. unfold rows. destruct (save_row _ _); auto.
      * cbn [ConcAlone.alone]. destruct (get_last_child cfg (db_rows db) nd) as [last|]; cbn [opt_res else_raise bind]; auto.
        destruct (inc_path cfg (m_path last)) as [np|e]; cbn [bind or_raise]; auto.
        destruct (I np) as [H|H]; unfold mp_new in *.
        -- rewrite H. auto.
        -- right. rewrite H. unfold rows. destruct (save_row _ _); auto.
  - (* delete *)
    right. unfold mp_delete. cbn [ConcAlone.alone rows bind db_rows]. unfold delete_queryset, delete_statements. cbv zeta.
    set (removed := minimal_removed _ _ _). generalize (db_rows db) as t. generalize (parents_of_removed cfg removed) as ps.
    induction ps as [|p ps IH]; intros t; auto.
    cbn [map mp_decrease ConcAlone.alone app]. rewrite (upd_nc_eq p (fun n => n - lost_children cfg removed p)), IH. auto.
Qed.

Lemma no_clash db F c : stores cfg (db_rows db) F -> ordered o F -> (o <> [] -> call_values o c) -> fresh_call F c ->
  mp_prog c <> None -> mp_exec cfg db c <> Err IntegrityError.
Proof.
  intros St O V Fr Np E.
  destruct (mp_call_ok cfg radix2 step1 db F c (conj St O) V Fr) as [A|(E' & _)].
  - destruct c; auto; cbn in Np; congruence.
  - rewrite E in A. unfold agree in A. destruct c as [x|k x| | |l]; cbn [sp_exec mp_prog] in *; try congruence.
    destruct (has k F); congruence.
  - congruence.
Qed.

Definition tx_of (c : call) : prog mprow := match mp_prog c with Some p => p | None => Commit end.
Definition table_exec (t : mp_table) (c : call) : res mp_table := do db <- mp_exec cfg (mkDB t []) c; Ok (db_rows db).
Definition mp_ok (t : mp_table) : Prop := exists F, stores cfg t F /\ ordered o F.
Definition mp_ready (t : mp_table) (c : call) : Prop :=
  mp_prog c <> None /\ (o <> [] -> call_values o c) /\ forall i, In i (new_ids c) -> ~ In i (map m_pk t).

Lemma mp_fresh t F c : stores cfg t F -> mp_ready t c -> fresh_call F c.
Proof. intros St (_ & _ & N) i Hi H. apply (N i Hi). apply (ConcMP.ids_iff cfg t F i St). auto. Qed.

Lemma mp_same_call t c : mp_ok t -> mp_ready t c -> alone t (tx_of c) = table_exec t c.
Proof.
  intros (F & St & O) Rd. assert (Fr := mp_fresh t F c St Rd). destruct Rd as (P & V & N). unfold tx_of.
  destruct (mp_prog c) as [p|] eqn:Ep; [|congruence].
  destruct (exec_alone (mkDB t []) c p Ep N) as [H|H]; [|exact H].
  exfalso. apply (no_clash (mkDB t []) F c); auto. congruence.
Qed.

Lemma mp_result t F c t' : stores cfg t F -> ordered o F -> mp_ready t c -> table_exec t c = Ok t' ->
  stores cfg t' (sp_call o F c) /\ ordered o (sp_call o F c).
Proof.
  intros St O Rd E. assert (Fr := mp_fresh t F c St Rd). destruct Rd as (P & V & N). unfold table_exec in E.
  destruct (mp_call_ok cfg radix2 step1 (mkDB t []) F c (conj St O) V Fr) as [A|(E' & _)].
  - destruct c; auto; cbn in P; congruence.
  - destruct (mp_exec cfg (mkDB t []) c) as [db'|]; [|discriminate]. cbn [bind] in E. injection E as <-.
    destruct (sp_exec o F c) as [G|] eqn:Eg; [|destruct A]. apply sp_exec_ok in Eg. subst G. exact A.
  - rewrite E' in E. discriminate.
Qed.

Lemma mp_stays_ok t c t' : mp_ok t -> mp_ready t c -> table_exec t c = Ok t' -> mp_ok t'.
Proof. intros (F & St & O) Rd E. exists (sp_call o F c). eapply mp_result; eauto. Qed.

Lemma mp_stays_ready t c d t' : mp_ok t -> mp_ready t c -> mp_ready t d -> new_apart c d -> table_exec t c = Ok t' -> mp_ready t' d.
Proof.
  intros (F & St & O) Rc Rd A E. destruct (mp_result t F c t' St O Rc E) as [St' _].
  destruct Rd as (P & V & N). split; auto. split; auto. intros i Hi H.
  apply (ConcMP.ids_iff cfg t' _ i St') in H. apply sp_call_ids in H. destruct H as [H|H].
  - apply (N i Hi). apply (ConcMP.ids_iff cfg t F i St). auto.
  - apply (A i H Hi).
Qed.

Lemma keyed_shift l c : keyed mprow m_pk c -> keyed mprow m_pk (mp_shift cfg l c).
Proof.
  intros K. induction l as [|r l IH]; cbn [mp_shift]; auto. destruct (inc_path _ _); cbn; auto. split; auto.
  intros y _. unfold set_row. destruct (ppre _ _); auto.
Qed.
Lemma keyed_insert_sibling x d np : keyed mprow m_pk (mp_insert_sibling cfg x d np).
Proof. unfold mp_insert_sibling. destruct (get_basepath _ _ _); cbn; auto. Qed.
Lemma keyed_sorted target x : keyed mprow m_pk (mp_add_sorted cfg target x).
Proof.
  cbn. intros t. destruct (hd_error _).
  - destruct (get_lastpos _ _); cbn; auto. intros t'. destruct (collect_movesiblings _ _ _); cbn [or_raise keyed]; auto.
    apply keyed_shift, keyed_insert_sibling.
  - cbn. intros t'. destruct (get_last_sibling _ _ _); cbn [else_raise keyed]; auto. destruct (inc_path _ _); cbn [or_raise keyed]; auto.
    apply keyed_insert_sibling.
Qed.
Lemma mp_keyed c : keyed mprow m_pk (tx_of c).
Proof.
  unfold tx_of. destruct c as [x|k x| | |l]; cbn [mp_prog]; try exact Logic.I.
  - unfold mp_add_root. cbn. intros t. destruct (get_last_root_node t); [|exact Logic.I].
    destruct (is_sorted cfg); [apply keyed_sorted|]. destruct (inc_path _ _); exact Logic.I.
  - unfold mp_add_child. cbn [keyed]. intros [nd|]; cbn [else_raise]; [|exact Logic.I].
    destruct (is_sorted cfg && _).
    + cbn [keyed]. intros t. destruct (get_last_child _ _ _); [apply keyed_sorted|exact Logic.I].
    + destruct (is_leaf nd).
      * destruct (maxlen cfg <? _); [exact Logic.I|]. cbn. auto.
      * cbn [keyed]. intros t. destruct (get_last_child _ _ _); cbn [else_raise]; [|exact Logic.I].
        destruct (inc_path _ _); cbn; auto.
  - unfold mp_delete. cbn [keyed]. intros t. set (removed := minimal_removed _ _ _). generalize (parents_of_removed cfg removed) as ps.
    induction ps as [|p ps IH]; cbn; auto.
Qed.
Lemma mp_same_pk a b : m_pk a = m_pk b -> mp_same a b = true.
Proof. intros E. unfold mp_same. rewrite E, Nat.eqb_refl. auto. Qed.

Theorem mp_serial t F calls order : stores cfg t F -> ordered o F -> (o <> [] -> Forall (call_values o) calls) ->
  Forall (fun c => mp_prog c <> None) calls ->
  NoDup (flat_map new_ids calls) -> (forall i, In i (flat_map new_ids calls) -> ~ In i (ids F)) ->
  NoDup order -> (forall i, In i order -> i < length calls) ->
  exists schedule, let W := play m_pk mp_same (all_begin t (map tx_of calls)) schedule in
    (w_rows W, w_log W) = one_by_one table_exec calls t order /\
    forall i, i < length calls -> nth_error (w_txs W) i = Some None <-> In i order.
Proof.
  intros St O V P N Fr No Hl.
  rewrite <- (one_by_one_same mprow call m_pk mp_same table_exec tx_of mp_ok mp_ready new_apart mp_same_call mp_stays_ok mp_stays_ready calls (calls_apart calls N) order t No).
  - destruct (serial_begin mprow m_pk mp_same mp_same_pk t (map tx_of calls) order) as (s & Hs); auto.
    + apply Forall_forall. intros p Hp. apply in_map_iff in Hp. destruct Hp as (c & <- & _). apply mp_keyed.
    + apply (ConcMP.pks_nodup cfg t F St).
    + rewrite map_length. auto.
    + exists s. rewrite map_length in Hs. exact Hs.
  - exists F. auto.
  - intros i c Hi Hc. apply nth_error_In in Hc. split; [|split].
    + rewrite Forall_forall in P. apply P. auto.
    + intros No'. specialize (V No'). rewrite Forall_forall in V. apply V. auto.
    + intros k Hk H. apply (Fr k); [apply in_flat_map; eauto|]. apply (ConcMP.ids_iff cfg t F k St). auto.
Qed.
End MP.

(** ** Nested sets without node_order_by *)
Section NS.
Import NSModel NSInv NSHist.
Notation alone := (alone nsrow n_pk ns_same).

Definition ns_prog (c : call) : option (prog nsrow) :=
  match c with CAddRoot x => Some (ns_add_root x) | CAddChild k x => Some (ns_add_child k x) | CDelete l => Some (ns_delete l) | _ => None end.
Definition ns_tx_of (c : call) : prog nsrow := match ns_prog c with Some p => p | None => Commit end.
Definition ns_call_exec (t : ns_table) (c : call) : res ns_table := do db <- ns_exec [] (mkNSDB t []) c; Ok (ns_rows db).
Definition ns_ok (t : ns_table) : Prop := exists F, stores t F.
Definition ns_ready (t : ns_table) (c : call) : Prop := ns_prog c <> None /\ forall i, In i (new_ids c) -> ~ In i (map n_pk t).

Lemma ns_unused t (r : nsrow) : ~ In (n_pk r) (map n_pk t) -> existsb (ns_same r) t = false.
Proof.
  intros N. apply not_true_iff_false. intros E. apply existsb_exists in E. destruct E as (a & Ha & E).
  apply Nat.eqb_eq in E. apply N. rewrite E. apply in_map. auto.
Qed.

Lemma gaps_alone l : forall db, alone (ns_rows db) (ns_close_gaps l) =
  Ok (ns_rows (fold_left (fun d x => let '(tree, lft, rgt) := x in close_gap d lft rgt tree) l db)).
Proof.
  induction l as [|[[tree lft] rgt] l IH]; intros db; auto. cbn [ns_close_gaps fold_left ConcAlone.alone]. rewrite <- IH. reflexivity.
Qed.

Lemma delete_alone t l : alone t (ns_delete l) = Ok (ns_rows (delete_queryset (mkNSDB t []) (fun r => existsb (Nat.eqb (n_pk r)) l))).
Proof.
  unfold ns_delete, delete_queryset. cbn [ConcAlone.alone ns_rows]. destruct (delete_ranges _ _) as [|a rs]; auto.
  cbn [ConcAlone.alone].
  apply (gaps_alone (sort_ranges (a :: rs)) (mkNSDB (filter (fun r => negb (existsb (in_del_range r) (a :: rs))) t) ([] ++ [NodesDeleted (a :: rs)]))).
Qed.

Lemma ns_same_call t c : ns_ok t -> ns_ready t c -> alone t (ns_tx_of c) = ns_call_exec t c.
Proof.
  intros Ok_ (P & N). destruct Ok_ as [F St]. unfold ns_tx_of, ns_call_exec. destruct c as [x|k x| | |l]; cbn [ns_prog] in *; try congruence;
    [| |apply delete_alone].
  - assert (Nx : ~ In (nid x) (map n_pk t)) by (apply N; left; auto). cbn [ns_exec ns_add_root ConcAlone.alone]. unfold add_root. cbn [ns_rows].
    assert (Sv : forall r, n_pk r = nid x -> ns_rows (save_row (mkNSDB t []) r) = r :: t).
    { intros r Er. unfold save_row. cbn [ns_rows]. replace (existsb _ t) with false; auto. symmetry. apply not_true_iff_false.
      intros Ex. apply existsb_exists in Ex. destruct Ex as (a & Ha & Ea). apply Nat.eqb_eq in Ea. apply Nx. rewrite <- Er, <- Ea. apply in_map. auto. }
    rewrite ns_unused by auto. destruct (get_last_root_node t) as [last|]; cbn [is_sorted bind fst]; rewrite Sv; auto.
  - assert (Nx : ~ In (nid x) (map n_pk t)) by (apply N; left; auto).
    destruct (get_pk_cases t F k St) as [(E & _)|(nd & E & Hn & Ek & _)].
    + cbn [ns_exec ns_rows]. rewrite E. unfold ns_add_child. cbn [ConcAlone.alone].
      unfold get_by_pk in E. destruct (filter _ t); [auto|discriminate].
    + assert (Hok : ConcNS.ok t) by (exists F; auto).
      destruct (ConcNS.exec_eq t nd x Hok Hn Nx) as (r & Er & Ex). unfold ConcNS.ns_table_exec in Ex. cbn [fst snd] in Ex. rewrite Ek in Ex. rewrite Ex.
      unfold ns_add_child. cbn [ConcAlone.alone].
      unfold get_by_pk in E. destruct (filter _ t) as [|a l]; [discriminate|]. injection E as ->. cbn [hd_error else_raise].
      assert (Ep : n_pk r = nid x) by (destruct (ConcNS.newrow_some t nd x Hok Hn) as (r' & E' & Ep & _); congruence).
      assert (U : existsb (ns_same r) (ConcNS.shifted nd t) = false) by (apply ns_unused; rewrite ConcNS.shifted_pks, Ep; auto).
      unfold ConcNS.newrow in Er. destruct (is_leaf nd); cbn [ConcAlone.alone].
      * injection Er as <-. fold (ConcNS.shifted nd t). unfold ConcNS.shifted, ConcNS.sel, ConcNS.shift in *. rewrite U. auto.
      * destruct (get_last_child t nd) as [last|]; [|discriminate]. injection Er as <-. cbn [else_raise ConcAlone.alone].
        unfold ConcNS.shifted, ConcNS.sel, ConcNS.shift in *. rewrite U. auto.
Qed.

Lemma ns_result t F c t' : stores t F -> ns_ready t c -> ns_call_exec t c = Ok t' -> stores t' (sp_call [] F c).
Proof.
  intros St (P & N) E. unfold ns_call_exec in E.
  assert (Fr : fresh_call F c) by (intros i Hi H; apply (N i Hi); apply (ConcNS.ids_iff t F i St); auto).
  assert (A := ns_call_ok [] (mkNSDB t []) F c St Fr). unfold agree, ns_rel in A.
  destruct (ns_exec [] (mkNSDB t []) c) as [db|]; [|discriminate]. injection E as <-.
  destruct (sp_exec [] F c) as [G|] eqn:Eg; [|destruct A]. apply sp_exec_ok in Eg. subst G. auto.
Qed.

Lemma ns_stays_ok t c t' : ns_ok t -> ns_ready t c -> ns_call_exec t c = Ok t' -> ns_ok t'.
Proof. intros [F St] Rd E. exists (sp_call [] F c). eapply ns_result; eauto. Qed.

Lemma ns_stays_ready t c d t' : ns_ok t -> ns_ready t c -> ns_ready t d -> new_apart c d -> ns_call_exec t c = Ok t' -> ns_ready t' d.
Proof.
  intros [F St] Rc [P N] A E. assert (St' := ns_result t F c t' St Rc E). split; auto. intros i Hi H.
  apply (ConcNS.ids_iff t' _ i St') in H. apply sp_call_ids in H. destruct H as [H|H].
  - apply (N i Hi). apply (ConcNS.ids_iff t F i St). auto.
  - apply (A i H Hi).
Qed.

Lemma ns_keyed c : keyed nsrow n_pk (ns_tx_of c).
Proof.
  unfold ns_tx_of. destruct c as [x|k x| | |l]; cbn [ns_prog]; try exact Logic.I.
  - cbn. auto.
  - cbn [ns_add_child keyed]. intros [nd|]; cbn [else_raise]; [|exact Logic.I]. destruct (is_leaf nd).
    + cbn. auto.
    + cbn [keyed]. intros t. destruct (get_last_child t nd); cbn; auto.
  - cbn [ns_delete keyed]. intros t. destruct (delete_ranges _ _) as [|a rs]; [exact Logic.I|]. cbn [keyed].
    generalize (sort_ranges (a :: rs)). intros l'. induction l' as [|[[tree lft] rgt] l' IH]; cbn; auto.
Qed.
Lemma ns_same_pk a b : n_pk a = n_pk b -> ns_same a b = true.
Proof. intros E. unfold ns_same. rewrite E, Nat.eqb_refl. auto. Qed.

Theorem ns_serial t F calls order : stores t F -> Forall (fun c => ns_prog c <> None) calls ->
  NoDup (flat_map new_ids calls) -> (forall i, In i (flat_map new_ids calls) -> ~ In i (ids F)) ->
  NoDup order -> (forall i, In i order -> i < length calls) ->
  exists schedule, let W := play n_pk ns_same (all_begin t (map ns_tx_of calls)) schedule in
    (w_rows W, w_log W) = one_by_one ns_call_exec calls t order /\
    forall i, i < length calls -> nth_error (w_txs W) i = Some None <-> In i order.
Proof.
  intros St P N Fr No Hl.
  rewrite <- (one_by_one_same nsrow call n_pk ns_same ns_call_exec ns_tx_of ns_ok ns_ready new_apart ns_same_call ns_stays_ok ns_stays_ready calls (calls_apart calls N) order t No).
  - destruct (serial_begin nsrow n_pk ns_same ns_same_pk t (map ns_tx_of calls) order) as (s & Hs); auto.
    + apply Forall_forall. intros p Hp. apply in_map_iff in Hp. destruct Hp as (c & <- & _). apply ns_keyed.
    + apply ConcNS.nodup. exists F. auto.
    + rewrite map_length. auto.
    + exists s. rewrite map_length in Hs. exact Hs.
  - exists F. auto.
  - intros i c Hi Hc. apply nth_error_In in Hc. split.
    + rewrite Forall_forall in P. apply P. auto.
    + intros k Hk H. apply (Fr k); [apply in_flat_map; eauto|]. apply (ConcNS.ids_iff t F k St). auto.
Qed.
End NS.

(** ** Adjacency lists *)
Section AL.
Import ALModel ALInv ALReads ALHist.
Variable o : ordering.
Notation alone := (alone alrow a_pk al_same).

(** Moves are those to sorted-child with node_order_by. *)
Definition al_prog (c : call) : option (prog alrow) :=
  match c with
  | CAddChild k x => Some (al_add_child o k x)
  | CMove n q (Some s) => if is_sorted o && String.eqb s "sorted-child" then Some (al_move_sorted o n q) else None
  | _ => None
  end.
Definition al_tx_of (c : call) : prog alrow := match al_prog c with Some p => p | None => Commit end.
Definition al_ok (t : al_table) : Prop := exists F, stores o t F.
Definition al_ready (t : al_table) (c : call) : Prop := al_prog c <> None /\ (o <> [] -> call_values o c) /\
  (forall i, In i (new_ids c) -> ~ In i (map a_pk t)) /\
  match c with CAddChild k _ => In k (map a_pk t) | _ => True end.

Lemma al_get t k r : get_by_pk t k = Ok r -> a_pk r = k /\ In r t.
Proof.
  unfold get_by_pk. destruct (filter (fun r => a_pk r =? k) t) as [|a l] eqn:E; [discriminate|]. intros H. injection H as <-.
  assert (Ha : In a (filter (fun r => a_pk r =? k) t)) by (rewrite E; left; auto). apply filter_In in Ha. destruct Ha as [H1 H2].
  apply Nat.eqb_eq in H2. auto.
Qed.

Lemma al_same_call t c : al_ok t -> al_ready t c -> alone t (al_tx_of c) = al_exec o t c.
Proof.
  intros [F St] (P & V & N & K). unfold al_tx_of. destruct c as [|k x| |n q [s|]|]; cbn [al_prog] in *; try congruence.
  - assert (Rd : ConcAL.ready t (k, x)) by (split; [exact K|apply N; left; auto]).
    assert (E := ConcAL.exec_eq o t (k, x) Rd). unfold ConcAL.al_table_exec in E. cbn [fst snd] in E. rewrite E.
    assert (U : existsb (al_same (ConcAL.newrow o t (k, x))) t = false) by (apply ConcAL.unused, Rd).
    unfold al_add_child. unfold ConcAL.newrow, is_sorted in *. cbn [fst snd] in *. destruct o; cbn [ConcAlone.alone]; rewrite U; auto.
  - destruct (is_sorted o && String.eqb s "sorted-child") eqn:Es; [|congruence]. apply andb_true_iff in Es. destruct Es as [So Es].
    apply String.eqb_eq in Es. subst s. unfold al_move_sorted. cbn [ConcAlone.alone al_exec].
    destruct (get_by_pk t n) as [node|e] eqn:En; cbn [or_raise bind]; auto.
    destruct (get_by_pk t q) as [target|e] eqn:Eq; cbn [or_raise bind]; auto.
    unfold move. rewrite So. change (prepare_pos_move true (Some "sorted-child"%string)) with (Ok SortedChild : res pos). cbn [bind].
    cbn [ConcAlone.alone fresh o_row].
    destruct (move_target o t node target SortedChild) as [[[[tg parent] p'] so]|e] eqn:Em; cbn [or_raise bind ConcAlone.alone]; auto.
    destruct (al_get _ _ _ En) as [Kn Hn].
    assert (Ep : p' = SortedSibling).
    { unfold move_target in Em. destruct (_ =? _); [discriminate|]. destruct (negb _).
      - destruct (get_last_child _ _ _); [|discriminate]. injection Em as <- <- <- <-. auto.
      - injection Em as <- <- <- <-. auto. }
    subst p'.
    destruct (is_descendant_of o t tg (fresh node)) as [d|e] eqn:Ed; cbn [or_raise bind ConcAlone.alone]; auto.
    destruct d; cbn [ConcAlone.alone bind]; auto.
    assert (G : exists d nd', get_depth t (fresh node) false = Ok (d, nd') /\ o_row nd' = node).
    { revert Ed. clear. unfold is_descendant_of, get_descendants, get_tree.
      destruct (get_depth t (fresh node) false) as [[d' nd']|e] eqn:E; cbn [bind]; [|discriminate]. intros _. exists d', nd'. split; auto.
      unfold get_depth, fresh in E. cbn [o_row o_depth] in E. destruct (a_parent node).
      - destruct (count_depth t node); [|discriminate]. cbn [bind] in E. injection E as <- <-. auto.
      - injection E as <- <-. auto. }
    destruct G as (d & nd' & -> & Eo). cbn [bind]. unfold move_is_noop. rewrite andb_false_r, Eo. cbn [bind fst].
    unfold save_row. cbn [a_pk]. rewrite Kn.
    replace (existsb (fun y => a_pk y =? n) t) with true; auto.
    symmetry. apply existsb_exists. exists node. split; auto. apply Nat.eqb_eq. auto.
Qed.

Lemma al_fresh t F c : stores o t F -> al_ready t c -> fresh_call F c.
Proof. intros St (_ & _ & N & _) i Hi H. apply (N i Hi). apply (ConcAL.ids_iff o t F i St). auto. Qed.

Lemma al_result t F c t' : stores o t F -> al_ready t c -> al_exec o t c = Ok t' ->
  stores o t' (sp_call o F c) /\ sp_exec o F c = Ok (sp_call o F c).
Proof.
  intros St Rd E. assert (A := al_call_ok o t F c St (al_fresh t F c St Rd) (proj1 (proj2 Rd))). unfold agree in A. rewrite E in A.
  destruct (sp_exec o F c) as [G|] eqn:Eg; [|destruct A]. assert (H := sp_exec_ok _ _ _ _ Eg). subst G. auto.
Qed.

Lemma al_stays_ok t c t' : al_ok t -> al_ready t c -> al_exec o t c = Ok t' -> al_ok t'.
Proof. intros [F St] Rd E. exists (sp_call o F c). eapply al_result; eauto. Qed.

Lemma al_stays_ready t c d t' : al_ok t -> al_ready t c -> al_ready t d -> new_apart c d -> al_exec o t c = Ok t' -> al_ready t' d.
Proof.
  intros [F St] Rc (P & V & N & K) A E. destruct (al_result t F c t' St Rc E) as [St' Eg].
  split; auto. split; auto. split.
  - intros i Hi H. apply (ConcAL.ids_iff o t' _ i St') in H. apply sp_call_ids in H. destruct H as [H|H].
    + apply (N i Hi). apply (ConcAL.ids_iff o t F i St). auto.
    + apply (A i H Hi).
  - destruct d as [|k y| | |]; auto. apply (ConcAL.ids_iff o t' _ k St'). apply (ConcAL.ids_iff o t F k St) in K.
    assert (W : wf_ids F) by apply St.
    destruct (SpecRun.sp_exec_ids o F c _ W (al_fresh t F c St Rc) Eg) as [_ Hp].
    destruct Rc as (Pc & _). destruct c as [|kc xc| |n q s|l]; cbn [al_prog] in Pc; try congruence.
    + apply (Permutation_in _ (Permutation_sym Hp)). apply in_app_iff. auto.
    + apply (Permutation_in _ (Permutation_sym Hp)). apply in_app_iff. auto.
Qed.

Lemma al_keyed c : keyed alrow a_pk (al_tx_of c).
Proof.
  unfold al_tx_of. destruct c as [|k x| |n q [s|]|]; cbn [al_prog]; try exact Logic.I.
  - unfold al_add_child. destruct o; cbn; auto.
  - destruct (_ && _); [|exact Logic.I]. unfold al_move_sorted. cbn [keyed]. intros t.
    destruct (get_by_pk t n) as [node|]; cbn [or_raise keyed]; auto. destruct (get_by_pk t q) as [target|]; cbn [or_raise keyed]; auto.
    intros t1. destruct (move_target o t1 node target SortedChild) as [[[[tg parent] p'] so]|]; cbn [or_raise keyed]; auto.
    intros t2. destruct (is_descendant_of o t2 tg (fresh node)) as [[|]|]; cbn [or_raise keyed]; auto.
    split; auto. intros r Hr. apply Nat.eqb_eq in Hr. auto.
Qed.
Lemma al_same_pk a b : a_pk a = a_pk b -> al_same a b = true.
Proof. intros E. unfold al_same. rewrite E, Nat.eqb_refl. auto. Qed.

Theorem al_serial t F calls order : stores o t F -> Forall (fun c => al_prog c <> None) calls ->
  (o <> [] -> Forall (call_values o) calls) -> (forall k x, In (CAddChild k x) calls -> In k (ids F)) ->
  NoDup (flat_map new_ids calls) -> (forall i, In i (flat_map new_ids calls) -> ~ In i (ids F)) ->
  NoDup order -> (forall i, In i order -> i < length calls) ->
  exists schedule, let W := play a_pk al_same (all_begin t (map al_tx_of calls)) schedule in
    (w_rows W, w_log W) = one_by_one (al_exec o) calls t order /\
    forall i, i < length calls -> nth_error (w_txs W) i = Some None <-> In i order.
Proof.
  intros St P V Pa N Fr No Hl.
  rewrite <- (one_by_one_same alrow call a_pk al_same (al_exec o) al_tx_of al_ok al_ready new_apart al_same_call al_stays_ok al_stays_ready calls (calls_apart calls N) order t No).
  - destruct (serial_begin alrow a_pk al_same al_same_pk t (map al_tx_of calls) order) as (s & Hs); auto.
    + apply Forall_forall. intros p Hp. apply in_map_iff in Hp. destruct Hp as (c & <- & _). apply al_keyed.
    + assert (St' := St). destruct St' as (W & _ & so & Fit & _). apply (Permutation_NoDup (Permutation_sym (perm_pks so t F W Fit))). exact W.
    + rewrite map_length. auto.
    + exists s. rewrite map_length in Hs. exact Hs.
  - exists F. auto.
  - intros i c Hi Hc. apply nth_error_In in Hc. split; [|split; [|split]].
    + rewrite Forall_forall in P. apply P. auto.
    + intros No'. specialize (V No'). rewrite Forall_forall in V. apply V. auto.
    + intros k Hk H. apply (Fr k); [apply in_flat_map; eauto|]. apply (ConcAL.ids_iff o t F k St). auto.
    + destruct c; auto. apply (ConcAL.ids_iff o t F _ St). eauto.
Qed.
End AL.

(** ** Ltree without node_order_by *)
Section LT.
Import LTModel LTInv LTHist.
Variable cfg : lt_cfg.
Hypothesis unsorted : lt_order cfg = [].
Hypothesis label2 : 2 <= label_max cfg.
Notation alone := (alone ltrow l_pk lt_same).

Definition lt_prog (c : call) : option (prog ltrow) :=
  match c with CAddChild k x => Some (lt_add_child cfg k x) | CDelete l => Some (lt_delete l) | _ => None end.
Definition lt_tx_of (c : call) : prog ltrow := match lt_prog c with Some p => p | None => Commit end.
Definition lt_call_exec (t : lt_table) (c : call) : res lt_table := do db <- lt_exec cfg (mkLTDB t []) c; Ok (lt_rows db).
Definition lt_ok (t : lt_table) : Prop := exists F, stores cfg t F.
Definition lt_ready (t : lt_table) (c : call) : Prop := lt_prog c <> None /\ forall i, In i (new_ids c) -> ~ In i (map l_pk t).

Lemma lt_delete_alone t l : alone t (lt_delete l) = lt_call_exec t (CDelete l).
Proof.
  unfold lt_delete, lt_call_exec. cbn [ConcAlone.alone lt_exec bind]. unfold delete_queryset. cbn [lt_rows].
  destruct (paths_to_remove _ []); reflexivity.
Qed.

Lemma lt_same_call t c : lt_ok t -> lt_ready t c -> alone t (lt_tx_of c) = lt_call_exec t c.
Proof.
  intros [F St] (P & N). unfold lt_tx_of. destruct c as [|k x| | |l]; cbn [lt_prog] in *; try congruence; [|apply lt_delete_alone].
  assert (Rd : ConcLT.ready t (k, x)) by (apply N; left; auto).
  assert (Ex := ConcLT.exec_eq cfg unsorted t k x (ConcLT.stores_ok cfg t F St) Rd). unfold ConcLT.lt_table_exec in Ex. cbn [fst snd] in Ex.
  unfold lt_call_exec. rewrite Ex. clear Ex.
  unfold lt_add_child. cbn [ConcAlone.alone]. destruct (filter (fun r => l_pk r =? k) t) as [|nd l]; auto.
  cbn [hd_error else_raise ConcAlone.alone]. unfold ConcLT.newpath.
  assert (I : forall r, alone t (or_raise r (lt_insert cfg x)) =
    do np <- (do np <- r; if fits_ltree cfg np then Ok np else Err DataError);
    if existsb (lt_same (ConcLT.newrow x np)) t then Err IntegrityError else Ok (ConcLT.newrow x np :: t)).
  { intros [np|e]; auto. cbn [or_raise bind]. unfold lt_insert. destruct (fits_ltree cfg np); auto. }
  destruct (is_leaf t nd).
  - rewrite I. auto.
  - cbn [ConcAlone.alone]. destruct (get_last_child t nd) as [last|]; cbn [else_raise opt_res bind ConcAlone.alone]; auto.
Qed.

Lemma lt_result t F c t' : stores cfg t F -> lt_ready t c -> lt_call_exec t c = Ok t' -> stores cfg t' (sp_call [] F c).
Proof.
  intros St (P & N) E. destruct c as [|k x| | |l]; cbn [lt_prog] in P; try congruence.
  - exact (ConcLT.exec_stores cfg unsorted label2 t F k x t' St (N _ (or_introl eq_refl)) E).
  - unfold lt_call_exec in E. fold (ConcDelAL.lt_del_exec cfg t l) in E. rewrite (ConcDelAL.lt_del_rows cfg t F l St) in E. injection E as <-.
    apply (ConcDelAL.lt_left cfg t F l St).
Qed.

Lemma lt_stays_ok t c t' : lt_ok t -> lt_ready t c -> lt_call_exec t c = Ok t' -> lt_ok t'.
Proof. intros [F St] Rd E. exists (sp_call [] F c). eapply lt_result; eauto. Qed.

Lemma lt_stays_ready t c d t' : lt_ok t -> lt_ready t c -> lt_ready t d -> new_apart c d ->
  lt_call_exec t c = Ok t' -> lt_ready t' d.
Proof.
  intros [F St] Rc [P N] A E. assert (St' := lt_result t F c t' St Rc E). split; auto. intros i Hi H.
  apply (ConcLT.ids_iff cfg t' _ i St') in H. apply sp_call_ids in H. destruct H as [H|H].
  - apply (N i Hi). apply (ConcLT.ids_iff cfg t F i St). auto.
  - apply (A i H Hi).
Qed.

Lemma lt_keyed c : keyed ltrow l_pk (lt_tx_of c).
Proof.
  unfold lt_tx_of. destruct c as [|k x| | |l]; cbn [lt_prog]; try exact Logic.I.
  - unfold lt_add_child. cbn [keyed]. intros [nd|]; cbn [else_raise keyed]; auto. intros t.
    assert (I : forall r, keyed ltrow l_pk (or_raise r (lt_insert cfg x))).
    { intros [np|e]; cbn [or_raise keyed]; auto. unfold lt_insert. destruct (fits_ltree cfg np); cbn; auto. }
    destruct (is_leaf t nd); auto. cbn [keyed]. intros t'. destruct (get_last_child t' nd); cbn [else_raise keyed]; auto.
  - cbn [lt_delete keyed]. intros t. destruct (paths_to_remove _ []); cbn; auto.
Qed.
Lemma lt_same_pk a b : l_pk a = l_pk b -> lt_same a b = true.
Proof. intros E. unfold lt_same. rewrite E, Nat.eqb_refl. auto. Qed.

Theorem lt_serial t F calls order : stores cfg t F -> Forall (fun c => lt_prog c <> None) calls ->
  NoDup (flat_map new_ids calls) -> (forall i, In i (flat_map new_ids calls) -> ~ In i (ids F)) ->
  NoDup order -> (forall i, In i order -> i < length calls) ->
  exists schedule, let W := play l_pk lt_same (all_begin t (map lt_tx_of calls)) schedule in
    (w_rows W, w_log W) = one_by_one lt_call_exec calls t order /\
    forall i, i < length calls -> nth_error (w_txs W) i = Some None <-> In i order.
Proof.
  intros St P N Fr No Hl.
  rewrite <- (one_by_one_same ltrow call l_pk lt_same lt_call_exec lt_tx_of lt_ok lt_ready new_apart lt_same_call lt_stays_ok lt_stays_ready calls (calls_apart calls N) order t No).
  - destruct (serial_begin ltrow l_pk lt_same lt_same_pk t (map lt_tx_of calls) order) as (s & Hs); auto.
    + apply Forall_forall. intros p Hp. apply in_map_iff in Hp. destruct Hp as (c & <- & _). apply lt_keyed.
    + apply (ConcLT.stores_ok cfg t F St).
    + rewrite map_length. auto.
    + exists s. rewrite map_length in Hs. exact Hs.
  - exists F. auto.
  - intros i c Hi Hc. apply nth_error_In in Hc. split.
    + rewrite Forall_forall in P. apply P. auto.
    + intros k Hk H. apply (Fr k); [apply in_flat_map; eauto|]. apply (ConcLT.ids_iff cfg t F k St). auto.
Qed.
End LT.
