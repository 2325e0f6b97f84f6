(** Concurrent add_child calls on materialized path trees without node_order_by (C41). *)
From Coq Require Import List Arith Lia Bool ZArith Permutation.
From Verif Require Import Prelude Forest SpecFacts SpecSane CommonModel Order History
  MPModel MPStep MPInv MPAdd MPReads MPHist MPRoom PropsMP ConcModel ConcRun.
Import ListNotations.
Local Open Scope nat_scope.

Section MP.
Variable cfg : mp_cfg.
Hypothesis radix2 : 2 <= radix cfg.
Hypothesis step1 : 1 <= steplen cfg.
Hypothesis unsorted : order_by cfg = [].
Notation stores := (stores cfg).

Definition mp_table_exec (t : mp_table) (c : nat * node) : res mp_table :=
  do db <- mp_exec cfg (mkDB t []) (CAddChild (fst c) (snd c)); Ok (db_rows db).

Definition ok (t : mp_table) : Prop := exists F, stores t F.
Definition ready (t : mp_table) (c : nat * node) : Prop := ~ In (nid (snd c)) (map m_pk t).
Definition apart (c d : nat * node) : Prop := nid (snd c) <> nid (snd d).
Definition compat (c d : nat * node) : Prop := fst c <> fst d.
Definition start (c : nat * node) := mp_add_child cfg (fst c) (snd c).

Definition newpath (t : mp_table) (nd : mprow) : res path :=
  if is_leaf nd then
    let np := get_path cfg (m_path nd) (m_depth nd + 1) 1 in
    if maxlen cfg <? length np then Err PathOverflow else Ok np
  else do last <- opt_res (get_last_child cfg t nd) AttributeError; inc_path cfg (m_path last).

Lemma not_sorted : is_sorted cfg = false.
Proof. unfold is_sorted. rewrite unsorted. reflexivity. Qed.

Lemma ids_iff t F k : stores t F -> In k (ids F) <-> In k (map m_pk t).
Proof.
  intros (f & L & _ & <- & _). split; intros H.
  - apply (Permutation_in _ (Permutation_sym (lay_pks cfg _ _ L))); auto.
  - apply (Permutation_in _ (lay_pks cfg _ _ L)); auto.
Qed.

Lemma pks_nodup t F : stores t F -> NoDup (map m_pk t).
Proof.
  intros (f & L & _ & <- & W). apply (Permutation_NoDup (Permutation_sym (lay_pks cfg _ _ L))). apply W.
Qed.

Lemma filter_pk t k : NoDup (map m_pk t) -> forall nd, In nd t -> m_pk nd = k -> filter (fun r => m_pk r =? k) t = [nd].
Proof.
  induction t as [|a t IH]; intros N nd Hn E; [destruct Hn|]. cbn in N. apply NoDup_cons_iff in N. destruct N as [N1 N2].
  cbn. destruct Hn as [->|Hn].
  - subst k. rewrite Nat.eqb_refl. f_equal. clear IH N2. induction t as [|b t IH]; auto. cbn in *.
    destruct (Nat.eqb_spec (m_pk b) (m_pk nd)) as [E|]; [exfalso; apply N1; auto|]. apply IH. tauto.
  - destruct (Nat.eqb_spec (m_pk a) k) as [E1|]; [|apply IH; auto]. exfalso. apply N1. subst k. rewrite E1.
    apply in_map. auto.
Qed.

Definition grown (nd : mprow) : mprow := set_nc nd (S (m_nc nd)).

Lemma put_grown t nd : NoDup (map m_pk t) -> In nd t ->
  map (fun x => if m_pk x =? m_pk (grown nd) then grown nd else x) t = map (upd_nc_pk (m_pk nd) S) t.
Proof.
  intros N Hn. apply map_ext_in. intros a Ha. unfold upd_nc_pk. cbn [grown set_nc m_pk].
  destruct (Nat.eqb_spec (m_pk a) (m_pk nd)) as [E|]; auto.
  assert (Fa := filter_pk t (m_pk nd) N a Ha E). rewrite (filter_pk t (m_pk nd) N nd Hn eq_refl) in Fa.
  injection Fa as ->. reflexivity.
Qed.

(** What the call alone does. *)
Lemma exec_cases t F k x : stores t F -> ready t (k, x) ->
  (mp_table_exec t (k, x) = Err DoesNotExist /\ filter (fun r => m_pk r =? k) t = []) \/
  exists nd, In nd t /\ m_pk nd = k /\ filter (fun r => m_pk r =? k) t = [nd] /\
    ((newpath t nd = Err PathOverflow /\ mp_table_exec t (k, x) = Err PathOverflow) \/
     exists np, newpath t nd = Ok np /\
       mp_table_exec t (k, x) = Ok (mp_new x np (m_depth nd + 1) :: map (upd_nc_pk k S) t) /\
       existsb (mp_same (mp_new x np (m_depth nd + 1))) (map (upd_nc_pk k S) t) = false /\
       stores (mp_new x np (m_depth nd + 1) :: map (upd_nc_pk k S) t) (sp_add_child None k x F)).
Proof.
  intros St Rd. unfold ready in Rd. cbn [snd] in Rd.
  assert (ND := pks_nodup t F St).
  destruct (get_pk_cases cfg t F k St) as [[E H]|(nd & E & Hn & Ek & Hi)].
  - left. unfold mp_table_exec, mp_exec. cbn [fst snd db_rows]. rewrite E. split; auto.
    unfold get_by_pk in E. destruct (filter (fun r => m_pk r =? k) t); congruence.
  - right. exists nd. split; auto. split; auto. split; [apply filter_pk; auto|].
    set (X := mkNew (nid x) 0 (ndata x)).
    assert (Fx : ~ In (new_pk X) (ids F)) by (rewrite (ids_iff t F _ St); auto).
    assert (Hi' : In (m_pk nd) (ids F)) by (rewrite Ek; auto).
    destruct (add_child_ok cfg radix2 step1 (mkDB t []) F nd X St Hi' Fx eq_refl) as (nd' & Hn' & En & H).
    { rewrite not_sorted. discriminate. }
    assert (A : add_child cfg (mkDB t []) nd X =
      do np <- newpath t nd; do db2 <- save_row (mkDB (map (upd_nc_pk k S) t) []) (mp_new x np (m_depth nd + 1));
      Ok (db2, mp_new x np (m_depth nd + 1), grown nd)).
    { unfold add_child. cbn [db_rows db_sig]. rewrite Ek, E. cbn [bind]. rewrite not_sorted. cbn [andb].
      unfold newpath, grown, mp_new. cbv zeta. rewrite Ek. reflexivity. }
    unfold mp_table_exec, mp_exec. cbn [fst snd db_rows]. rewrite E. cbn [bind]. fold X.
    rewrite A in H |- *. clear A.
    destruct (newpath t nd) as [np|e]; cbn [bind] in H |- *.
    + right. exists np. split; auto. set (r := mp_new x np (m_depth nd + 1)) in *.
      assert (Npk : existsb (fun a => m_pk a =? m_pk r) (map (upd_nc_pk k S) t) = false).
      { apply not_true_iff_false. intros Ex. apply existsb_exists in Ex. destruct Ex as (a & Ha & Ea).
        apply Nat.eqb_eq in Ea. apply Rd. apply in_map_iff in Ha. destruct Ha as (b & <- & Hb). cbn in Ea. rewrite <- Ea.
        replace (m_pk (upd_nc_pk k S b)) with (m_pk b) by (unfold upd_nc_pk; destruct (m_pk b =? k); auto). apply in_map. auto. }
      unfold save_row in H |- *. cbn [db_rows db_sig] in H |- *. rewrite Npk in H |- *.
      destruct (existsb (fun a => peq (m_path a) (m_path r) && negb (m_pk a =? m_pk r)) (map (upd_nc_pk k S) t)) eqn:Ec;
        cbn [bind] in H |- *.
      { exfalso. destruct H as [(db' & r' & t' & H & _)|[H _]]; discriminate. }
      destruct H as [(db' & r' & t' & H & _ & _ & _ & _ & S')|[H _]]; [|discriminate].
      split; auto. split.
      * apply not_true_iff_false. intros Ex. apply existsb_exists in Ex. destruct Ex as (a & Ha & Ea).
        unfold mp_same in Ea. apply orb_true_iff in Ea. destruct Ea as [Ea|Ea].
        -- apply not_true_iff_false in Npk. apply Npk. apply existsb_exists. exists a. split; auto.
           rewrite Nat.eqb_sym. auto.
        -- assert (Na : m_pk a =? m_pk r = false).
           { apply not_true_iff_false. intros Q. apply not_true_iff_false in Npk. apply Npk. apply existsb_exists. eauto. }
           apply not_true_iff_false in Ec. apply Ec. apply existsb_exists. exists a. split; auto. rewrite Na.
           apply peq_iff in Ea. rewrite Ea. rewrite (proj2 (peq_iff _ _) eq_refl). auto.
      * injection H as H1 H2 H3. rewrite <- H1 in S'. cbn [db_rows] in S'.
        assert (opt_gt cfg X = None) by (unfold opt_gt; rewrite not_sorted; auto). rewrite H in S'.
        rewrite Ek in S'. replace (mkNode (new_pk X) (new_data X)) with x in S' by (destruct x; auto). auto.
    + left. destruct H as [(db' & r' & t' & H & _)|[H _]]; [discriminate|]. injection H as ->. auto.
Qed.

(** The states in the middle of the call. *)
Inductive mid (t : mp_table) (k : nat) (x : node) : tx mprow -> Prop :=
| mid_select nd : In nd t -> m_pk nd = k -> is_leaf nd = false ->
    mid t k x (mkTx (Select (fun t => else_raise (get_last_child cfg t nd) AttributeError (fun last =>
           or_raise (inc_path cfg (m_path last)) (fun np => mp_insert_child k x (m_depth nd + 1) np)))) [] [k] None)
| mid_update nd np fo : In nd t -> m_pk nd = k -> newpath t nd = Ok np -> fo = None \/ fo = Some [k] ->
    mid t k x (mkTx (mp_insert_child k x (m_depth nd + 1) np) [] [k] fo)
| mid_insert nd np : In nd t -> m_pk nd = k -> newpath t nd = Ok np ->
    mid t k x (mkTx (Insert (mp_new x np (m_depth nd + 1)) Commit) [Put (grown nd)] [k; k] None)
| mid_commit nd np : In nd t -> m_pk nd = k -> newpath t nd = Ok np ->
    mid t k x (mkTx Commit [Put (grown nd); New (mp_new x np (m_depth nd + 1))] [k; k] None).

Lemma solo_first t k x : solo m_pk mp_same t (begin (start (k, x))) =
  match filter (fun r => m_pk r =? k) t with
  | [] => End t (Some DoesNotExist)
  | nd :: _ =>
      if is_leaf nd then
        match newpath t nd with Ok np => Go (mkTx (mp_insert_child k x (m_depth nd + 1) np) [] [k] None) | Err e => End t (Some e) end
      else Go (mkTx (Select (fun t => else_raise (get_last_child cfg t nd) AttributeError (fun last =>
           or_raise (inc_path cfg (m_path last)) (fun np => mp_insert_child k x (m_depth nd + 1) np)))) [] [k] None)
  end.
Proof.
  unfold solo, begin, start, mp_add_child, visible. cbn [x_prog x_writes x_locks x_found fst snd fold_left].
  destruct (filter (fun r => m_pk r =? k) t) as [|nd l]; cbn [hd_error else_raise]; auto.
  rewrite not_sorted. cbn [andb]. unfold newpath. destruct (is_leaf nd); auto.
  destruct (maxlen cfg <? _); auto.
Qed.

Lemma solo_select t k x nd : is_leaf nd = false ->
  solo m_pk mp_same t (mkTx (Select (fun t => else_raise (get_last_child cfg t nd) AttributeError (fun last =>
           or_raise (inc_path cfg (m_path last)) (fun np => mp_insert_child k x (m_depth nd + 1) np)))) [] [k] None) =
  match newpath t nd with Ok np => Go (mkTx (mp_insert_child k x (m_depth nd + 1) np) [] [k] None) | Err e => End t (Some e) end.
Proof.
  intros El. unfold solo, visible, newpath. cbn [x_prog x_writes x_locks x_found fold_left]. rewrite El.
  destruct (get_last_child cfg t nd) as [last|]; cbn [else_raise opt_res bind]; auto.
  destruct (inc_path cfg (m_path last)); cbn [or_raise]; auto.
Qed.

Lemma solo_update t k x nd np : NoDup (map m_pk t) -> In nd t -> m_pk nd = k ->
  solo m_pk mp_same t (mkTx (mp_insert_child k x (m_depth nd + 1) np) [] [k] None) =
  Go (mkTx (mp_insert_child k x (m_depth nd + 1) np) [] [k] (Some [k])).
Proof.
  intros N Hn Ek. unfold solo, visible, mp_insert_child. cbn [x_prog x_writes x_locks x_found fold_left].
  rewrite (filter_pk t k N nd Hn Ek). cbn [map]. rewrite Ek. auto.
Qed.

Lemma solo_found t k x nd np : NoDup (map m_pk t) -> In nd t -> m_pk nd = k ->
  solo m_pk mp_same t (mkTx (mp_insert_child k x (m_depth nd + 1) np) [] [k] (Some [k])) =
  Go (mkTx (Insert (mp_new x np (m_depth nd + 1)) Commit) [Put (grown nd)] [k; k] None).
Proof.
  intros N Hn Ek. unfold solo, visible, mp_insert_child. cbn [x_prog x_writes x_locks x_found fold_left].
  rewrite (filter_ext _ (fun r => m_pk r =? k)).
  2:{ intros a. cbn. destruct (m_pk a =? k); auto. }
  rewrite (filter_pk t k N nd Hn Ek). auto.
Qed.

Lemma solo_insert t k x nd np : NoDup (map m_pk t) -> In nd t -> m_pk nd = k ->
  existsb (mp_same (mp_new x np (m_depth nd + 1))) (map (upd_nc_pk k S) t) = false ->
  solo m_pk mp_same t (mkTx (Insert (mp_new x np (m_depth nd + 1)) Commit) [Put (grown nd)] [k; k] None) =
  Go (mkTx Commit [Put (grown nd); New (mp_new x np (m_depth nd + 1))] [k; k] None).
Proof.
  intros N Hn Ek Ex. unfold solo, visible. cbn [x_prog x_writes x_locks x_found fold_left apply_write].
  rewrite (put_grown t nd N Hn), Ek, Ex. reflexivity.
Qed.

Lemma solo_commit t k x nd np : NoDup (map m_pk t) -> In nd t -> m_pk nd = k ->
  solo m_pk mp_same t (mkTx Commit [Put (grown nd); New (mp_new x np (m_depth nd + 1))] [k; k] None) =
  End (mp_new x np (m_depth nd + 1) :: map (upd_nc_pk k S) t) None.
Proof.
  intros N Hn Ek. unfold solo, visible. cbn [x_prog x_writes x_locks x_found fold_left apply_write].
  rewrite (put_grown t nd N Hn), Ek. reflexivity.
Qed.

Notation reach := (reach mprow m_pk mp_same (nat * node) start).

(** One row for each primary key. *)
Lemma row_unique t a b : NoDup (map m_pk t) -> In a t -> In b t -> m_pk a = m_pk b -> a = b.
Proof.
  intros N Ha Hb E. assert (Fa := filter_pk t (m_pk b) N a Ha E). rewrite (filter_pk t (m_pk b) N b Hb eq_refl) in Fa. congruence.
Qed.

Lemma reach_mid t F k x y : stores t F -> ready t (k, x) -> reach t (k, x) y -> mid t k x y.
Proof.
  intros St Rd. assert (N := pks_nodup t F St).
  destruct (exec_cases t F k x St Rd) as [[_ E]|(nd & Hn & Ek & Ef & Hc)].
  - (* no such row *)
    induction 1 as [y E1|y y' R IH E1].
    + rewrite solo_first, E in E1. discriminate.
    + exfalso. clear - IH E. 
      assert (forall nd, In nd t -> m_pk nd = k -> False).
      { intros nd Hn Ek. assert (Hf : In nd (filter (fun r => m_pk r =? k) t)) by (apply filter_In; split; auto; apply Nat.eqb_eq; auto).
        rewrite E in Hf. destruct Hf. }
      inversion IH; eauto.
  - induction 1 as [y E1|y y' R IH E1].
    + rewrite solo_first, Ef in E1. destruct (is_leaf nd) eqn:El.
      * destruct (newpath t nd) as [np|e] eqn:En; [|discriminate]. injection E1 as <-. apply mid_update; auto.
      * injection E1 as <-. apply mid_select; auto.
    + destruct IH as [nd' Hn' Ek' El|nd' np fo Hn' Ek' En Hf|nd' np Hn' Ek' En|nd' np Hn' Ek' En].
      * rewrite solo_select in E1 by auto. destruct (newpath t nd') as [np|e] eqn:En; [|discriminate].
        injection E1 as <-. apply mid_update; auto.
      * destruct Hf as [->| ->].
        -- rewrite solo_update in E1 by auto. injection E1 as <-. apply mid_update; auto.
        -- rewrite solo_found in E1 by auto. injection E1 as <-. apply mid_insert; auto.
      * assert (nd' = nd) by (eapply row_unique; eauto; congruence). subst nd'.
        destruct Hc as [[Hc _]|(np' & En' & _ & Ex & _)]; [congruence|]. assert (np' = np) by congruence. subst np'.
        rewrite (solo_insert t k x nd np N Hn Ek Ex) in E1. injection E1 as <-. apply mid_commit; auto.
      * rewrite (solo_commit t k x nd' np N Hn' Ek') in E1. discriminate.
Qed.

Lemma mid_reach t F k x y : stores t F -> ready t (k, x) -> mid t k x y -> reach t (k, x) y.
Proof.
  intros St Rd. assert (N := pks_nodup t F St).
  assert (K1 : forall nd, In nd t -> m_pk nd = k -> is_leaf nd = false ->
    reach t (k, x) (mkTx (Select (fun t => else_raise (get_last_child cfg t nd) AttributeError (fun last =>
           or_raise (inc_path cfg (m_path last)) (fun np => mp_insert_child k x (m_depth nd + 1) np)))) [] [k] None)).
  { intros nd Hn Ek El. apply reach_first. rewrite solo_first, (filter_pk t k N nd Hn Ek), El. reflexivity. }
  assert (K2 : forall nd np, In nd t -> m_pk nd = k -> newpath t nd = Ok np ->
    reach t (k, x) (mkTx (mp_insert_child k x (m_depth nd + 1) np) [] [k] None)).
  { intros nd np Hn Ek En. destruct (is_leaf nd) eqn:El.
    - apply reach_first. rewrite solo_first, (filter_pk t k N nd Hn Ek), El, En. reflexivity.
    - eapply reach_next; [apply K1; eauto|]. rewrite solo_select by auto. rewrite En. reflexivity. }
  assert (K3 : forall nd np, In nd t -> m_pk nd = k -> newpath t nd = Ok np ->
    reach t (k, x) (mkTx (mp_insert_child k x (m_depth nd + 1) np) [] [k] (Some [k]))).
  { intros nd np Hn Ek En. eapply reach_next; [apply K2; eauto|]. apply solo_update; auto. }
  assert (K4 : forall nd np, In nd t -> m_pk nd = k -> newpath t nd = Ok np ->
    reach t (k, x) (mkTx (Insert (mp_new x np (m_depth nd + 1)) Commit) [Put (grown nd)] [k; k] None)).
  { intros nd np Hn Ek En. eapply reach_next; [apply K3; eauto|]. apply solo_found; auto. }
  intros [nd Hn Ek El|nd np fo Hn Ek En [->| ->]|nd np Hn Ek En|nd np Hn Ek En]; auto.
  eapply reach_next; [apply (K4 nd np); auto|]. apply solo_insert; auto.
  destruct (exec_cases t F k x St Rd) as [[_ E]|(nd' & Hn' & Ek' & Ef & Hc)].
  - rewrite (filter_pk t k N nd Hn Ek) in E. discriminate.
  - assert (nd' = nd) by (eapply row_unique; eauto; congruence). subst nd'.
    destruct Hc as [[Hc _]|(np' & En' & _ & Ex & _)]; [congruence|]. assert (np' = np) by congruence. subst np'. auto.
Qed.

(** Another call does not change what this one reads. *)
Lemma exec_ok t F k x t' : stores t F -> ready t (k, x) -> mp_table_exec t (k, x) = Ok t' ->
  exists nd np, In nd t /\ m_pk nd = k /\ newpath t nd = Ok np /\
    t' = mp_new x np (m_depth nd + 1) :: map (upd_nc_pk k S) t /\ stores t' (sp_add_child None k x F).
Proof.
  intros St Rd E. destruct (exec_cases t F k x St Rd) as [[E1 _]|(nd & Hn & Ek & _ & [[_ E1]|(np & En & E1 & _ & S')])]; try congruence.
  exists nd, np. rewrite E in E1. injection E1 as ->. auto.
Qed.

Lemma newpath_stable t F k x t' nd : stores t F -> ready t (k, x) -> mp_table_exec t (k, x) = Ok t' ->
  In nd t -> m_pk nd <> k -> In nd t' /\ newpath t' nd = newpath t nd.
Proof.
  intros St Rd E Hn Nk. destruct (exec_ok t F k x t' St Rd E) as (kd & np & Hk & Ek & En & Et & St').
  assert (Hn' : In nd t').
  { rewrite Et. right. apply in_map_iff. exists nd. split; auto. unfold upd_nc_pk. apply Nat.eqb_neq in Nk. rewrite Nk. auto. }
  split; auto. unfold newpath. destruct (is_leaf nd) eqn:El; auto.
  assert (Wf := stores_wf _ _ _ St).
  assert (Hi : In k (ids F)) by (rewrite (ids_iff t F _ St), <- Ek; apply in_map; auto).
  assert (Fx : ~ In (nid x) (ids F)) by (rewrite (ids_iff t F _ St); auto).
  destruct (add_child_sane None k x F Wf Hi Fx) as (L1 & L2 & A & _).
  destruct (C07_children cfg radix2 step1 t F nd St Hn) as (l & El1 & _ & _ & _ & _ & Ea).
  destruct (C07_children cfg radix2 step1 t' _ nd St' Hn') as (l' & El2 & _ & _ & _ & _ & Eb).
  assert (l' = l).
  { rewrite (ad_rest _ _ _ _ _ _ A) in El2; [congruence|congruence|]. intros Q. injection Q as Q. apply Rd. cbn. rewrite <- Q. apply in_map. auto. }
  subst l'. rewrite <- Eb in Ea.
  assert (N' := pks_nodup _ _ St').
  destruct (get_last_child cfg t nd) as [a|] eqn:E1; destruct (get_last_child cfg t' nd) as [b|] eqn:E2;
    cbn in Ea; try discriminate; cbn [opt_res bind]; auto.
  f_equal. injection Ea as Ea _.
  assert (Ha : In a t).
  { unfold get_last_child in E1. apply last_in in E1. unfold get_children in E1. rewrite El in E1.
    apply (Permutation_in _ (isort_perm _ _)) in E1. apply filter_In in E1. tauto. }
  assert (Hb : In b t').
  { unfold get_last_child in E2. apply last_in in E2. unfold get_children in E2. rewrite El in E2.
    apply (Permutation_in _ (isort_perm _ _)) in E2. apply filter_In in E2. tauto. }
  assert (upd_nc_pk k S a = b).
  { apply (row_unique t'); auto.
    - rewrite Et. right. apply in_map. auto.
    - unfold upd_nc_pk. destruct (m_pk a =? k); auto. }
  subst b. unfold upd_nc_pk. destruct (m_pk a =? k); auto.
Qed.

Lemma mid_locks t k x y j : mid t k x y -> existsb (Nat.eqb j) (x_locks y) = (j =? k).
Proof.
  intros [nd Hn Ek El|nd np fo Hn Ek En _|nd np Hn Ek En|nd np Hn Ek En]; cbn; destruct (j =? k); auto.
Qed.

Lemma mp_serializable : serializable mprow m_pk mp_same (nat * node) start mp_table_exec ok ready apart compat.
Proof.
  constructor.
  - intros t [k x] rows. rewrite solo_first. destruct (filter _ t) as [|nd l]; [discriminate|].
    destruct (is_leaf nd); [|discriminate]. destruct (newpath t nd); discriminate.
  - intros t [k x] y [F St] Rd R E. apply (reach_mid t F k x y St Rd) in R. apply (mid_locks t k x y k) in R.
    rewrite Nat.eqb_refl in R. subst y. discriminate.
  - intros t [k x] y rows e [F St] Rd M E. assert (N := pks_nodup t F St).
    destruct (exec_cases t F k x St Rd) as [[E0 E1]|(nd & Hn & Ek & Ef & Hc)].
    + destruct M as [->|M].
      * rewrite solo_first, E1 in E. injection E as <- <-. auto.
      * apply (reach_mid t F k x y St Rd) in M. exfalso.
        assert (K : forall nd, In nd t -> m_pk nd = k -> False).
        { intros nd Hn Ek. rewrite (filter_pk t k N nd Hn Ek) in E1. discriminate. }
        inversion M; eauto.
    + destruct M as [->|M].
      * rewrite solo_first, Ef in E. destruct (is_leaf nd); [|discriminate].
        destruct Hc as [[Hc Hd]|(np' & En' & _)]; [|rewrite En' in E; discriminate].
        rewrite Hc in E. injection E as <- <-. auto.
      * apply (reach_mid t F k x y St Rd) in M.
        destruct M as [nd' Hn' Ek' El|nd' np fo Hn' Ek' En Hf|nd' np Hn' Ek' En|nd' np Hn' Ek' En];
          assert (nd' = nd) by (eapply row_unique; eauto; congruence); subst nd'.
        -- rewrite solo_select in E by auto.
           destruct Hc as [[Hc Hd]|(np' & En' & _)]; [|rewrite En' in E; discriminate].
           rewrite Hc in E. injection E as <- <-. auto.
        -- destruct Hf as [->| ->]; [rewrite solo_update in E by auto|rewrite solo_found in E by auto]; discriminate.
        -- destruct Hc as [[Hc _]|(np' & En' & _ & Ex & _)]; [congruence|]. assert (np' = np) by congruence. subst np'.
           rewrite (solo_insert t k x nd np N Hn Ek Ex) in E. discriminate.
        -- destruct Hc as [[Hc _]|(np' & En' & E' & _)]; [congruence|]. assert (np' = np) by congruence. subst np'.
           rewrite (solo_commit t k x nd np N Hn Ek) in E. injection E as <- <-. auto.
  - intros t [k x] t' [F St] Rd E. destruct (exec_ok t F k x t' St Rd E) as (_ & _ & _ & _ & _ & _ & S'). exists (sp_add_child None k x F). auto.
  - intros t t' [k x] [j z] [F St] Rc Rd A E. destruct (exec_ok t F j z t' St Rd E) as (nd & np & _ & _ & _ & -> & _).
    unfold ready, apart in *. cbn [fst snd] in *. cbn [map mp_new m_pk]. intros [H|H]; [congruence|].
    rewrite map_map in H. apply Rc. rewrite <- (map_ext (fun r => m_pk (upd_nc_pk j S r))); auto.
    intros a. unfold upd_nc_pk. destruct (m_pk a =? j); auto.
  - intros t t' [k x] [j z] y [F St] Rc Rd A C E R. unfold compat in C. cbn [fst] in C.
    assert (Rc' : ready t' (k, x)).
    { destruct (exec_ok t F j z t' St Rd E) as (nd & np & _ & _ & _ & -> & _).
      unfold ready, apart in *. cbn [fst snd] in *. cbn [map mp_new m_pk]. intros [H|H]; [congruence|].
      rewrite map_map in H. apply Rc. rewrite <- (map_ext (fun r => m_pk (upd_nc_pk j S r))); auto.
      intros a. unfold upd_nc_pk. destruct (m_pk a =? j); auto. }
    destruct (exec_ok t F j z t' St Rd E) as (_ & _ & _ & _ & _ & _ & St').
    apply (mid_reach t' _ k x y St' Rc'). apply (reach_mid t F k x y St Rc) in R.
    assert (K : forall nd, In nd t -> m_pk nd = k -> In nd t' /\ newpath t' nd = newpath t nd).
    { intros nd Hn Ek. apply (newpath_stable t F j z t' nd St Rd E Hn). congruence. }
    destruct R as [nd Hn Ek El|nd np fo Hn Ek En Hf|nd np Hn Ek En|nd np Hn Ek En]; destruct (K nd Hn Ek) as [K1 K2];
      [apply mid_select|apply mid_update|apply mid_insert|apply mid_commit]; auto; congruence.
  - intros t [k x] [j z] y y' [F St] Rc Rd A _ R Wt. apply (reach_mid t F j z y' St Rd) in R.
    unfold waits, start, mp_add_child, begin in Wt. cbn [x_prog fst snd] in Wt. rewrite (mid_locks t j z y' k R) in Wt.
    unfold compat. cbn. apply Nat.eqb_neq. auto.
  - intros t [k x] [j z] y y' [F St] Rc Rd A C R R'. unfold compat in C. cbn [fst] in C.
    apply (reach_mid t F k x y St Rc) in R. apply (reach_mid t F j z y' St Rd) in R'. assert (N := pks_nodup t F St).
    destruct R as [nd Hn Ek El|nd np fo Hn Ek En Hf|nd np Hn Ek En|nd np Hn Ek En]; unfold waits; cbn [x_prog x_found]; auto.
    + unfold mp_insert_child. destruct Hf as [->| ->]; auto. cbn [existsb]. rewrite (mid_locks t j z y' k R').
      apply Nat.eqb_neq in C. rewrite C. auto.
    + set (r := mp_new x np (m_depth nd + 1)).
      destruct (exec_cases t F k x St Rc) as [[_ E]|(nd1 & Hn1 & Ek1 & _ & [[E _]|(np1 & En1 & _ & Ex & _)])];
        [rewrite (filter_pk t k N nd Hn Ek) in E; discriminate| |];
        assert (nd1 = nd) by (eapply row_unique; eauto; congruence); subst nd1; [congruence|].
      assert (np1 = np) by congruence. subst np1. fold r in Ex.
      assert (Old : forall kd, In kd t -> mp_same r (grown kd) = false).
      { intros kd Hk. apply not_true_iff_false. intros Q. apply not_true_iff_false in Ex. apply Ex.
        apply existsb_exists. exists (upd_nc_pk k S kd). split; [apply in_map; auto|].
        rewrite <- Q. unfold mp_same, upd_nc_pk, grown. destruct (m_pk kd =? k); auto. }
      assert (Nw : forall kd np', In kd t -> m_pk kd = j -> newpath t kd = Ok np' -> mp_same r (mp_new z np' (m_depth kd + 1)) = false).
      { intros kd np' Hk Ej En'.
        destruct (exec_cases t F j z St Rd) as [[_ E]|(kd1 & Hk1 & Ej1 & _ & [[E _]|(np1 & En2 & E & _ & St')])];
          [rewrite (filter_pk t j N kd Hk Ej) in E; discriminate| |];
          assert (kd1 = kd) by (eapply row_unique; eauto; congruence); subst kd1; [congruence|].
        assert (np1 = np') by congruence. subst np1.
        set (t' := mp_new z np' (m_depth kd + 1) :: map (upd_nc_pk j S) t) in *.
        assert (Ns : m_pk nd <> j) by congruence.
        destruct (newpath_stable t F j z t' nd St Rd E Hn Ns) as [Hn' En3].
        assert (Rc' : ready t' (k, x)).
        { unfold ready, apart in *. cbn [fst snd] in *. unfold t'. cbn [map mp_new m_pk]. intros [H|H]; [congruence|].
          rewrite map_map in H. apply Rc. rewrite <- (map_ext (fun r => m_pk (upd_nc_pk j S r))); auto.
          intros a. unfold upd_nc_pk. destruct (m_pk a =? j); auto. }
        assert (N' := pks_nodup _ _ St').
        destruct (exec_cases t' _ k x St' Rc') as [[_ E4]|(nd1 & Hn4 & Ek4 & _ & [[E4 _]|(np1 & En4 & _ & Ex4 & _)])];
          [rewrite (filter_pk t' k N' nd Hn' Ek) in E4; discriminate| |];
          assert (nd1 = nd) by (eapply row_unique; eauto; congruence); subst nd1; [congruence|].
        assert (np1 = np) by congruence. subst np1. fold r in Ex4. apply not_true_iff_false. intros Q.
        apply not_true_iff_false in Ex4. apply Ex4. unfold t'. cbn [map existsb]. apply orb_true_iff. left.
        rewrite <- Q. unfold mp_same, upd_nc_pk. cbn [mp_new m_pk m_path]. destruct (nid z =? k); auto. }
      destruct R' as [kd Hk Ej El|kd np' fo Hk Ej En' Hf|kd np' Hk Ej En'|kd np' Hk Ej En']; cbn [x_writes existsb written]; auto.
      * rewrite Old; auto.
      * rewrite Old, Nw; auto.
  - intros c d. unfold compat. auto.
Qed.

(** What one call after the other leaves. *)
Lemma one_by_one_stores calls : (forall i j c d, i <> j -> nth_error calls i = Some c -> nth_error calls j = Some d -> apart c d) ->
  forall order t F t' log, stores t F -> NoDup order ->
  (forall i c, In i order -> nth_error calls i = Some c -> ready t c) ->
  one_by_one mp_table_exec calls t order = (t', log) ->
  stores t' (fold_left (fun F c => sp_add_child None (fst c) (snd c) F) (succeeded calls log) F).
Proof.
  intros Ap. induction order as [|i order IH]; intros t F t' log St ND Rd E; cbn in E.
  - injection E as <- <-. auto.
  - apply NoDup_cons_iff in ND. destruct ND as [Ni ND]. destruct (nth_error calls i) as [c|] eqn:Ec.
    2:{ apply (IH t F t' log); auto. intros; eapply Rd; eauto; right; auto. }
    assert (Rc := Rd i c (or_introl eq_refl) Ec).
    destruct (mp_table_exec t c) as [t1|e] eqn:E1.
    + destruct (one_by_one mp_table_exec calls t1 order) as [r l] eqn:E2. injection E as <- <-.
      unfold succeeded. cbn [flat_map fst snd]. rewrite Ec. cbn [app fold_left]. fold (succeeded calls l).
      destruct c as [k x]. destruct (exec_ok t F k x t1 St Rc E1) as (_ & _ & _ & _ & _ & _ & St1).
      apply (IH t1 _ r l); auto. intros j d Hj Ed.
      apply (s_ready _ _ _ _ _ _ _ _ _ _ mp_serializable t t1 d (k, x)); auto.
      * exists F. auto.
      * apply (Rd j); auto. right. auto.
      * apply (Ap j i); auto. intros ->. auto.
    + destruct (one_by_one mp_table_exec calls t order) as [r l] eqn:E2. injection E as <- <-.
      unfold succeeded. cbn [flat_map fst snd app]. fold (succeeded calls l).
      apply (IH t F r l); auto. intros; eapply Rd; eauto; right; auto.
Qed.

Theorem mp_concurrent t F calls schedule : stores t F ->
  NoDup (map (fun c => nid (snd c)) calls) -> (forall c, In c calls -> ~ In (nid (snd c)) (ids F)) ->
  let W := play m_pk mp_same (all_begin t (map start calls)) schedule in
  one_by_one mp_table_exec calls t (map fst (w_log W)) = (w_rows W, w_log W) /\ NoDup (map fst (w_log W)) /\
  stores (w_rows W) (fold_left (fun F c => sp_add_child None (fst c) (snd c) F) (succeeded calls (w_log W)) F) /\
  (finished W = true -> Permutation (map fst (w_log W)) (seq 0 (length calls))) /\
  exists schedule', finished (play m_pk mp_same W schedule') = true.
Proof.
  intros St ND Fr W.
  assert (Ap : forall i j c d, i <> j -> nth_error calls i = Some c -> nth_error calls j = Some d -> apart c d).
  { intros i j c d N Ec Ed Q. apply N. apply (proj1 (NoDup_nth_error _) ND).
    - rewrite map_length. apply nth_error_Some. congruence.
    - rewrite !nth_error_map, Ec, Ed. cbn. congruence. }
  assert (Rd : forall c, In c calls -> ready t c).
  { intros c Hc. unfold ready. rewrite <- (ids_iff t F _ St). auto. }
  destruct (reached_serial mprow m_pk mp_same _ start mp_table_exec ok ready apart compat mp_serializable calls t Ap
    (ex_intro _ F St) Rd schedule) as (H1 & _ & H3 & H4 & H5). fold W in H1, H3, H4, H5.
  split; auto. split; auto. split; auto.
  apply (one_by_one_stores calls Ap _ t F _ _ St H3) in H1; auto.
  intros i c _ Ec. apply Rd. eapply nth_error_In; eauto.
Qed.
End MP.
