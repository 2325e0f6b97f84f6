(** load_bulk for ltree, with or without node_order_by. *)
From Coq Require Import String List Arith Lia Bool ZArith Permutation.
From Verif Require Import Prelude Forest SpecFacts SpecSane CommonModel Order History SpecKids SpecRun SpecPerm
  BulkModel BulkFacts BulkTrees BulkLoad LTModel LTInv LTReads LTAdd LTHist BulkLT PropsLT.
From Verif Require SessionLT.
Import ListNotations.
Local Open Scope nat_scope.

Section LT.
Variable cfg : lt_cfg.
Hypothesis max2 : 2 <= label_max cfg.
Notation o := (lt_order cfg).
Notation stores := (stores cfg).
Notation ups := (ups ltrow l_pk).

(** The rows at the level of [up] and above it stay: the objects that load_bulk still needs. *)
Definition above_kept (up : option ltrow) (db db' : lt_db) : Prop :=
  forall p, up = Some p -> SessionLT.keeps (length (l_path p)) (lt_rows db) (lt_rows db').

Lemma sp_add_ids ord up x F : wf_ids F -> is_up up F -> ~ In (nid x) (ids F) ->
  wf_ids (sp_add ord up x F) /\ (forall i, In i (ids (sp_add ord up x F)) <-> In i (ids F) \/ i = nid x).
Proof.
  intros W U Fr. set (c := match up with Some p => CAddChild p x | None => CAddRoot x end).
  assert (E : sp_exec ord F c = Ok (sp_add ord up x F)).
  { unfold c, sp_add. destruct up as [p|]; auto. cbn [sp_exec]. rewrite (proj2 (has_spec p F)); auto. }
  assert (Frc : fresh_call F c) by (unfold c; destruct up; intros i [<-|[]]; auto).
  destruct (sp_exec_ids ord F c _ W Frc E) as (W' & P). split; auto.
  assert (P' : Permutation (ids (sp_add ord up x F)) (nid x :: ids F)) by (unfold c in P; destruct up; exact P).
  intros i. split.
  - intros H. apply (Permutation_in _ P') in H. destruct H as [<-|H]; auto.
  - intros H. apply (Permutation_in _ (Permutation_sym P')). cbn. destruct H as [H| ->]; auto.
Qed.

Lemma sp_add_parent ord p x F : wf_ids F -> In p (ids F) -> ~ In (nid x) (ids F) ->
  parent_of (nid x) (sp_add ord (Some p) x F) = Some (Some p).
Proof.
  intros W Hp Fr. destruct (add_child_sane (gt_opt ord (ndata x)) p x F W Hp Fr) as (L1 & L2 & A & _).
  apply kl_parent.
  - apply (sp_add_ids ord (Some p) x F W); auto. intros q E. injection E as <-. auto.
  - unfold sp_add. rewrite (kl_kid_list _ _ _ (ad_after _ _ _ _ _ _ A)). apply in_elt.
Qed.

(** One node: [G] is what the table stores, [F] what it should be. *)
Lemma lt_add_same db F G up x : stores (lt_rows db) G -> wf_ids F -> same_kids F G ->
  (forall p, up = Some p -> In p (lt_rows db)) -> ~ In (nid x) (ids F) ->
  (exists db' ob G', lt_add cfg db up x = Ok (db', ob, up) /\ stores (lt_rows db') G' /\ same_kids (sp_add o (ups up) x F) G' /\
     In ob (lt_rows db') /\ l_pk ob = nid x /\ above_kept up db db' /\
     (forall p, up = Some p -> length (l_path p) <= length (l_path ob))) \/
  (exists e, lt_add cfg db up x = Err e /\ lt_fails e).
Proof.
  intros St W Sk Gu Fr. assert (WG := lt_wf _ _ _ St).
  assert (FrG : ~ In (nid x) (ids G)) by (intros H; apply Fr, (same_ids F G Sk); auto).
  unfold lt_add, sp_add. change (mkNew (nid x) (ndata x)) with (new_of x). destruct up as [p|]; cbn [BulkFacts.ups option_map].
  - specialize (Gu p eq_refl). assert (Hp : In (l_pk p) (ids G)) by (apply (stores_pks cfg _ _ _ St), in_map; auto).
    assert (HpF : In (l_pk p) (ids F)) by (apply (same_ids F G Sk); auto).
    destruct (add_child_ok cfg max2 db G p x St Gu FrG) as [(db' & r & G' & E & Hr & Pk & _ & S' & Sk' & _)|[[E _]|[E _]]];
      rewrite E; cbn [bind]; [left|right; exists DataError; split; auto; left; auto|right; exists ValueError; split; auto; right; auto].
    exists db', r, G'. split; auto. split; auto.
    assert (Sk2 : same_kids (sp_add_child (gt_opt o (ndata x)) (l_pk p) x F) G') by (eapply same_trans; [apply same_add_child; eauto|exact Sk']).
    split; auto. split; auto. split; auto.
    assert (K : SessionLT.keeps (length (l_path p)) (lt_rows db) (lt_rows db')).
    { destruct St as (f & L & <- & _). destruct (SessionLT.child_keeps cfg db p (new_of x) db' r) as [K _]; auto.
      - intros k _ a b Ha Hb Ea Eb. assert (Ga := get_by_pk_lay cfg _ _ _ L WG Ha). assert (Gb := get_by_pk_lay cfg _ _ _ L WG Hb). congruence.
      - intros H. apply FrG. apply (Permutation_in _ (lay_pks cfg _ _ L)). exact H. }
    split; [intros q Eq; injection Eq as <-; auto|]. intros q Eq. injection Eq as <-.
    assert (Hp' : In p (lt_rows db')) by (apply K; auto).
    assert (Pa : parent_of (l_pk r) G' = Some (Some (l_pk p))).
    { rewrite Pk. rewrite <- (same_parent (sp_add o (Some (l_pk p)) x F) G'); auto.
      - apply (sp_add_parent o (l_pk p) x F); auto.
      - apply (sp_add_ids o (Some (l_pk p)) x F W); auto. intros q Eq. injection Eq as <-. auto.
      - apply (lt_wf _ _ _ S'). }
    apply (proj1 (C32_predicates cfg _ _ _ _ S' Hr Hp')) in Pa. unfold is_child_of in Pa. apply peq_iff in Pa.
    rewrite <- Pa. unfold parent_path. rewrite removelast_firstn_len, firstn_length. lia.
  - destruct (add_root_ok cfg max2 db G x St FrG) as [(db' & r & G' & E & Hr & Pk & _ & S' & Sk' & _)|[[E _]|[E _]]];
      rewrite E; cbn [bind]; [left|right; exists DataError; split; auto; left; auto|right; exists ValueError; split; auto; right; auto].
    exists db', r, G'. split; auto. split; auto. split; [eapply same_trans; [apply same_add_root; eauto|exact Sk']|].
    split; auto. split; auto. split; intros q Eq; discriminate.
Qed.

Theorem lt_load_same g : forall db F G up, stores (lt_rows db) G -> wf_ids F -> same_kids F G ->
  (forall p, up = Some p -> In p (lt_rows db)) -> wf_ids g -> (forall i, In i (ids g) -> ~ In i (ids F)) ->
  (exists db' G', load (lt_add cfg) l_pk db up g = Ok (db', ids g) /\ stores (lt_rows db') G' /\
     wf_ids (sp_load o (ups up) g F) /\ same_kids (sp_load o (ups up) g F) G' /\ above_kept up db db' /\
     (forall i, In i (ids (sp_load o (ups up) g F)) <-> In i (ids F) \/ In i (ids g))) \/
  (exists e, load (lt_add cfg) l_pk db up g = Err e /\ lt_fails e).
Proof.
  induction g as [|x k IHk r IHr]; intros db F G up S W Sk Gu Wg D.
  { left. exists db, G. cbn [load sp_load]. split; auto. split; auto. split; auto. split; auto. split; [intros p _ y Hy _; auto|].
    intros i. split; auto. intros [H|[]]; auto. }
  apply wf_cons_inv in Wg. destruct Wg as (Xk & Xr & Wk & Wr & Dkr).
  assert (Dx : ~ In (nid x) (ids F)) by (apply D; rewrite ids_cons; simpl; auto).
  assert (U : is_up (ups up) F).
  { intros p E. destruct up as [q|]; [|discriminate]. injection E as <-. apply (same_ids F G Sk). apply (stores_pks cfg _ _ _ S), in_map; auto. }
  destruct (sp_add_ids o (ups up) x F W U Dx) as (W1 & I1).
  cbn [load sp_load]. destruct (lt_add_same db F G up x S W Sk Gu Dx) as [(db1 & ob & G1 & -> & S1 & Sk1 & Hob & Pk & K1 & Le)|(e & -> & Fe)];
    [|right; exists e; auto]. cbn [bind].
  destruct (IHk db1 (sp_add o (ups up) x F) G1 (Some ob)) as [(db2 & G2 & -> & S2 & W2 & Sk2 & K2 & I2)|(e & -> & Fe)]; auto.
  { intros p E. injection E as <-. auto. }
  { intros i Hi Hin. apply I1 in Hin. destruct Hin as [Hin| ->]; [|tauto]. apply (D i); auto. rewrite ids_cons. simpl. rewrite in_app_iff. auto. }
  2:{ right. exists e. auto. }
  cbn [bind]. cbn [BulkFacts.ups option_map] in W2, Sk2, I2. rewrite Pk in W2, Sk2, I2.
  assert (K12 : above_kept up db db2).
  { intros p Ep y Hy Ly. apply (K2 ob eq_refl); [apply (K1 p Ep); auto|]. specialize (Le p Ep). lia. }
  destruct (IHr db2 (sp_load o (Some (nid x)) k (sp_add o (ups up) x F)) G2 up) as [(db3 & G3 & -> & S3 & W3 & Sk3 & K3 & I3)|(e & -> & Fe)]; auto.
  { intros p Ep. apply (K12 p Ep); auto. }
  { intros i Hi Hin. apply I2 in Hin. destruct Hin as [Hin|Hin]; [|apply (Dkr i); auto].
    apply I1 in Hin. destruct Hin as [Hin| ->]; [|tauto]. apply (D i); auto. rewrite ids_cons. simpl. rewrite in_app_iff. auto. }
  2:{ right. exists e. auto. }
  cbn [bind]. left. exists db3, G3. split; [rewrite Pk, ids_cons; auto|]. split; auto. split; auto. split; auto.
  split; [intros p Ep y Hy Ly; apply (K3 p Ep); auto; apply (K12 p Ep); auto|].
  intros i. rewrite I3, I2, I1, ids_cons. simpl. rewrite in_app_iff.
  assert (E : i = nid x <-> nid x = i) by (split; auto). tauto.
Qed.

(** Up to the order of siblings it does not matter how the nodes are sorted. *)
Lemma sp_load_same o1 o2 g : forall up F G, wf_ids F -> wf_ids G -> same_kids F G -> is_up up F -> wf_ids g ->
  (forall i, In i (ids g) -> ~ In i (ids F)) ->
  same_kids (sp_load o1 up g F) (sp_load o2 up g G) /\ wf_ids (sp_load o1 up g F) /\ wf_ids (sp_load o2 up g G) /\
  (forall i, In i (ids (sp_load o1 up g F)) <-> In i (ids F) \/ In i (ids g)).
Proof.
  induction g as [|x k IHk r IHr]; intros up F G WF WG Sk U Wg D; cbn [sp_load].
  { split; auto. split; auto. split; auto. intros i. split; auto. intros [H|[]]; auto. }
  apply wf_cons_inv in Wg. destruct Wg as (Xk & Xr & Wk & Wr & Dkr).
  assert (Dx : ~ In (nid x) (ids F)) by (apply D; rewrite ids_cons; simpl; auto).
  assert (DxG : ~ In (nid x) (ids G)) by (intros H; apply Dx, (same_ids F G Sk); auto).
  assert (UG : is_up up G) by (intros p E; apply (same_ids F G Sk); auto).
  destruct (sp_add_ids o1 up x F WF U Dx) as (W1 & I1). destruct (sp_add_ids o2 up x G WG UG DxG) as (W1' & _).
  assert (S1 : same_kids (sp_add o1 up x F) (sp_add o2 up x G)).
  { unfold sp_add. destruct up as [p|]; [apply same_add_child|apply same_add_root]; auto. }
  destruct (IHk (Some (nid x)) _ _ W1 W1' S1) as (S2 & W2 & W2' & I2); auto.
  { intros p E. injection E as <-. apply I1. auto. }
  { intros i Hi Hin. apply I1 in Hin. destruct Hin as [Hin| ->]; [|tauto]. apply (D i); auto. rewrite ids_cons. simpl. rewrite in_app_iff. auto. }
  destruct (IHr up _ _ W2 W2' S2) as (S3 & W3 & W3' & I3); auto.
  { intros p E. apply I2. left. apply I1. left. auto. }
  { intros i Hi Hin. apply I2 in Hin. destruct Hin as [Hin|Hin]; [|apply (Dkr i); auto].
    apply I1 in Hin. destruct Hin as [Hin| ->]; [|tauto]. apply (D i); auto. rewrite ids_cons. simpl. rewrite in_app_iff. auto. }
  split; auto. split; auto. split; auto. intros i. rewrite I3, I2, I1, ids_cons. simpl. rewrite in_app_iff.
  assert (E : i = nid x <-> nid x = i) by (split; auto). tauto.
Qed.

Lemma append_load ord up g F : wf_ids F -> is_up up F -> wf_ids g -> (forall i, In i (ids g) -> ~ In i (ids F)) ->
  same_kids (append up g F) (sp_load ord up g F).
Proof.
  intros W U Wg D. rewrite <- (sp_load_follows [] g up F); auto; try (intros No; congruence).
  apply sp_load_same; auto using same_refl.
Qed.

Theorem lt_load_sorted next keep_ids db F data parent g : stores (lt_rows db) F -> (forall p, parent = Some p -> In p (lt_rows db)) ->
  describes keep_ids next data g -> wf_ids g -> (forall i, In i (ids g) -> ~ In i (ids F)) ->
  (exists db' G, lt_load_bulk cfg next keep_ids db data parent = Ok (db', ids g) /\
     stores (lt_rows db') G /\ same_kids (sp_load o (ups parent) g F) G /\ same_kids (append (ups parent) g F) G) \/
  (exists e, lt_load_bulk cfg next keep_ids db data parent = Err e /\ lt_fails e).
Proof.
  intros St Hp De Wg D. destruct (prepare_ok _ _ _ _ De) as (m & E). unfold lt_load_bulk. rewrite E. cbn [bind].
  destruct (lt_load_same g db F F parent St (lt_wf _ _ _ St) (same_refl F) Hp Wg D) as [(db' & G & E1 & S' & _ & Sk & _)|(e & E1 & Fe)]; [left|right].
  - exists db', G. split; auto. split; auto. split; auto. eapply same_trans; [|exact Sk]. apply append_load; auto.
    + apply (lt_wf _ _ _ St).
    + intros p Ep. destruct parent as [q|]; [|discriminate]. injection Ep as <-. apply (stores_pks cfg _ _ _ St), in_map; auto.
  - exists e. auto.
Qed.
End LT.
