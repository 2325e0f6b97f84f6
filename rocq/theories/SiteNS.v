(** A site with a nested sets tree (C54). *)
From Coq Require Import String List Arith Lia Bool ZArith.
From Verif Require Import Prelude Forest SpecFacts SpecSane SpecKids SpecPerm SpecRun CommonModel Order History
  FormModel FormSpec AdminModel BulkModel BulkFacts BulkLoad NSModel NSInv NSReads NSHist PropsNS BulkTrees PropsBulk
  FormSorted PropsForm PropsFormSorted PropsAdmin SiteModel Site.
Import ListNotations.

Section NS.
Variable o : ordering.

(** There is always room, and no fix_tree. *)
Definition ns_kind : kind ns_db := mkKind (fun _ _ _ => False) false eq.

(** What is asked of a request: new keys, values to sort by, a change form that
    keeps a sorted tree sorted, and a reference node for which the form for a new node works (see C42). *)
Definition ns_ok (db : ns_db) (r : request) : Prop :=
  fresh_req (map n_pk (ns_rows db)) r /\ values_req o r /\
  match r with
  | Edit n d ref p => forall F, stores (ns_rows db) F -> resorts o n F (mkWhere ref p) d
  | Create _ (Some k) p => forall F P, stores (ns_rows db) F -> prepare_pos_move (sorts o) (Some p) = Ok P -> usable F k P
  | _ => True
  end.

Lemma ns_pks t F : stores t F -> forall i, In i (map n_pk t) <-> In i (ids F).
Proof. intros (W & ts & I & P) i. split; apply Permutation.Permutation_in; [|symmetry]; apply (pks _ F ts I P). Qed.

Lemma tree_in t r : In r (get_tree t None None) -> In r t.
Proof. unfold get_tree, order_rows. intros H. apply (Permutation.Permutation_in _ (isort_perm _ _)), filter_In in H. apply H. Qed.

Lemma ns_node t F r : stores t F -> In r t -> In (row_node r) (preorder F).
Proof.
  intros S Hr. destruct (C20_tree t F None S) as [E _]. change (prune_opt (levels None) F) with F in E. rewrite <- E. apply in_map.
  unfold get_tree, order_rows. apply (Permutation.Permutation_in _ (Permutation.Permutation_sym (isort_perm _ _))), filter_In. auto.
Qed.

Lemma ns_step db F r : stores (ns_rows db) F /\ ordered o F -> ns_ok db r ->
  exists G, (stores (ns_rows (after db (ns_serve o db r))) G /\ ordered o G) /\
    next_tree ns_kind o db F r (ns_serve o db r) G.
Proof.
  intros (S & O) (Fr & Va & Rq). assert (W := stores_wf _ _ S). assert (Pk := ns_pks _ _ S).
  assert (Keep : forall a : reply ns_db, (a = Refused /\ declined o F r \/ exists e, a = Failed e /\ raises o false F r e) ->
     exists G, (stores (ns_rows (after db a)) G /\ ordered o G) /\ next_tree ns_kind o db F r a G).
  { intros a [(-> & H)|(e & -> & H)]; exists F; cbn; auto. }
  assert (New : forall (a : reply ns_db) db' G, a = Done db' -> stores (ns_rows db') G -> ordered o G -> served o F r G ->
     exists G, (stores (ns_rows (after db a)) G /\ ordered o G) /\ next_tree ns_kind o db F r a G).
  { intros a db' G -> S' O' Sv. exists G. cbn. eauto 6. }
  assert (Get : forall k, (get_by_pk (ns_rows db) k = Err DoesNotExist /\ ~ In k (ids F)) \/
     exists r, get_by_pk (ns_rows db) k = Ok r /\ In r (ns_rows db) /\ n_pk r = k /\ In k (ids F)).
  { intros k. destruct (get_pk_cases _ F k S) as [[E H]|(x & E & Hx & Ex & H)]; [left; rewrite <- has_false; auto|right].
    exists x. rewrite <- has_spec. auto. }
  destruct r as [c|n t below|n d ref p|x ref p|keep next data parent|fp]; cbn [ns_serve].
  - (* a call *)
    assert (Fc : fresh_call F c) by (intros i Hi; rewrite <- Pk; apply (Fr i Hi)).
    assert (C := C16_call o db F c S Fc).
    destruct (ns_exec o db c) as [db'|e] eqn:E1, (sp_exec o F c) as [G|e'] eqn:E2; cbn [answer]; try contradiction.
    + apply (New _ db' G); auto. rewrite (sp_exec_ok _ _ _ _ E2). apply sp_call_ordered; auto.
    + subst e'. apply Keep. right. exists e. cbn. auto.
  - (* dragging *)
    destruct (Get n) as [[-> Hn]|(rn & -> & Hn & En & In_)].
    { apply Keep. left. cbn. auto. }
    destruct (Get t) as [[-> Ht]|(rt & -> & Ht & Et & It)].
    { apply Keep. left. cbn. auto. }
    destruct (C45_ns_drag o db F rn rt below S Hn Ht) as [(Ow & E)|(Ow & db' & G & E & S' & D)]; rewrite En, Et in *; rewrite E.
    + apply Keep. left. cbn. auto.
    + assert (Ha : exists a, In a (preorder F) /\ nid a = n /\ ndata a = n_data rn).
      { exists (row_node rn). split; [|split; [rewrite <- En|]; reflexivity]. apply (ns_node _ _ _ S Hn). }
      destruct Ha as (a & Ha & Ea & Ed). rewrite <- Ed in D. apply (New _ db' G); auto.
      * apply (dragged_ordered o F G n t below a); auto. apply (stores_wf _ _ S').
      * cbn. split; auto. split; auto. exists a. auto.
  - (* the change form *)
    destruct (Get n) as [[-> Hn]|(rn & -> & Hn & En & In_)].
    { apply Keep. left. cbn. auto. }
    assert (Ch := proj2 (C42_ns_choices _ F S) rn Hn).
    assert (Ch' : map n_pk (ns_choices (ns_rows db) (Some rn)) = map nid (offered n F)).
    { rewrite <- En, <- Ch, map_map. reflexivity. }
    destruct (checked_cases n_pk (is_sorted o) (ns_choices (ns_rows db) (Some rn)) ref p (fun r => ns_form_edit o db rn d r p)) as
      [(-> & H)|(Hp & Hk & rr & Er & Hr & ->)].
    { apply Keep. left. split; auto. cbn [declined]. right. destruct H as [H|(k & -> & H)]; [left; exact H|right].
      intros A. apply H. rewrite Ch'. apply (A k eq_refl). }
    assert (Am : among ref (offered n F)) by (intros k X; rewrite <- Ch'; apply Hk; auto).
    destruct (C42_positions (sorts o) p Hp) as (P & EP).
    assert (Href : forall t, rr = Some t -> In t (ns_rows db) /\ n_pk t <> n_pk rn /\ ~ descends F (n_pk rn) (n_pk t)).
    { intros t X. specialize (Hr t X). assert (Ht : In (row_node t) (offered n F)) by (rewrite <- En, <- Ch; apply in_map; auto).
      apply offered_iff in Ht. rewrite En. destruct Ht as (Ht & N1 & N2). split; [|auto].
      unfold ns_choices in Hr. apply filter_In in Hr. destruct Hr as [Hr _]. apply (tree_in _ _ Hr). }
    specialize (Rq F S). destruct (order_dec o) as [Eo|No].
    2:{ assert (Hs : sorts o = true) by (apply sorts_true; auto). assert (EP' := EP). rewrite Hs in EP'.
      destruct (calls_dec o n F (mkWhere ref p) d) as [Ec|Ec].
      - assert (Ec' : calls_move o (n_pk rn) F (mkWhere (option_map n_pk rr) p) d) by (rewrite Er, En; auto).
        destruct (C42_ns_edit_sorted o db F rn d rr p P S O Hn No (Va No) Href EP' Ec') as (db' & G & E & S' & OG & Fi).
        rewrite E; cbn [answer].
        apply (New _ db' G); auto. cbn [served]. rewrite En, Er in Fi. split; auto. split; auto. split; auto. exists P. split; auto. rewrite Hs. auto.
      - destruct Rq as [Rs|Rs]; [contradiction|]. assert (Ew := proj1 (not_calls _ _ _ _ _ Ec)).
        assert (Ec' : ~ calls_move o (n_pk rn) F (mkWhere (option_map n_pk rr) p) d) by (rewrite Er, En; auto).
        destruct (C42_ns_kept_sorted o db F rn d rr p S O Hn No Ec') as (db' & E & S' & OG).
        rewrite E. cbn [answer]. rewrite En in S', OG. apply (New _ db' (set_data n d F)); auto.
        + apply OG. intros i b Hb. rewrite <- (Rs i b Hb). rewrite <- En.
          rewrite (data_of_spec (n_pk rn) F (row_node rn) W (ns_node _ _ _ S Hn) eq_refl). auto.
        + cbn [served]. split; auto. split; auto. split; auto. exists P. split; auto. left. rewrite Hs. auto. }
    assert (Hs : sorts o = false) by (rewrite Eo; auto).
    assert (Ko : kept_order o n F d) by (rewrite Eo; intros i b []).
    destruct (where_dec (mkWhere ref p) (shown (sorts o) n F)) as [Ew|Ew].
    + assert (Ew' : mkWhere (option_map n_pk rr) p = shown false (n_pk rn) F) by (rewrite Er, En, <- Hs; auto).
      destruct (C42_ns_unchanged o db F rn d rr p S Hn Eo Ew') as (db' & E & S').
      rewrite E. cbn [answer]. rewrite En in S'. apply (New _ db' (set_data n d F)); auto; [intros No; congruence|]. cbn [served]. split; auto. split; auto. split; auto. exists P. auto.
    + assert (Ew' : mkWhere (option_map n_pk rr) p <> shown false (n_pk rn) F) by (rewrite Er, En, <- Hs; auto).
      assert (EP' := EP). rewrite Hs in EP'.
      destruct (C42_ns_edit o db F rn d rr p P S Hn Eo Href EP' Ew') as (db' & G & E & S' & Re); rewrite E; cbn [answer].
      apply (New _ db' G); auto; [intros No; congruence|]. cbn [served]. rewrite En, Er in Re. split; auto. split; auto. split; auto.
      exists P. split; auto. right. rewrite Hs in *. auto.
  - (* a new node *)
    assert (Ch := proj1 (C42_ns_choices _ F S)).
    assert (Ch' : map n_pk (ns_choices (ns_rows db) None) = map nid (preorder F)) by (rewrite <- Ch, map_map; reflexivity).
    destruct (checked_cases n_pk (is_sorted o) (ns_choices (ns_rows db) None) ref p (fun r => ns_form_create o db x r p)) as
      [(-> & H)|(Hp & Hk & rr & Er & Hr & ->)].
    { apply Keep. left. split; auto. cbn [declined]. destruct H as [H|(k & -> & H)]; [left; exact H|right].
      intros A. apply H. rewrite Ch'. apply (A k eq_refl). }
    assert (Am : among ref (preorder F)) by (intros k X; rewrite <- Ch'; apply Hk; auto).
    destruct (C42_positions (sorts o) p Hp) as (P & EP).
    assert (Nx : ~ In (nid x) (ids F)) by (rewrite <- Pk; exact Fr).
    assert (Href : forall t, rr = Some t -> In t (ns_rows db) /\ usable F (n_pk t) P).
    { intros t X. split; [apply (tree_in _ _ (Hr t X))|]. subst rr. cbn in Er. rewrite <- Er in Rq. apply Rq; auto. }
    destruct (C42_ns_create_partial o db F x rr p P S Nx Href EP) as (db' & G & E & S' & Cr); rewrite E; cbn [answer].
    rewrite Er in Cr. apply (New _ db' G); auto.
    + apply (created_ordered o F G x ref p P); auto. apply (stores_wf _ _ S').
    + cbn. eauto 6.
  - (* load_bulk *)
    assert (Hpar : (~ among parent (preorder F) /\ fetched (get_by_pk (ns_rows db)) parent = Err DoesNotExist) \/
      (among parent (preorder F) /\ exists pr, fetched (get_by_pk (ns_rows db)) parent = Ok pr /\ option_map n_pk pr = parent /\
         forall q, pr = Some q -> In (n_pk q) (ids F))).
    { destruct parent as [k|]; cbn [fetched].
      - destruct (Get k) as [[-> Hk]|(rk & -> & Hk & Ek & Ik)]; cbn [bind].
        + left. split; [rewrite among_ids; auto|auto].
        + right. rewrite among_ids. split; auto. exists (Some rk). cbn. rewrite Ek. split; auto. split; auto. intros q X. injection X as <-. congruence.
      - right. split; [apply among_none|]. exists None. cbn. split; auto. split; auto. discriminate. }
    destruct Hpar as [(Na & ->)|(Am & pr & -> & Epr & Hpr)]; cbn [bind answer].
    { apply Keep. right. exists DoesNotExist. cbn. auto. }
    destruct (describes_ex keep next data) as [(-> & Mi)|(g & D)].
    { unfold ns_load_bulk. rewrite (prepare_missing next data 0 Mi). cbn [bind answer]. apply Keep. right. exists KeyError. cbn. auto 8. }
    destruct (Fr g D) as [Wg Dg].
    destruct (C22_load_any o next keep db F data pr g S O Hpr D Wg) as (db' & E & S' & O').
    + intros i Hi. rewrite <- Pk. auto.
    + intros No. apply (Va No g D).
    + rewrite E. cbn [bind answer]. rewrite Epr in *. apply (New _ db' (sp_load o parent g F)); auto. cbn. eauto.
  - (* there is no fix_tree *)
    apply Keep. right. exists AttributeError. cbn. auto.
Qed.
End NS.
