(** A site with an ltree (C54). *)
From Coq Require Import String List Arith Lia Bool ZArith.
From Verif Require Import Prelude Forest SpecFacts SpecSane SpecKids SpecPerm SpecRun CommonModel Order History
  FormModel FormSpec AdminModel BulkModel BulkFacts BulkLoad LTModel LTInv LTReads LTAdd LTHist PropsLT BulkTrees BulkLT BulkLTSorted PropsBulk
  FormSorted PropsForm PropsFormSorted PropsAdmin SiteModel Site.
Import ListNotations.

Section LT.
Variable cfg : lt_cfg.
Hypothesis max2 : 2 <= label_max cfg.
Notation o := (lt_order cfg).
Notation stores := (LTInv.stores cfg).

(** Given up when a label is too long or no short label is left; the order of siblings may differ. *)
Definition lt_given_up (db : lt_db) (r : request) (e : exn) : Prop :=
  match r with
  | Call _ | Drag _ _ _ => lt_full cfg db (Err e)
  | Fix _ => False
  | _ => e = DataError \/ e = ValueError
  end.
Definition lt_kind : kind lt_db := mkKind lt_given_up false same_kids.

(** What is asked of a request: new keys, and a change form that keeps a sorted tree
    sorted. *)
Definition lt_ok (db : lt_db) (r : request) : Prop :=
  fresh_req (map l_pk (lt_rows db)) r /\
  match r with
  | Edit n d ref p => forall F, stores (lt_rows db) F -> resorts o n F (mkWhere ref p) d
  | _ => True
  end.

Lemma tree_in t r : In r (get_tree t None None) -> In r t.
Proof. unfold get_tree, order_path. intros H. apply (Permutation.Permutation_in _ (isort_perm _ _)), filter_In in H. apply H. Qed.

Lemma no_label_full db q e : no_label cfg (lt_rows db) q (@Err unit e) -> lt_full cfg db (Err e).
Proof.
  intros [[E H]|[E H]]; injection E as ->; [left|right]; split; auto.
  exists q. exact H.
Qed.

Lemma no_label_exn {A} t q (out : res A) e : no_label cfg t q out -> out = Err e -> e = DataError \/ e = ValueError.
Proof. intros [[-> _]|[-> _]] X; injection X as <-; auto. Qed.

Lemma lt_node t F r : stores t F -> In r t -> In (node_of r) (preorder F).
Proof.
  intros S Hr. assert (E := C32_tree cfg t F None S). change (prune_opt (levels None) F) with F in E. rewrite <- E. apply in_map.
  unfold get_tree, order_path. apply (Permutation.Permutation_in _ (Permutation.Permutation_sym (isort_perm _ _))), filter_In. auto.
Qed.

Lemma lt_step db F r : stores (lt_rows db) F -> lt_ok db r ->
  exists G, stores (lt_rows (after db (lt_serve cfg db r))) G /\ next_tree lt_kind o db F r (lt_serve cfg db r) G.
Proof.
  intros S (Fr & Rq). assert (W := stores_wf _ _ _ S). assert (Pk := fun i => stores_pks cfg _ _ i S).
  assert (Keep : forall a : reply lt_db, (a = Refused /\ declined o F r \/ exists e, a = Failed e /\ (raises o false F r e \/ caught e = false /\ lt_given_up db r e)) ->
     exists G, stores (lt_rows (after db a)) G /\ next_tree lt_kind o db F r a G).
  { intros a [(-> & H)|(e & -> & [H|[C H]])]; exists F; cbn; auto. rewrite C, andb_false_r. auto. }
  assert (Ex : forall e, e = DataError \/ e = ValueError -> caught e = false) by (intros e [-> | ->]; auto).
  assert (New : forall (a : reply lt_db) db' G H, a = Done db' -> stores (lt_rows db') G -> same_kids H G -> served o F r H ->
     exists G, stores (lt_rows (after db a)) G /\ next_tree lt_kind o db F r a G).
  { intros a db' G H -> S' Sk Sv. exists G. cbn. eauto 6. }
  assert (Get : forall k, (get_by_pk (lt_rows db) k = Err DoesNotExist /\ ~ In k (ids F)) \/
     exists r, get_by_pk (lt_rows db) k = Ok r /\ In r (lt_rows db) /\ l_pk r = k /\ In k (ids F)).
  { intros k. destruct (lookup cfg db F k S) as [(H & x & Hx & Ex' & E)|(H & E)]; [right|left].
    - exists x. rewrite <- has_spec. auto.
    - rewrite <- has_false. auto. }
  destruct r as [c|n t below|n d ref p|x ref p|keep next data parent|fp]; cbn [lt_serve].
  - (* a call *)
    assert (Fc : fresh_call F c) by (intros i Hi; rewrite <- Pk; apply (Fr i Hi)).
    destruct (call_step cfg max2 db F c S Fc) as [(db' & G & H & E1 & E2 & S' & Sk & _)|[(e & E1 & E2)|(H & E2 & Fu)]].
    + rewrite E1. apply (New _ db' G H); auto.
    + rewrite E1. apply Keep. right. exists e. cbn. auto.
    + destruct Fu as [[E1 Fu]|[E1 Fu]]; rewrite E1; apply Keep; right; eexists; (split; [reflexivity|]); right; (split; [reflexivity|]); [left|right]; auto.
  - (* dragging *)
    destruct (Get n) as [[-> Hn]|(rn & -> & Hn & En & In_)].
    { apply Keep. left. cbn. auto. }
    destruct (Get t) as [[-> Ht]|(rt & -> & Ht & Et & It)].
    { apply Keep. left. cbn. auto. }
    destruct (C45_lt_drag_partial cfg max2 db F rn rt below S Hn Ht) as
      [(Ow & E)|(Ow & [(db' & G & H & E & S' & Sk & _ & D)|(e & E & NL)])]; rewrite En, Et in *; rewrite E.
    + apply Keep. left. cbn. auto.
    + assert (Ha : exists a, In a (preorder F) /\ nid a = n /\ ndata a = l_data rn).
      { exists (node_of rn). split; [|split; [rewrite <- En|]; reflexivity]. apply (lt_node _ _ _ S Hn). }
      destruct Ha as (a & Ha & Ea & Ed). rewrite <- Ed in D. apply (New _ db' G H); auto.
      cbn. split; auto. split; auto. exists a. auto.
    + apply Keep. right. exists e. split; auto. right. split; [apply Ex, (no_label_exn _ _ _ e NL eq_refl)|]. apply (no_label_full _ _ _ NL).
  - (* the change form *)
    destruct (Get n) as [[-> Hn]|(rn & -> & Hn & En & In_)].
    { apply Keep. left. cbn. auto. }
    assert (Ch := proj2 (C42_lt_choices cfg _ F S) rn Hn).
    assert (Ch' : map l_pk (lt_choices (lt_rows db) (Some rn)) = map nid (offered n F)).
    { rewrite <- En, <- Ch, map_map. reflexivity. }
    destruct (checked_cases l_pk (is_sorted cfg) (lt_choices (lt_rows db) (Some rn)) ref p (fun r => lt_form_edit cfg db rn d r p)) as
      [(-> & H)|(Hp & Hk & rr & Er & Hr & ->)].
    { apply Keep. left. split; auto. cbn [declined]. right. destruct H as [H|(k & -> & H)]; [left; exact H|right].
      intros A. apply H. rewrite Ch'. apply (A k eq_refl). }
    assert (Am : among ref (offered n F)) by (intros k X; rewrite <- Ch'; apply Hk; auto).
    destruct (C42_positions (sorts o) p Hp) as (P & EP).
    assert (Href : forall t, rr = Some t -> In t (lt_rows db) /\ l_pk t <> l_pk rn /\ ~ descends F (l_pk rn) (l_pk t)).
    { intros t X. specialize (Hr t X). assert (Ht : In (node_of t) (offered n F)) by (rewrite <- En, <- Ch; apply in_map; auto).
      apply offered_iff in Ht. rewrite En. destruct Ht as (Ht & N1 & N2). split; [|auto].
      unfold lt_choices in Hr. apply filter_In in Hr. destruct Hr as [Hr _]. apply (tree_in _ _ Hr). }
    specialize (Rq F S). destruct (order_dec o) as [Eo|No].
    2:{ assert (Hs : sorts o = true) by (apply sorts_true; auto). assert (EP' := EP). rewrite Hs in EP'.
      destruct (calls_dec o n F (mkWhere ref p) d) as [Ec|Ec].
      - assert (Ec' : calls_move o (l_pk rn) F (mkWhere (option_map l_pk rr) p) d) by (rewrite Er, En; auto).
        destruct (C42_lt_edit_sorted_partial cfg max2 db F rn d rr p P S Hn No Href EP' Ec') as
          (db1 & t1 & Q & _ & _ & _ & [(db' & G & H & E & S' & Fi & _ & Sk & _)|NL]).
        + rewrite E; cbn [answer]. apply (New _ db' G H); auto. cbn [served]. rewrite En, Er in Fi. split; auto. split; auto. split; auto.
          exists P. split; auto. rewrite Hs. auto.
        + destruct (lt_form_edit cfg db rn d rr p) as [?|e] eqn:E; [destruct NL as [[X _]|[X _]]; discriminate|]. cbn [answer].
          assert (X := no_label_exn _ _ _ e NL eq_refl). apply Keep. right. exists e. split; auto.
      - destruct Rq as [Rs|Rs]; [contradiction|]. assert (Ew := proj1 (not_calls _ _ _ _ _ Ec)).
        assert (Ec' : ~ calls_move o (l_pk rn) F (mkWhere (option_map l_pk rr) p) d) by (rewrite Er, En; auto).
        destruct (C42_lt_kept_sorted cfg db F rn d rr p S Hn No Ec') as (db' & E & S' & _).
        rewrite E. cbn [answer]. rewrite En in S'. apply (New _ db' (set_data n d F) (set_data n d F)); auto; [apply same_refl|].
        cbn [served]. split; auto. split; auto. split; auto. exists P. split; auto. left. rewrite Hs. auto. }
    assert (Hs : sorts o = false) by (rewrite Eo; auto).
    assert (Ko : kept_order o n F d) by (rewrite Eo; intros i b []).
    destruct (where_dec (mkWhere ref p) (shown (sorts o) n F)) as [Ew|Ew].
    + assert (Ew' : mkWhere (option_map l_pk rr) p = shown false (l_pk rn) F) by (rewrite Er, En, <- Hs; auto).
      destruct (C42_lt_unchanged cfg db F rn d rr p S Hn Eo Ew') as (db' & E & S').
      rewrite E. cbn [answer]. rewrite En in S'. apply (New _ db' (set_data n d F) (set_data n d F)); auto; [apply same_refl|]. cbn [served]. split; auto. split; auto. split; auto. exists P. auto.
    + assert (Ew' : mkWhere (option_map l_pk rr) p <> shown false (l_pk rn) F) by (rewrite Er, En, <- Hs; auto).
      assert (EP' := EP). rewrite Hs in EP'.
      destruct (C42_lt_edit_partial cfg max2 db F rn d rr p P S Hn Eo Href EP' Ew') as
        (db1 & t1 & Q & _ & _ & _ & [(db' & G & H & E & S' & Re & Sk & _)|NL]).
      * rewrite E; cbn [answer]. apply (New _ db' G H); auto. cbn [served]. rewrite En, Er in Re. split; auto. split; auto. split; auto.
        exists P. split; auto. right. rewrite Hs in *. auto.
      * destruct (lt_form_edit cfg db rn d rr p) as [?|e] eqn:E; [destruct NL as [[X _]|[X _]]; discriminate|]. cbn [answer].
        assert (X := no_label_exn _ _ _ e NL eq_refl). apply Keep. right. exists e. split; auto.
  - (* a new node *)
    assert (Ch := proj1 (C42_lt_choices cfg _ F S)).
    assert (Ch' : map l_pk (lt_choices (lt_rows db) None) = map nid (preorder F)) by (rewrite <- Ch, map_map; reflexivity).
    destruct (checked_cases l_pk (is_sorted cfg) (lt_choices (lt_rows db) None) ref p (fun r => lt_form_create cfg db (mkNew (nid x) (ndata x)) r p)) as
      [(-> & H)|(Hp & Hk & rr & Er & Hr & ->)].
    { apply Keep. left. split; auto. cbn [declined]. destruct H as [H|(k & -> & H)]; [left; exact H|right].
      intros A. apply H. rewrite Ch'. apply (A k eq_refl). }
    assert (Am : among ref (preorder F)) by (intros k X; rewrite <- Ch'; apply Hk; auto).
    destruct (C42_positions (sorts o) p Hp) as (P & EP).
    assert (Nx : ~ In (nid x) (ids F)) by (rewrite <- Pk; exact Fr).
    assert (Href : forall t, rr = Some t -> In t (lt_rows db)) by (intros t X; apply (tree_in _ _ (Hr t X))).
    change (mkNew (nid x) (ndata x)) with (new_of x).
    destruct (C42_lt_create_sorted_partial cfg max2 db F x rr p P S Nx Href EP) as [(db' & G & H & E & S' & Cr & Sk & _)|NL].
    + rewrite E; cbn [answer]. rewrite Er in Cr. apply (New _ db' G H); auto. cbn. eauto 6.
    + assert (X : forall e, lt_form_create cfg db (new_of x) rr p = Err e -> e = DataError \/ e = ValueError).
      { intros e E. destruct rr as [t1|]; [destruct NL as [NL|(? & ? & _ & NL)]|]; apply (no_label_exn _ _ _ e NL E). }
      destruct (lt_form_create cfg db (new_of x) rr p) as [?|e] eqn:E.
      * exfalso. destruct rr as [t1|]; [destruct NL as [NL|(? & ? & _ & NL)]|]; destruct NL as [[Y _]|[Y _]]; discriminate.
      * cbn [answer]. specialize (X e eq_refl). apply Keep. right. exists e. split; auto.
  - (* load_bulk *)
    assert (Hpar : (~ among parent (preorder F) /\ fetched (get_by_pk (lt_rows db)) parent = Err DoesNotExist) \/
      (among parent (preorder F) /\ exists pr, fetched (get_by_pk (lt_rows db)) parent = Ok pr /\ option_map l_pk pr = parent /\
         forall q, pr = Some q -> In q (lt_rows db))).
    { destruct parent as [k|]; cbn [fetched].
      - destruct (Get k) as [[-> Hk]|(rk & -> & Hk & Ek & Ik)]; cbn [bind].
        + left. split; [rewrite among_ids; auto|auto].
        + right. rewrite among_ids. split; auto. exists (Some rk). cbn. rewrite Ek. split; auto. split; auto. intros q X. injection X as <-. auto.
      - right. split; [apply among_none|]. exists None. cbn. split; auto. split; auto. discriminate. }
    destruct Hpar as [(Na & ->)|(Am & pr & -> & Epr & Hpr)]; cbn [bind answer].
    { apply Keep. right. exists DoesNotExist. cbn. auto. }
    destruct (describes_ex keep next data) as [(-> & Mi)|(g & D)].
    { unfold lt_load_bulk. rewrite (prepare_missing next data 0 Mi). cbn [bind answer]. apply Keep. right. exists KeyError. cbn. auto 8. }
    destruct (Fr g D) as [Wg Dg].
    assert (H2 : forall i, In i (ids g) -> ~ In i (ids F)) by (intros i Hi; rewrite <- Pk; auto).
    destruct (lt_load_sorted cfg max2 next keep db F data pr g S Hpr D Wg H2) as [(db' & G & E & S' & Sk & _)|(e & E & X)]; rewrite E; cbn [bind answer].
    + unfold ups in Sk. rewrite Epr in Sk. apply (New _ db' G (sp_load o parent g F)); auto.
      cbn. eauto.
    + apply Keep. right. exists e. split; auto.
  - (* there is no fix_tree *)
    apply Keep. right. exists AttributeError. cbn. auto.
Qed.
End LT.
