(** A site with an adjacency list tree (C54). *)
From Coq Require Import String List Arith Lia Bool ZArith.
From Verif Require Import Prelude Forest SpecFacts SpecSane SpecKids SpecPerm SpecRun CommonModel Order History
  FormModel FormSpec AdminModel BulkModel BulkFacts BulkLoad ALModel ALInv ALHist PropsAL BulkTrees PropsBulk
  FormSorted PropsForm PropsFormSorted PropsAdmin SiteModel Site.
Import ListNotations.

Section AL.
Variable o : ordering.

(** There is always room, and no fix_tree. *)
Definition al_kind : kind al_table := mkKind (fun _ _ _ => False) false eq.

(** What is asked of a request: new keys, values to sort by; and a change form is sent with a reference node that it offered, or with one that does not exist. *)
Definition al_ok (t : al_table) (r : request) : Prop :=
  fresh_req (map a_pk t) r /\ values_req o r /\
  match r with
  | Edit n _ ref _ => forall F k, stores o t F -> ref = Some k -> k <> n /\ ~ descends F n k
  | _ => True
  end.

Lemma al_get t F k : stores o t F ->
  (get_by_pk t k = Err DoesNotExist /\ ~ In k (ids F)) \/ exists r, get_by_pk t k = Ok r /\ In r t /\ a_pk r = k /\ In k (ids F).
Proof.
  intros (W & O & so & Fit & _). destruct (get_cases so t F W Fit k) as [(E & H)|(r & E & Hr & Er & H)].
  - left. rewrite <- has_false. auto.
  - right. exists r. rewrite <- has_spec. auto.
Qed.

Lemma al_pks t F : stores o t F -> forall i, In i (map a_pk t) <-> In i (ids F).
Proof.
  intros S i. split.
  - intros H. apply in_map_iff in H. destruct H as (r & <- & Hr). apply (stores_ids _ _ _ _ S Hr).
  - intros H. destruct (al_get t F i S) as [[_ N]|(r & _ & Hr & <- & _)]; [contradiction|]. apply in_map; auto.
Qed.

Lemma al_step t F r : stores o t F -> al_ok t r ->
  exists G, stores o (after t (al_serve o t r)) G /\ next_tree al_kind o t F r (al_serve o t r) G.
Proof.
  intros S (Fr & Va & Rq). assert (W := stores_wf _ _ _ S). assert (Pk := al_pks _ _ S).
  assert (Keep : forall a : reply al_table, (a = Refused /\ declined o F r \/ exists e, a = Failed e /\ raises o false F r e) ->
     exists G, stores o (after t a) G /\ next_tree al_kind o t F r a G).
  { intros a [(-> & H)|(e & -> & H)]; exists F; cbn; auto. }
  assert (New : forall (a : reply al_table) t' G, a = Done t' -> stores o t' G -> served o F r G ->
     exists G, stores o (after t a) G /\ next_tree al_kind o t F r a G).
  { intros a t' G -> S' Sv. exists G. cbn. eauto 6. }
  assert (Get := fun k => al_get t F k S).
  destruct r as [c|n q below|n d ref p|x ref p|keep next data parent|fp]; cbn [al_serve].
  - (* a call *)
    assert (Fc : fresh_call F c) by (intros i Hi; rewrite <- Pk; apply (Fr i Hi)).
    assert (C := C25_call o t F c S Fc Va).
    destruct (al_exec o t c) as [t'|e] eqn:E1, (sp_exec o F c) as [G|e'] eqn:E2; cbn [answer]; try contradiction.
    + apply (New _ t' G); auto.
    + subst e'. apply Keep. right. exists e. cbn. auto.
  - (* dragging *)
    destruct (Get n) as [[-> Hn]|(rn & -> & Hn & En & In_)].
    { apply Keep. left. cbn. auto. }
    destruct (Get q) as [[-> Ht]|(rt & -> & Ht & Et & It)].
    { apply Keep. left. cbn. auto. }
    destruct (C45_al_drag o t F rn rt below S Hn Ht) as [(Ow & E)|(Ow & t' & G & E & S' & D)]; rewrite En, Et in *; rewrite E.
    + apply Keep. left. cbn. auto.
    + assert (Ha : exists a, In a (preorder F) /\ nid a = n /\ ndata a = a_data rn).
      { exists (row_node rn). split; [|split; [rewrite <- En|]; reflexivity]. destruct S as (_ & _ & so & Fit & _).
        destruct (fits_pk so t F W Fit rn Hn) as (_ & _ & Hk & _). eapply kl_pre; eauto. }
      destruct Ha as (a & Ha & Ea & Ed). rewrite <- Ed in D. apply (New _ t' G); auto.
      cbn. split; auto. split; auto. exists a. auto.
  - (* the change form *)
    destruct (Get n) as [[-> Hn]|(rn & -> & Hn & En & In_)].
    { apply Keep. left. cbn. auto. }
    destruct (checked_cases a_pk (is_sorted o) t ref p (fun r => al_form_edit o t rn d r p)) as
      [(-> & H)|(Hp & Hk & rr & Er & Hr & ->)].
    { apply Keep. left. split; auto. cbn [declined]. right. destruct H as [H|(k & -> & H)]; [left; exact H|right].
      intros A. apply H. specialize (A k eq_refl). apply in_map_iff in A. destruct A as (b & <- & Hb). apply Pk. apply offered_iff in Hb.
      apply in_map. apply Hb. }
    assert (Href : forall r, rr = Some r -> In r t /\ a_pk r <> a_pk rn /\ ~ descends F (a_pk rn) (a_pk r)).
    { intros r X. split; auto. subst rr. cbn in Er. rewrite En. apply (Rq F); auto. }
    assert (Am : among ref (offered n F)).
    { intros k X. specialize (Hk k X). apply Pk in Hk. destruct (Rq F k S X) as [N1 N2]. apply in_map_iff in Hk. destruct Hk as (b & <- & Hb).
      apply in_map. apply offered_iff. auto. }
    destruct (C42_positions (sorts o) p Hp) as (P & EP).
    destruct (order_dec o) as [Eo|No].
    2:{ assert (Hs : sorts o = true) by (apply sorts_true; auto). assert (EP' := EP). rewrite Hs in EP'.
      destruct (C42_al_edit_sorted o t F rn d rr p P S Hn No (Va No) Href EP') as (t' & G & E & S' & OG & Fi).
      rewrite E; cbn [answer]. apply (New _ t' G); auto. cbn [served]. rewrite En, Er in Fi. split; auto. split; auto. split; auto.
      exists P. split; auto. rewrite Hs. auto. }
    assert (Hs : sorts o = false) by (rewrite Eo; auto).
    assert (Ko : kept_order o n F d) by (rewrite Eo; intros i b []).
    destruct (where_dec (mkWhere ref p) (shown (sorts o) n F)) as [Ew|Ew].
    + assert (Ew' : mkWhere (option_map a_pk rr) p = shown false (a_pk rn) F) by (rewrite Er, En, <- Hs; auto).
      destruct (C42_al_unchanged o t F rn d rr p S Hn Eo Ew') as (t' & E & S').
      rewrite E. cbn [answer]. rewrite En in S'. apply (New _ t' (set_data n d F)); auto. cbn [served]. split; auto. split; auto. split; auto. exists P. auto.
    + assert (Ew' : mkWhere (option_map a_pk rr) p <> shown false (a_pk rn) F) by (rewrite Er, En, <- Hs; auto).
      assert (EP' := EP). rewrite Hs in EP'.
      destruct (C42_al_edit o t F rn d rr p P S Hn Eo Href EP' Ew') as (t' & G & E & S' & Re); rewrite E; cbn [answer].
      apply (New _ t' G); auto. cbn [served]. rewrite En, Er in Re. split; auto. split; auto. split; auto.
      exists P. split; auto. right. rewrite Hs in *. auto.
  - (* a new node *)
    destruct (checked_cases a_pk (is_sorted o) t ref p (fun r => al_form_create o t x r p)) as
      [(-> & H)|(Hp & Hk & rr & Er & Hr & ->)].
    { apply Keep. left. split; auto. cbn [declined]. destruct H as [H|(k & -> & H)]; [left; exact H|right].
      intros A. apply H. apply Pk. apply (A k eq_refl). }
    assert (Am : among ref (preorder F)) by (intros k X; apply Pk; apply Hk; auto).
    destruct (C42_positions (sorts o) p Hp) as (P & EP).
    assert (Nx : ~ In (nid x) (ids F)) by (rewrite <- Pk; exact Fr).
    destruct (C42_al_create o t F x rr p P S Nx Va Hr EP) as (t' & G & E & S' & Cr); rewrite E; cbn [answer].
    rewrite Er in Cr. apply (New _ t' G); auto. cbn. eauto 6.
  - (* load_bulk *)
    assert (Hpar : (~ among parent (preorder F) /\ fetched (get_by_pk t) parent = Err DoesNotExist) \/
      (among parent (preorder F) /\ exists pr, fetched (get_by_pk t) parent = Ok pr /\ option_map a_pk pr = parent /\
         forall q, pr = Some q -> In (a_pk q) (ids F))).
    { destruct parent as [k|]; cbn [fetched].
      - destruct (Get k) as [[-> Hk]|(rk & -> & Hk & Ek & Ik)]; cbn [bind].
        + left. split; [rewrite among_ids; auto|auto].
        + right. rewrite among_ids. split; auto. exists (Some rk). cbn. rewrite Ek. split; auto. split; auto. intros q X. injection X as <-. congruence.
      - right. split; [apply among_none|]. exists None. cbn. split; auto. split; auto. discriminate. }
    destruct Hpar as [(Na & ->)|(Am & pr & -> & Epr & Hpr)]; cbn [bind answer].
    { apply Keep. right. exists DoesNotExist. cbn. auto. }
    destruct (describes_ex keep next data) as [(-> & Mi)|(g & D)].
    { unfold al_load_bulk. rewrite (prepare_missing next data 0 Mi). cbn [bind answer]. apply Keep. right. exists KeyError. cbn. auto 8. }
    destruct (Fr g D) as [Wg Dg].
    assert (H1 : forall q, option_map fresh pr = Some q -> In (a_pk (o_row q)) (ids F)).
    { intros q X. destruct pr as [r|]; [|discriminate]. injection X as <-. apply Hpr. auto. }
    assert (H2 : forall i, In i (ids g) -> ~ In i (ids F)) by (intros i Hi; rewrite <- Pk; auto).
    destruct (C12_al_load o next keep t F data (option_map fresh pr) g S H1 D Wg H2 (fun No => Va No g D)) as (t' & E & S' & _).
    rewrite E. cbn [bind answer]. assert (Eq : option_map (fun p => a_pk (o_row p)) (option_map fresh pr) = parent) by (rewrite <- Epr; destruct pr; auto).
    cbv zeta in S'. rewrite Eq in S'. apply (New _ t' (sp_load o parent g F)); auto. cbn. eauto.
  - (* there is no fix_tree *)
    apply Keep. right. exists AttributeError. cbn. auto.
Qed.
End AL.
