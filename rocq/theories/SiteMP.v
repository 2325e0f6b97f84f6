(** A site with a tree of materialized paths (C54). *)
From Coq Require Import String List Arith Lia Bool ZArith.
From Verif Require Import Prelude Forest SpecFacts SpecSane SpecKids SpecPerm SpecRun CommonModel Order History
  FormModel FormSpec AdminModel BulkModel BulkFacts BulkLoad MPModel MPInv MPReads MPHist MPMoveOk MPFixModel MPCheck MPFixPaths PropsMP BulkTrees PropsBulk
  FormSorted PropsForm PropsFormSorted PropsAdmin SiteModel Site.
Import ListNotations.

Section MP.
Variable cfg : mp_cfg.
Hypothesis radix2 : 2 <= radix cfg.
Hypothesis step1 : 1 <= steplen cfg.
(** A sorted class has an alphabet in the order of code points (C51_edit_refuted). *)
Hypothesis py : order_by cfg <> [] -> py_agrees cfg.
Notation o := (order_by cfg).
Notation stores := (MPInv.stores cfg).

(** Given up when the key space is used up; a node that is created below another one is put there
    as its last child first. *)
Definition mp_given_up (db : mp_db) (r : request) (e : exn) : Prop :=
  e = PathOverflow /\
  match r with
  | Create x (Some k) _ =>
      mp_full cfg (db_rows db) \/
      exists t db1 r1 t1, In t (db_rows db) /\ m_pk t = k /\
        add_child cfg db t (mkNew (nid x) 0 (ndata x)) = Ok (db1, r1, t1) /\ mp_full cfg (db_rows db1)
  | LoadBulk _ _ _ _ => True
  | Fix fix_paths => fix_paths = true /\ o <> [] /\ ~ has_room cfg (db_rows db)
  | _ => mp_full cfg (db_rows db)
  end.
Definition mp_kind : kind mp_db := mkKind mp_given_up true eq.

(** What is asked of a request: new keys, values to sort by, some free steps for a request
    that moves nodes, and a change form that keeps a sorted tree sorted. *)
Definition mp_ok (db : mp_db) (r : request) : Prop :=
  fresh_req (map m_pk (db_rows db)) r /\ values_req o r /\
  match r with
  | Call (CMove _ _ _) | Drag _ _ _ => roomy_by cfg 2 (db_rows db)
  | Edit n d ref p => (forall F, stores (db_rows db) F -> resorts o n F (mkWhere ref p) d) /\ roomy_by cfg 2 (db_rows db)
  | Create _ _ _ => roomy_by cfg 3 (db_rows db)
  | _ => True
  end.

Lemma mp_pks t F : stores t F -> forall i, In i (map m_pk t) <-> In i (ids F).
Proof. intros (f & L & _ & <- & _) i. split; apply Permutation.Permutation_in; [|symmetry]; apply (lay_pks cfg _ _ L). Qed.

Lemma roomy_temp t q np : roomy_by cfg 2 t -> temp_room cfg t q np.
Proof. intros H _ r Hr _. apply H; auto. Qed.

Lemma tree_in t r : In r (get_tree t None None) -> In r t.
Proof. unfold get_tree, order_path. intros H. apply (Permutation.Permutation_in _ (isort_perm _ _)), filter_In in H. apply H. Qed.

Lemma mp_step db F r : stores (db_rows db) F /\ ordered o F -> mp_ok db r ->
  exists G, (stores (db_rows (after db (mp_serve cfg db r))) G /\ ordered o G) /\
    next_tree mp_kind o db F r (mp_serve cfg db r) G.
Proof.
  intros (S & O) (Fr & Va & Rq). assert (W := stores_wf _ _ _ S). assert (Pk := mp_pks _ _ S).
  assert (Keep : forall a : reply mp_db, (a = Refused /\ (declined o F r \/ is_drag r = true /\ mp_given_up db r PathOverflow) \/
     exists e, a = Failed e /\ (raises o true F r e \/ is_drag r = false /\ mp_given_up db r e)) ->
     exists G, (stores (db_rows (after db a)) G /\ ordered o G) /\ next_tree mp_kind o db F r a G).
  { intros a [(-> & [H|[D H]])|(e & -> & [H|[D H]])]; exists F; cbn; rewrite ?D; auto.
    split; auto. split; auto. right. split; auto. exists PathOverflow. auto. }
  assert (New : forall (a : reply mp_db) db' G, a = Done db' -> stores (db_rows db') G -> ordered o G -> served o F r G ->
     exists G, (stores (db_rows (after db a)) G /\ ordered o G) /\ next_tree mp_kind o db F r a G).
  { intros a db' G -> S' O' Sv. exists G. cbn. eauto 6. }
  destruct r as [c|n t below|n d ref p|x ref p|keep next data parent|fp]; cbn [mp_serve].
  - (* a call *)
    assert (Fc : fresh_call F c) by (intros i Hi; rewrite <- Pk; apply (Fr i Hi)).
    assert (C := C08_overflow cfg radix2 step1 db F c (conj S O) Va Fc).
    destruct (mp_exec cfg db c) as [db'|e] eqn:E1, (sp_exec o F c) as [G|e'] eqn:E2; cbn [answer].
    + destruct C as [S' O']; [destruct c; auto|]. apply (New _ db' G); auto.
    + destruct C; destruct c; auto.
    + destruct C as [-> Fu]; [destruct c; auto|]. apply Keep. right. exists PathOverflow. unfold mp_given_up. cbn. auto.
    + assert (C' : e = e') by (apply C; destruct c; auto). subst e'. apply Keep. right. exists e. cbn. auto.
  - (* dragging *)
    destruct (get_pk_cases cfg _ F n S) as [[-> Hn]|(rn & -> & Hn & En & In_)].
    { apply Keep. left. cbn. auto. }
    destruct (get_pk_cases cfg _ F t S) as [[-> Ht]|(rt & -> & Ht & Et & It)].
    { apply Keep. left. cbn. auto. }
    destruct (C45_mp_drag cfg radix2 step1 db F rn rt below S O Hn Ht (roomy_temp _ _ _ Rq)) as
      [(Ow & E)|(Ow & [(db' & G & E & S' & D)|(E & r & Hr & Er)])]; rewrite En, Et in *.
    + rewrite E. apply Keep. left. cbn. auto.
    +
      assert (Ha : exists a, In a (preorder F) /\ nid a = n /\ ndata a = m_data rn).
      { exists (node_of rn). split; [|split; [rewrite <- En|]; reflexivity]. eapply mp_all; eauto. }
      destruct Ha as (a & Ha & Ea & Ed). rewrite <- Ed in D.
      rewrite E. apply (New _ db' G); auto.
      * apply (dragged_ordered o F G n t below a); auto. apply (stores_wf _ _ _ S').
      * cbn. split; auto. split; auto. exists a. auto.
    + rewrite E. apply Keep. left. split; auto. right. split; auto. split; auto. left. eauto.
  - (* the change form *)
    destruct Rq as [Rs Rm]. specialize (Rs F S).
    destruct (get_pk_cases cfg _ F n S) as [[-> Hn]|(rn & -> & Hn & En & In_)].
    { apply Keep. left. cbn. auto. }
    assert (Ch := proj2 (C42_mp_choices cfg radix2 step1 _ F S) rn Hn).
    assert (Ch' : map m_pk (mp_choices (db_rows db) (Some rn)) = map nid (offered n F)).
    { rewrite <- En, <- Ch, map_map. reflexivity. }
    destruct (checked_cases m_pk (is_sorted cfg) (mp_choices (db_rows db) (Some rn)) ref p (fun r => mp_form_edit cfg db rn d r p)) as
      [(-> & H)|(Hp & Hk & rr & Er & Hr & ->)].
    { apply Keep. left. split; auto. left. cbn [declined]. right. destruct H as [H|(k & -> & H)]; [left; exact H|right].
      intros A. apply H. rewrite Ch'. apply (A k eq_refl). }
    assert (Am : among ref (offered n F)) by (intros k X; rewrite <- Ch'; apply Hk; auto).
    destruct (C42_positions (sorts o) p Hp) as (P & EP).
    assert (Href : forall t, rr = Some t -> In t (db_rows db) /\ m_pk t <> m_pk rn /\ ~ descends F (m_pk rn) (m_pk t)).
    { intros t X. specialize (Hr t X). assert (Ht : In (node_of t) (offered n F)) by (rewrite <- En, <- Ch; apply in_map; auto).
      apply offered_iff in Ht. rewrite En. destruct Ht as (Ht & N1 & N2). split; [|auto].
      unfold mp_choices in Hr. apply filter_In in Hr. destruct Hr as [Hr _]. apply (tree_in _ _ Hr). }
    destruct (order_dec o) as [Eo|No].
    2:{ assert (Hs : sorts o = true) by (apply sorts_true; auto). assert (EP' := EP). rewrite Hs in EP'.
      destruct (calls_dec o n F (mkWhere ref p) d) as [Ec|Ec].
      - assert (Ec' : calls_move o (m_pk rn) F (mkWhere (option_map m_pk rr) p) d) by (rewrite Er, En; auto).
        destruct (C42_mp_edit_sorted cfg radix2 step1 (py No) db F rn d rr p P S O Hn No (Va No) Href EP' Ec' Rm) as
          [(db' & G & E & S' & OG & Fi)|(E & q & Tk)]; rewrite E; cbn [answer].
        + apply (New _ db' G); auto. cbn [served]. rewrite En, Er in Fi. split; auto. split; auto. split; auto. exists P. split; auto. rewrite Hs. auto.
        + apply Keep. right. exists PathOverflow. split; auto. right. split; auto. split; auto. left. destruct Tk as (y & Hy & Ey). eauto.
      - destruct Rs as [Rs|Rs]; [contradiction|]. assert (Ew := proj1 (not_calls _ _ _ _ _ Ec)).
        assert (Ec' : ~ calls_move o (m_pk rn) F (mkWhere (option_map m_pk rr) p) d) by (rewrite Er, En; auto).
        destruct (C42_mp_kept_sorted cfg radix2 step1 db F rn d rr p S O Hn No Ec') as (db' & E & S' & _ & OG).
        rewrite E. cbn [answer]. rewrite En in S', OG. apply (New _ db' (set_data n d F)); auto.
        + apply OG. intros i b Hb. rewrite <- (Rs i b Hb). rewrite <- En.
          rewrite (data_of_spec (m_pk rn) F (node_of rn) W (mp_node cfg radix2 step1 _ _ _ S Hn) eq_refl). auto.
        + cbn [served]. split; auto. split; auto. split; auto. exists P. split; auto. left. rewrite Hs. auto. }
    assert (Hs : sorts o = false) by (rewrite Eo; auto).
    assert (Ko : kept_order o n F d) by (rewrite Eo; intros i b []).
    destruct (where_dec (mkWhere ref p) (shown (sorts o) n F)) as [Ew|Ew].
    + assert (Ew' : mkWhere (option_map m_pk rr) p = shown false (m_pk rn) F) by (rewrite Er, En, <- Hs; auto).
      destruct (C42_mp_unchanged cfg radix2 step1 db F rn d rr p S Hn Eo Ew') as (db' & E & S' & _).
      rewrite E. cbn [answer]. rewrite En in S'. apply (New _ db' (set_data n d F)); auto; [intros No; congruence|]. cbn [served]. split; auto. split; auto. split; auto. exists P. auto.
    + assert (Ew' : mkWhere (option_map m_pk rr) p <> shown false (m_pk rn) F) by (rewrite Er, En, <- Hs; auto).
      assert (EP' := EP). rewrite Hs in EP'.
      destruct (C42_mp_edit cfg radix2 step1 db F rn d rr p P S Hn Eo Href EP' Ew' Rm) as [(db' & G & E & S' & Re)|(E & q & Tk)]; rewrite E; cbn [answer].
      * apply (New _ db' G); auto; [intros No; congruence|]. cbn [served]. rewrite En, Er in Re. split; auto. split; auto. split; auto.
        exists P. split; auto. right. rewrite Hs in *. auto.
      * apply Keep. right. exists PathOverflow. split; auto. right. split; auto. split; auto. left. destruct Tk as (y & Hy & Ey). eauto.
  - (* a new node *)
    assert (Ch := proj1 (C42_mp_choices cfg radix2 step1 _ F S)).
    assert (Ch' : map m_pk (mp_choices (db_rows db) None) = map nid (preorder F)) by (rewrite <- Ch, map_map; reflexivity).
    destruct (checked_cases m_pk (is_sorted cfg) (mp_choices (db_rows db) None) ref p
      (fun r => mp_form_create cfg db (mkNew (nid x) 0 (ndata x)) r p)) as [(-> & H)|(Hp & Hk & rr & Er & Hr & ->)].
    { apply Keep. left. split; auto. left. cbn [declined]. destruct H as [H|(k & -> & H)]; [left; exact H|right].
      intros A. apply H. rewrite Ch'. apply (A k eq_refl). }
    assert (Am : among ref (preorder F)) by (intros k X; rewrite <- Ch'; apply Hk; auto).
    destruct (C42_positions (sorts o) p Hp) as (P & EP).
    assert (Href : forall t, rr = Some t -> In t (db_rows db)) by (intros t X; apply (tree_in _ _ (Hr t X))).
    assert (Nx : ~ In (nid x) (ids F)) by (rewrite <- Pk; exact Fr).
    destruct (C42_mp_create cfg radix2 step1 db F (mkNew (nid x) 0 (ndata x)) rr p P S O Va Nx eq_refl Href EP (fun _ => Rq)) as
      [(db' & G & E & S' & Cr)|(E & Why)]; rewrite E; cbn [answer].
    + rewrite Er in Cr. change (new_node (mkNew (nid x) 0 (ndata x))) with (mkNode (nid x) (ndata x)) in Cr.
      assert (Ex : mkNode (nid x) (ndata x) = x) by (destruct x; auto). rewrite Ex in Cr.
      apply (New _ db' G); auto.
      * apply (created_ordered o F G x ref p P); auto. apply (stores_wf _ _ _ S').
      * cbn. eauto 6.
    + apply Keep. right. exists PathOverflow. split; auto. right. split; auto. split; auto. destruct rr as [t|]; rewrite <- Er; cbn [option_map].
      * destruct Why as [(r & Hr' & Er')|[[_ Lm]|(db1 & r1 & t1 & E1 & r & Hr' & Er')]].
        -- left. left. eauto.
        -- left. right. eauto.
        -- right. exists t, db1, r1, t1. split; auto. split; auto. split; auto. left. eauto.
      * destruct Why as (r & Hr' & Er'). left. eauto.
  - (* load_bulk *)
    assert (Hpar : (~ among parent (preorder F) /\ fetched (get_by_pk (db_rows db)) parent = Err DoesNotExist) \/
      (among parent (preorder F) /\ exists pr, fetched (get_by_pk (db_rows db)) parent = Ok pr /\ option_map m_pk pr = parent /\
         forall q, pr = Some q -> In (m_pk q) (ids F))).
    { destruct parent as [k|]; cbn [fetched].
      - destruct (get_pk_cases cfg _ F k S) as [[-> Hk]|(rk & -> & Hk & Ek & Ik)]; cbn [bind].
        + left. split; [rewrite among_ids; auto|auto].
        + right. rewrite among_ids. split; auto. exists (Some rk). cbn. rewrite Ek. split; auto. split; auto. intros q X. injection X as <-. congruence.
      - right. split; [apply among_none|]. exists None. cbn. split; auto. split; auto. discriminate. }
    destruct Hpar as [(Na & ->)|(Am & pr & -> & Epr & Hpr)]; cbn [bind answer].
    { apply Keep. right. exists DoesNotExist. cbn. auto. }
    destruct (describes_ex keep next data) as [(-> & Mi)|(g & D)].
    { rewrite (C12_missing_id cfg next db data pr Mi). cbn [bind answer]. apply Keep. right. exists KeyError. cbn. auto 8. }
    destruct (Fr g D) as [Wg Dg].
    destruct (C12_load_any cfg radix2 step1 next keep db F data pr g S O Hpr D Wg) as [(db' & E & S' & O')|E].
    + intros i Hi. rewrite <- Pk. auto.
    + intros No. apply (Va No g D).
    + rewrite E. cbn [bind answer]. rewrite Epr in *. apply (New _ db' (sp_load o parent g F)); auto. cbn. eauto.
    + rewrite E. cbn [bind answer]. apply Keep. right. exists PathOverflow. unfold mp_given_up. cbn. auto.
  - (* fix_tree *)
    destruct fp.
    + unfold fix_tree. assert (Id := fix_tree_id cfg radix2 step1 db F None S). unfold fix_tree in Id. injection Id as Id.
      rewrite Id. assert (Er := f_equal db_rows Id). cbn in Er. rewrite Er.
      assert (Fx := fix_paths_ok cfg radix2 step1 db F S).
      destruct (fix_loop cfg (Datatypes.S (length (db_rows db))) db [([], 1)]) as [db'|e] eqn:E; cbn [answer].
      * destruct Fx as (_ & G & S' & Re & _). apply (New _ db' G); auto.
        apply (rearranged_ordered o F G); auto. apply (stores_wf _ _ _ S').
      * destruct Fx as (-> & Fx). apply Keep. right. exists PathOverflow. unfold mp_given_up. cbn. auto 6.
    + rewrite (fix_tree_id cfg radix2 step1 db F None S). cbn [answer]. apply (New _ db F); auto. cbn. auto.
Qed.
End MP.
