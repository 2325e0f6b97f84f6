(** Deletion in adjacency lists, and histories of calls. *)
From Coq Require Import String List Arith ZArith Lia Bool Permutation Sorted.
From Verif Require Import Prelude Forest SpecFacts SpecSane CommonModel Order History SpecRun SpecKids ALModel ALInv ALReads ALUpd ALOk.
Import ListNotations.

(** Selected or below a selected node. *)
Definition gone (S : nat -> bool) (F : forest node) (i : nat) : bool :=
  S i || match ancestors_of i F with Some A => existsb (fun a => S (nid a)) A | None => false end.

Lemma gone_root S F i : wf_ids F -> In i (ids F) -> parent_of i F = Some None -> gone S F i = S i.
Proof.
  intros W Hi Hp. unfold gone. destruct (anc_parent i F W Hi) as (A & -> & [(_ & ->)|(q & A' & E & _)]); [|congruence].
  cbn. apply orb_false_r.
Qed.

Lemma gone_child S F i q : wf_ids F -> In i (ids F) -> parent_of i F = Some (Some q) -> gone S F i = S i || gone S F q.
Proof.
  intros W Hi Hp. unfold gone. destruct (anc_parent i F W Hi) as (A & -> & [(E & _)|(b & A' & E & Hb & EA' & ->)]); [congruence|].
  rewrite Hp in E. injection E as ->. rewrite EA', existsb_app. cbn [existsb]. rewrite orb_false_r.
  destruct (S i), (S (nid b)), (existsb (fun a => S (nid a)) A'); auto.
Qed.

Lemma kl_remove_all S F p : wf_ids F -> kl p (remove_all S F) = filter (fun a => negb (gone S F (nid a))) (kl p F).
Proof.
  intros W. destruct p as [q|].
  - destruct (in_dec Nat.eq_dec q (ids F)) as [Hq|Hq].
    + destruct (anc_parent q F W Hq) as (A & EA & _). unfold kl at 1. rewrite (remove_all_sane S F q A W EA).
      assert (Eg : gone S F q = S q || existsb (fun a => S (nid a)) A) by (unfold gone; rewrite EA; auto).
      rewrite <- Eg. destruct (children_some q F Hq) as (l & El).
      assert (Ek : kid_list (Some q) F = Some (kl (Some q) F)) by (unfold kl, kid_list; cbn [kids_of]; rewrite El; auto).
      rewrite Ek. cbn [option_map].
      assert (G : forall a, In a (kl (Some q) F) -> gone S F (nid a) = S (nid a) || gone S F q).
      { intros a Ha. apply gone_child; eauto using kl_in. apply kl_parent; auto. }
      destruct (gone S F q).
      * symmetry. apply filter_none. intros a Ha. rewrite G by auto. rewrite orb_true_r. auto.
      * apply filter_ext_In. intros a Ha. rewrite G by auto. rewrite orb_false_r. auto.
    + rewrite !kl_notin; auto. intros H. apply remove_all_incl in H. auto.
  - unfold kl at 1. rewrite SpecSane.remove_all_roots. unfold kid_list. cbn [kids_of option_map].
    rewrite (kl_some None F F eq_refl). apply filter_ext_In. intros a Ha. f_equal.
    assert (Ha' : In a (kl None F)) by (rewrite (kl_some None F F eq_refl); auto).
    symmetry. apply gone_root; eauto using kl_in. apply kl_parent; auto.
Qed.

(** ** The cascade of Django *)
Lemma in_pks_spec l k : in_pks l k = true <-> In k l.
Proof.
  unfold in_pks. rewrite existsb_exists. split.
  - intros (x & Hx & E). apply Nat.eqb_eq in E. subst; auto.
  - intros H. exists k. rewrite Nat.eqb_refl. auto.
Qed.

Lemma cascade_S k t s : cascade (S k) t s = cascade_step t (cascade k t s).
Proof. revert s. induction k as [|k IH]; intros s; auto. cbn [cascade] in *. rewrite IH. auto. Qed.

Section Cascade.
Variables (so : nat -> Z) (t : al_table) (F : forest node) (sel : nat -> bool).
Hypothesis W : wf_ids F.
Hypothesis Fit : fits so t F.
Let s0 := map a_pk (filter (fun r => sel (a_pk r)) t).

Lemma step_in s i : In i (cascade_step t s) <-> In i (ids F) /\ (In i s \/ exists p, parent_of i F = Some (Some p) /\ In p s).
Proof.
  unfold cascade_step. rewrite in_map_iff. split.
  - intros (r & <- & Hr). apply filter_In in Hr. destruct Hr as (Hr & E).
    destruct (fits_pk so t F W Fit r Hr) as (Hi & Hp & _). split; auto. apply orb_true_iff in E. destruct E as [E|E].
    + left. apply in_pks_spec. auto.
    + right. destruct (a_parent r) as [p|]; [|discriminate]. exists p. split; auto. apply in_pks_spec. auto.
  - intros (Hi & H). destruct (fits_ex so t F W Fit i Hi) as (r & Hr & <-). exists r. split; auto. apply filter_In. split; auto.
    destruct (fits_pk so t F W Fit r Hr) as (_ & Hp & _). apply orb_true_iff. destruct H as [H|(p & E & H)].
    + left. apply in_pks_spec. auto.
    + right. rewrite Hp in E. injection E as ->. apply in_pks_spec. auto.
Qed.

Lemma s0_in i : In i s0 <-> In i (ids F) /\ sel i = true.
Proof.
  unfold s0. rewrite in_map_iff. split.
  - intros (r & <- & Hr). apply filter_In in Hr. destruct Hr as (Hr & E). split; auto. apply (fits_pk so t F W Fit r Hr).
  - intros (Hi & E). destruct (fits_ex so t F W Fit i Hi) as (r & Hr & <-). exists r. split; auto. apply filter_In. auto.
Qed.

Lemma cascade_sound k i : In i (cascade k t s0) -> In i (ids F) /\ gone sel F i = true.
Proof.
  revert i. induction k as [|k IH]; intros i H.
  - apply s0_in in H. destruct H as (Hi & E). split; auto. unfold gone. rewrite E. auto.
  - rewrite cascade_S in H. apply step_in in H. destruct H as (Hi & [H|(p & Hp & H)]); auto. split; auto.
    apply IH in H. rewrite (gone_child sel F i p W Hi Hp). destruct H as (_ & ->). apply orb_true_r.
Qed.

Lemma cascade_sel k i : In i (ids F) -> sel i = true -> In i (cascade k t s0).
Proof.
  intros Hi E. induction k as [|k IH]; [apply s0_in; auto|]. rewrite cascade_S. apply step_in. auto.
Qed.

Lemma cascade_complete k : forall i A, In i (ids F) -> ancestors_of i F = Some A -> length A <= k -> gone sel F i = true ->
  In i (cascade k t s0).
Proof.
  induction k as [|k IH]; intros i A Hi EA Hl G.
  - destruct A; [|cbn in Hl; lia]. unfold gone in G. rewrite EA in G. cbn in G. rewrite orb_false_r in G. apply s0_in. auto.
  - destruct (sel i) eqn:Es; [apply cascade_sel; auto|].
    destruct (anc_parent i F W Hi) as (A0 & E0 & [(Hp & E)|(q & A' & Hp & Hq & Eq & E)]); rewrite EA in E0; injection E0 as <-; subst A.
    + rewrite (gone_root sel F i W Hi Hp) in G. congruence.
    + rewrite cascade_S. apply step_in. split; auto. right. exists (nid q). split; auto.
      rewrite (gone_child sel F i _ W Hi Hp), Es in G. apply (IH _ A'); auto.
      * apply in_map. auto.
      * rewrite app_length in Hl. cbn in Hl. lia.
Qed.

Lemma cascade_gone i : In i (ids F) -> in_pks (cascade (length t) t s0) i = gone sel F i.
Proof.
  intros Hi. apply eq_true_iff_eq. rewrite in_pks_spec. split; [apply cascade_sound|].
  intros G. destruct (anc_parent i F W Hi) as (A & EA & _). apply (cascade_complete _ i A); auto.
  rewrite (fits_length so t F W Fit). eapply anc_length; eauto.
Qed.
End Cascade.

Theorem delete_ok o t F sel : stores o t F ->
  stores o (delete_queryset t (fun r => sel (a_pk r))) (remove_all sel F).
Proof.
  intros (W & O & so & Fit & I).
  assert (WG : wf_ids (remove_all sel F)) by (apply remove_all_wf; auto).
  split; auto. split.
  { intros No. destruct (O No). split; [apply sorted_remove_all|apply values_remove_all]; auto. }
  exists so. split.
  - intros p. unfold delete_queryset. rewrite filter_comm, kl_remove_all by auto.
    rewrite (Permutation_filter _ (Fit p)), filter_map. cbn [arow a_pk].
    erewrite filter_ext_In; [reflexivity|]. intros a Ha. cbn beta. f_equal.
    apply (cascade_gone so t F sel W Fit). eapply kl_in; eauto.
  - intros Ho p. rewrite kl_remove_all by auto. destruct (I Ho p) as (S & P). split; [apply StronglySorted_filter; auto|].
    rewrite Forall_forall in *. intros a Ha. apply filter_In in Ha. apply P. tauto.
Qed.

(** ** Histories *)

(** One call with freshly fetched nodes (objects.get(pk=...)) on the model of al_tree.py. *)
Definition al_exec (o : ordering) (t : al_table) (c : call) : res al_table :=
  match c with
  | CAddRoot x => do r <- add_root o t x; Ok (fst r)
  | CAddChild p x => do p <- get_by_pk t p; do r <- add_child o t (fresh p) x; Ok (fst r)
  | CAddSibling q p x => do q <- get_by_pk t q; do r <- add_sibling o t q p x; Ok (fst r)
  | CMove n q p =>
      do n <- get_by_pk t n;
      do q <- get_by_pk t q;
      do r <- move o t (fresh n) q p; Ok (fst r)
  | CDelete l => Ok (delete_queryset t (fun r => existsb (Nat.eqb (a_pk r)) l))
  end.

Theorem al_call_ok o t F c : stores o t F -> fresh_call F c -> (o <> [] -> call_values o c) ->
  agree (stores o) (al_exec o t c) (sp_exec o F c).
Proof.
  intros St Fr V. assert (St' := St). destruct St' as (W & O & so & Fit & I).
  destruct c as [x|p x|q p x|n q p|l]; unfold fresh_call in Fr; simpl in Fr, V; unfold al_exec, sp_exec, sp_call.
  - destruct (add_root_ok o t F x St) as (t' & r & E & S' & _); auto. rewrite E. cbn [bind fst agree]. auto.
  - destruct (get_cases so t F W Fit p) as [(E & H)|(r & E & Hr & Er & H)]; rewrite E, H; cbn [bind agree]; auto.
    destruct (add_child_ok o t F (fresh r) x St) as (t' & r' & E' & S' & _); auto.
    { cbn. rewrite Er. apply has_spec. auto. }
    rewrite E'. cbn [bind fst agree]. cbn in S'. rewrite Er in S'. auto.
  - destruct (get_cases so t F W Fit q) as [(E & H)|(r & E & Hr & Er & H)]; rewrite E, H; cbn [bind agree]; auto.
    change (sorts o) with (is_sorted o). destruct (prepare_pos_add (is_sorted o) p) as [P|e] eqn:EP; cbn [bind].
    + destruct (add_sibling_ok o t F r p P x St Hr) as (t' & r' & E' & S' & _); auto.
      rewrite E'. cbn [bind fst agree]. rewrite Er in S'. auto.
    + unfold add_sibling. rewrite EP. cbn [bind agree]. auto.
  - destruct (get_cases so t F W Fit n) as [(E & H)|(rn & E & Hrn & Ern & H)]; rewrite E, H; cbn [bind agree andb]; auto.
    destruct (get_cases so t F W Fit q) as [(E1 & H1)|(rt & E1 & Hrt & Ert & H1)]; rewrite E1, H1; cbn [bind agree]; auto.
    change (sorts o) with (is_sorted o). destruct (prepare_pos_move (is_sorted o) p) as [P|e] eqn:EP; cbn [bind].
    + destruct (move_ok o t F (fresh rn) rt p P St Hrn Logic.I Hrt EP)
        as [(D & R)|(D & t' & n' & R & S' & _)]; cbn [fresh o_row] in *; rewrite Ern, Ert in *; rewrite R.
      * rewrite (proj2 (insideb_spec F n q P) D). cbn [bind agree]. auto.
      * rewrite (proj2 (insideb_false F n q P) D). cbn [bind fst agree].
        replace (data_of n F) with (a_data rn); auto. symmetry.
        destruct (fits_pk so t F W Fit rn Hrn) as (_ & _ & Hk & _). rewrite <- Ern.
        apply (data_of_spec (a_pk rn) F (row_node rn)); auto. eapply kl_pre; eauto.
    + unfold move. rewrite EP. cbn [bind agree]. auto.
  - cbn [agree]. apply (delete_ok o t F (fun i => existsb (Nat.eqb i) l)). auto.
Qed.

Lemma empty_stores o : stores o [] Nil.
Proof.
  split; [constructor|]. split.
  { intros _. split; [exact Logic.I|constructor]. }
  exists (fun _ => 0%Z). split.
  - intros [q|]; constructor.
  - intros _ [q|]; split; constructor.
Qed.

(** Every history of calls from the empty table. *)
Theorem al_history o cs : NoDup (flat_map new_ids cs) -> (o <> [] -> Forall (call_values o) cs) ->
  let (t, done) := run (al_exec o) [] cs in
  let (F, done') := run (sp_exec o) Nil cs in
  done = done' /\ stores o t F.
Proof.
  intros ND V. apply (sim _ (al_exec o) o (stores o) (fun c => o <> [] -> call_values o c)); auto.
  - intros t F c HR Fr G. apply al_call_ok; auto.
  - apply empty_stores.
  - apply Forall_forall. intros c Hc No. specialize (V No). rewrite Forall_forall in V. auto.
Qed.
