(** When an adjacency list table stores a forest, and what lookups return then. *)
From Coq Require Import String List Arith ZArith Lia Bool Permutation Sorted.
From Verif Require Import Prelude Forest SpecFacts SpecSane CommonModel Order History SpecRun SpecKids ALModel.
Import ListNotations.

(** The row of node [a] below [p]; [so] gives the sib_order of each node. *)
Definition arow (so : nat -> Z) (p : option nat) (a : node) : alrow := mkAL (nid a) p (so (nid a)) (ndata a).

Definition row_node (r : alrow) : node := mkNode (a_pk r) (a_data r).

(** For every [p], the rows with parent [p] are the children of [p] in the forest. *)
Definition fits (so : nat -> Z) (t : al_table) (F : forest node) : Prop :=
  forall p, Permutation (filter (fun r => par_eqb (a_parent r) p) t) (map (arow so p) (kl p F)).

(** sib_order increases strictly along every list of children and is positive. *)
Definition inc_list (so : nat -> Z) (L : list node) : Prop :=
  StronglySorted (fun a b => (so (nid a) < so (nid b))%Z) L /\ Forall (fun a => (1 <= so (nid a))%Z) L.
Definition inc (so : nat -> Z) (F : forest node) : Prop := forall p, inc_list so (kl p F).

(** Without node_order_by the sib_order column gives the order of siblings; with it the
    siblings of the forest are in (non-strict) order and sib_order is ignored. *)
Definition stores (o : ordering) (t : al_table) (F : forest node) : Prop :=
  wf_ids F /\ ordered o F /\ exists so, fits so t F /\ (o = [] -> inc so F).

(** The database lists every group of siblings as in the forest. *)
Definition lists (o : ordering) (so : nat -> Z) (t : al_table) (F : forest node) : Prop :=
  forall p, kids o t p = map (arow so p) (kl p F).

Lemma par_eqb_spec a b : par_eqb a b = true <-> a = b.
Proof.
  destruct a, b; cbn; try (split; congruence). rewrite Nat.eqb_eq. split; congruence.
Qed.
Lemma par_eqb_refl a : par_eqb a a = true.
Proof. apply par_eqb_spec. auto. Qed.
Lemma par_eqb_false a b : par_eqb a b = false <-> a <> b.
Proof. rewrite <- par_eqb_spec. destruct (par_eqb a b); split; congruence. Qed.

Lemma row_node_arow so p a : row_node (arow so p a) = a.
Proof. destruct a; auto. Qed.
Lemma map_row_node so p L : map row_node (map (arow so p) L) = L.
Proof. rewrite map_map. erewrite map_ext; [apply map_id|]. apply row_node_arow. Qed.

Section Fits.
Variables (so : nat -> Z) (t : al_table) (F : forest node).
Hypothesis W : wf_ids F.
Hypothesis Fit : fits so t F.

Lemma fits_in r : In r t <-> exists a, In a (kl (a_parent r) F) /\ r = arow so (a_parent r) a.
Proof.
  assert (H := Fit (a_parent r)). split.
  - intros Hr. assert (X : In r (map (arow so (a_parent r)) (kl (a_parent r) F))).
    { apply (Permutation_in _ H). apply filter_In. split; auto. apply par_eqb_refl. }
    apply in_map_iff in X. destruct X as (a & E & Ha). exists a. auto.
  - intros (a & Ha & E). assert (X : In r (filter (fun x => par_eqb (a_parent x) (a_parent r)) t)).
    { apply (Permutation_in _ (Permutation_sym H)). rewrite E at 1. apply in_map. auto. }
    apply filter_In in X. tauto.
Qed.

Lemma fits_pk r : In r t -> In (a_pk r) (ids F) /\ parent_of (a_pk r) F = Some (a_parent r) /\
  In (row_node r) (kl (a_parent r) F) /\ a_sib r = so (a_pk r).
Proof.
  intros Hr. apply fits_in in Hr. destruct Hr as (a & Ha & E).
  assert (Ep : a_pk r = nid a) by (rewrite E; auto).
  assert (Er : row_node r = a) by (rewrite E; apply row_node_arow).
  assert (Es : a_sib r = so (nid a)) by (rewrite E; auto).
  rewrite Ep, Er. repeat split; auto.
  - eapply kl_in; eauto.
  - apply kl_parent; auto.
Qed.

Lemma fits_node p a : In a (kl p F) -> In (arow so p a) t.
Proof. intros H. apply fits_in. exists a. auto. Qed.

Lemma fits_ex i : In i (ids F) -> exists r, In r t /\ a_pk r = i.
Proof.
  intros H. destruct (kl_ex F i W H) as (q & a & Ha & E & _). exists (arow so q a). split; auto. apply fits_node. auto.
Qed.

Lemma pk_same r r' : In r t -> In r' t -> a_pk r = a_pk r' -> r = r'.
Proof.
  intros H H' E. destruct (fits_pk r H) as (_ & P & K & S). destruct (fits_pk r' H') as (_ & P' & K' & S').
  destruct (kl_unique _ _ F _ _ W K K' E) as (E1 & E2). destruct r, r'; cbn in *.
  injection E2 as -> ->. subst. f_equal. 
Qed.

Lemma nodup_groups l : (forall p, NoDup (map a_pk (filter (fun r => par_eqb (a_parent r) p) l))) ->
  (forall r r', In r l -> In r' l -> a_pk r = a_pk r' -> a_parent r = a_parent r') -> NoDup (map a_pk l).
Proof.
  induction l as [|r l IH]; intros H1 H2; [constructor|]. cbn. constructor.
  - rewrite in_map_iff. intros (r' & E & Hr').
    assert (Ep := H2 r r' (or_introl eq_refl) (or_intror Hr') (eq_sym E)).
    specialize (H1 (a_parent r)). cbn [filter] in H1. rewrite par_eqb_refl in H1. cbn [map] in H1. inversion H1; subst.
    apply H3. rewrite <- E. apply in_map, filter_In. split; auto. apply par_eqb_spec. auto.
  - apply IH.
    + intros p. specialize (H1 p). cbn [filter] in H1. destruct (par_eqb (a_parent r) p); auto. inversion H1; auto.
    + intros x y Hx Hy. apply H2; cbn; auto.
Qed.

Lemma nodup_pks : NoDup (map a_pk t).
Proof.
  apply nodup_groups.
  - intros p. rewrite (Permutation_map a_pk (Fit p)), map_map. cbn. apply kl_nodup. auto.
  - intros r r' H H' E. rewrite (pk_same r r'); auto.
Qed.

Lemma perm_pks : Permutation (map a_pk t) (ids F).
Proof.
  apply NoDup_Permutation; [apply nodup_pks|apply W|]. intros i. rewrite in_map_iff. split.
  - intros (r & <- & Hr). apply (fits_pk r Hr).
  - intros H. destruct (fits_ex i H) as (r & Hr & E). exists r. auto.
Qed.

Lemma fits_length : length t = size F.
Proof.
  rewrite <- (map_length a_pk), (Permutation_length perm_pks). unfold ids. rewrite map_length. apply size_preorder.
Qed.

Lemma get_in r : In r t -> get_by_pk t (a_pk r) = Ok r.
Proof.
  intros H. unfold get_by_pk.
  assert (X : forall x, In x (filter (fun x => a_pk x =? a_pk r) t) -> x = r).
  { intros x Hx. apply filter_In in Hx. destruct Hx as (Hx & E). apply Nat.eqb_eq in E. apply pk_same; auto. }
  assert (Y : In r (filter (fun x => a_pk x =? a_pk r) t)).
  { apply filter_In. split; auto. apply Nat.eqb_refl. }
  destruct (filter (fun x => a_pk x =? a_pk r) t) as [|x l]; [destruct Y|]. rewrite (X x); cbn; auto.
Qed.

Lemma get_node p a : In a (kl p F) -> get_by_pk t (nid a) = Ok (arow so p a).
Proof. intros H. apply fits_node in H. apply (get_in _ H). Qed.

Lemma get_none k : ~ In k (ids F) -> get_by_pk t k = Err DoesNotExist.
Proof.
  intros H. unfold get_by_pk. rewrite filter_none; auto. intros x Hx. apply Nat.eqb_neq. intros <-.
  apply H. apply (fits_pk x Hx).
Qed.

Lemma get_cases k :
  (get_by_pk t k = Err DoesNotExist /\ has k F = false) \/
  (exists r, get_by_pk t k = Ok r /\ In r t /\ a_pk r = k /\ has k F = true).
Proof.
  destruct (has k F) eqn:E.
  - right. apply has_spec in E. destruct (fits_ex k E) as (r & Hr & <-). exists r. rewrite (get_in r Hr). auto.
  - left. apply has_false in E. split; auto. apply get_none; auto.
Qed.

Lemma perm_kids o p : Permutation (kids o t p) (map (arow so p) (kl p F)).
Proof. unfold kids, order_rows. rewrite isort_perm. apply Fit. Qed.

Lemma has_children_kl k : has_children t k = match kl (Some k) F with [] => false | _ => true end.
Proof.
  unfold has_children. assert (H := Fit (Some k)). destruct (kl (Some k) F) as [|a L].
  - cbn [map] in H. apply Permutation_sym, Permutation_nil in H. apply existsb_false. intros x Hx.
    destruct (par_eqb (a_parent x) (Some k)) eqn:E; auto.
    assert (X : In x []) by (rewrite <- H; apply filter_In; auto). destruct X.
  - apply existsb_exists. exists (arow so (Some k) a). split; [|apply par_eqb_refl].
    assert (X : In (arow so (Some k) a) (filter (fun r => par_eqb (a_parent r) (Some k)) t)).
    { apply (Permutation_in _ (Permutation_sym H)). cbn. auto. }
    apply filter_In in X. tauto.
Qed.

End Fits.

(** ** Orders *)
Lemma sql_lex o x y : has_values o x -> has_values o y -> sql_before o x y = lexlt o x y.
Proof.
  induction o as [|(i, d) o IH]; intros Hx Hy; auto.
  apply has_values_cons in Hx. apply has_values_cons in Hy.
  destruct Hx as ((u & Eu) & Hx), Hy as ((v & Ev) & Hy). cbn [sql_before lexlt]. rewrite Eu, Ev, IH by auto.
  cbn. unfold before. auto.
Qed.

Lemma unsorted_lists so t F : fits so t F -> inc so F -> lists [] so t F.
Proof.
  intros Fit I p. unfold kids, order_rows.
  change (isort (fun a b : alrow => negb (row_before [] b a))) with (isort (le_key a_sib Z.ltb)).
  apply (@isort_unique _ _ a_sib Z.lt Z.ltb Z.ltb_lt); auto; try (intros; lia).
  - destruct (I p) as (S & _). unfold ssorted. clear Fit. induction S as [|a L S IH Hf]; [constructor|].
    cbn [map]. constructor; auto. apply Forall_forall. intros r Hr. apply in_map_iff in Hr. destruct Hr as (b & <- & Hb).
    cbn. rewrite Forall_forall in Hf. auto.
Qed.

(** No two siblings have equal sort keys. *)
Definition strict (o : ordering) (F : forest node) : Prop :=
  forall p, StronglySorted (fun a b => lexlt o (ndata a) (ndata b) = true) (kl p F).

Lemma insert_lt {A} (le : A -> A -> bool) x l : Forall (fun y => le x y = true) l -> insert le x l = x :: l.
Proof. destruct l as [|y l]; auto. cbn. intros H. inversion H; subst. rewrite H2. auto. Qed.

Lemma values_kl o F p a : values_f o F -> In a (kl p F) -> has_values o (ndata a).
Proof. intros V H. unfold values_f in V. rewrite Forall_forall in V. apply V. eapply kl_pre; eauto. Qed.

Lemma isort_strict {A} (lt : A -> A -> bool) (s l : list A) :
  StronglySorted (fun a b => lt a b = true) s -> (forall a b, In a s -> In b s -> lt a b = true -> lt b a = false) ->
  Permutation l s -> isort (fun a b => negb (lt b a)) l = s.
Proof.
  revert s. induction l as [|x l IH]; intros s Hs As Hp.
  - apply Permutation_nil in Hp. subst; auto.
  - assert (Hin : In x s) by (eapply Permutation_in; [apply Hp|simpl; auto]).
    apply in_split in Hin. destruct Hin as (s1 & s2 & ->).
    apply Permutation_cons_app_inv in Hp. cbn [isort]. rewrite (IH (s1 ++ s2)); auto.
    + clear IH Hp. induction s1 as [|y s1 IH1].
      * cbn [app] in *. apply StronglySorted_inv in Hs. destruct Hs as (Hs & Hf). apply insert_lt.
        apply Forall_forall. intros y Hy. rewrite Forall_forall in Hf. rewrite (As x y); cbn; auto.
      * cbn [app] in *. apply StronglySorted_inv in Hs. destruct Hs as (Hs & Hf). cbn [insert].
        rewrite Forall_forall in Hf. rewrite Hf by (apply in_app_iff; cbn; auto). cbn [negb]. f_equal.
        apply IH1; auto. intros a b Ha Hb. apply As; cbn; auto.
    + clear - Hs. induction s1 as [|y s1 IH1]; cbn [app] in *; apply StronglySorted_inv in Hs; destruct Hs as (Hs & Hf); auto.
      constructor; auto. apply Forall_forall. intros z Hz. rewrite Forall_forall in Hf. apply Hf.
      apply in_app_iff in Hz. apply in_app_iff. cbn. tauto.
    + intros a b Ha Hb. apply As; apply in_app_iff; apply in_app_iff in Ha; apply in_app_iff in Hb; cbn; tauto.
Qed.

Lemma StronglySorted_map {A B} (R : B -> B -> Prop) (f : A -> B) l :
  StronglySorted (fun a b => R (f a) (f b)) l -> StronglySorted R (map f l).
Proof.
  induction 1 as [|a l S IH Hf]; [constructor|]. cbn. constructor; auto.
  apply Forall_forall. intros y Hy. apply in_map_iff in Hy. destruct Hy as (b & <- & Hb).
  rewrite Forall_forall in Hf. auto.
Qed.

Lemma StronglySorted_In {A} (R R' : A -> A -> Prop) l :
  (forall a b, In a l -> In b l -> R a b -> R' a b) -> StronglySorted R l -> StronglySorted R' l.
Proof.
  intros H S. induction S as [|a l S IH Hf]; [constructor|]. constructor.
  - apply IH. intros x y Hx Hy. apply H; cbn; auto.
  - apply Forall_forall. intros y Hy. rewrite Forall_forall in Hf. apply H; cbn; auto.
Qed.

Lemma sorted_lists o so t F : o <> [] -> values_f o F -> fits so t F -> strict o F -> lists o so t F.
Proof.
  intros No V Fit S p. unfold kids, order_rows.
  assert (Es : is_sorted o = true) by (destruct o; [congruence|auto]).
  assert (Eb : forall a b, In a (kl p F) -> In b (kl p F) ->
    row_before o (arow so p a) (arow so p b) = lexlt o (ndata a) (ndata b)).
  { intros a b Ha Hb. unfold row_before. rewrite Es. cbn. apply sql_lex; eapply values_kl; eauto. }
  apply isort_strict; auto.
  - apply StronglySorted_map. eapply StronglySorted_In; [|apply (S p)].
    intros a b Ha Hb E. cbn beta in *. rewrite Eb; auto.
  - intros a b Ha Hb E. apply in_map_iff in Ha. apply in_map_iff in Hb.
    destruct Ha as (x & <- & Hx), Hb as (y & <- & Hy). rewrite Eb in * by auto. apply lexlt_asym. auto.
Qed.
