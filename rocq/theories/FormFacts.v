(** Saving a node with new data keeps its place, in the four kinds of trees. *)
From Coq Require Import String List Arith Lia Bool ZArith Sorted Permutation.
From Verif Require Import Prelude Forest SpecFacts SpecSane SpecKids CommonModel Order History PathTab FormModel FormSpec.
From Verif Require MPModel MPStep MPInv NSModel NSInv NSReads ALModel ALInv LTModel LTInv LTAdd.
Import ListNotations.
Local Open Scope nat_scope.

Definition kmap {C A} (g : A -> A) (f : forest (list C * A)) : forest (list C * A) := fmap (fun x => (fst x, g (snd x))) f.

Lemma kmap_rows {C A} (g : A -> A) (f : forest (list C * A)) :
  rows (kmap g f) = map (fun x => (fst x, g (snd x))) (rows f).
Proof.
  induction f as [|x k IHk r IHr]; auto. unfold kmap in *. cbn [fmap rows fst]. rewrite IHk, IHr. cbn [map].
  rewrite map_app, !map_map. auto.
Qed.

Lemma kmap_pwf {C A} lt w (g : A -> A) (f : forest (list C * A)) : pwf lt w f -> pwf lt w (kmap g f).
Proof.
  induction f as [|x k IHk r IHr]; auto. intros (W1 & W2 & W3 & W4). unfold kmap in *. cbn [fmap]. repeat split; auto.
  rewrite roots_fmap. rewrite Forall_forall in *. intros y Hy. apply in_map_iff in Hy. destruct Hy as (z & <- & Hz). cbn [fst]. apply W4. auto.
Qed.

(** The UPDATE of Model.save() on the rows. *)
Lemma upd_in {R} (pk : R -> nat) n1 (t : list R) (r : R) : In r t -> pk r <> pk n1 ->
  In r (map (fun x => if pk x =? pk n1 then n1 else x) t).
Proof. intros H N. apply in_map_iff. exists r. split; auto. destruct (Nat.eqb_spec (pk r) (pk n1)); auto. tauto. Qed.

Lemma upd_in_new {R} (pk : R -> nat) n1 (t : list R) (r : R) : In r t -> pk r = pk n1 ->
  In n1 (map (fun x => if pk x =? pk n1 then n1 else x) t).
Proof. intros H N. apply in_map_iff. exists r. split; auto. rewrite N, Nat.eqb_refl. auto. Qed.

Section MP.
Import MPModel MPInv.
Variable cfg : mp_cfg.
Hypothesis step1 : 1 <= steplen cfg.

Lemma mp_save_ok db F n d : stores cfg (db_rows db) F -> In n (db_rows db) ->
  exists db1, save_row db (mp_set_data n d) = Ok db1 /\ stores cfg (db_rows db1) (set_data (m_pk n) d F) /\
    In (mp_set_data n d) (db_rows db1) /\ (forall r, In r (db_rows db) -> m_pk r <> m_pk n -> In r (db_rows db1)) /\
    map m_path (db_rows db1) = map m_path (db_rows db) /\ db_sig db1 = db_sig db.
Proof.
  intros (f & L & N & <- & W) Hn. set (n1 := mp_set_data n d). set (i := m_pk n).
  assert (Un : forall x, In x (db_rows db) -> m_pk x = i -> x = n) by (intros x Hx E; apply (pk_inj cfg _ _ _ _ L W Hx Hn E)).
  exists (mkDB (map (fun x => if m_pk x =? m_pk n1 then n1 else x) (db_rows db)) (db_sig db)). split.
  { unfold save_row.
    replace (existsb (fun x => peq (m_path x) (m_path n1) && negb (m_pk x =? m_pk n1)) (db_rows db)) with false.
    - replace (existsb (fun x => m_pk x =? m_pk n1) (db_rows db)) with true; auto. symmetry. apply existsb_exists.
      exists n. split; auto. apply Nat.eqb_refl.
    - symmetry. apply not_true_iff_false. intros Hb. apply existsb_exists in Hb. destruct Hb as (x & Hx & Eb).
      apply andb_true_iff in Eb. destruct Eb as [E1 E2]. apply negb_true_iff, Nat.eqb_neq in E2. apply E2.
      apply MPStep.peq_iff in E1. change (m_path n1) with (m_path n) in E1. change (m_pk n1) with (m_pk n). f_equal.
      destruct (lay_in cfg _ _ _ L Hx) as ([p a] & Ha & ->), (lay_in cfg _ _ _ L Hn) as ([p' a'] & Ha' & ->).
      cbn in E1. subst p'. f_equal. f_equal. apply (k_inj cfg step1 f p); auto. apply L. }
  cbn [db_rows db_sig]. split; [|split; [|split; [|split; auto]]].
  - exists (kmap (fun a => (put_data i d (fst a), snd a)) f). destruct L as (L1 & L2 & L3).
    assert (Ee : kerase (kmap (fun a => (put_data i d (fst a), snd a)) f) = set_data i d (kerase f)).
    { unfold kerase, erase, kmap, set_data. rewrite !fmap_fmap. auto. }
    split; [|split; [|split; [apply Ee|apply set_data_wf; auto]]].
    + split; [apply kmap_pwf; auto|]. split.
      * unfold kvalid, kmap in *. rewrite preorder_fmap, Forall_forall in *. intros y Hy. apply in_map_iff in Hy.
        destruct Hy as (z & <- & Hz). apply (L2 z Hz).
      * rewrite kmap_rows. rewrite (map_ext_in _ (fun x => if m_pk x =? i then mp_set_data x d else x)).
        { rewrite L3, !map_map. match goal with |- Permutation ?a ?b => replace b with a; [reflexivity|] end.
          apply map_ext. intros [p [[j e] c]]. unfold mkrow, put_data. cbn. destruct (Nat.eqb_spec j i) as [->|]; auto. }
        intros x Hx. change (m_pk n1) with i. destruct (Nat.eqb_spec (m_pk x) i) as [E|]; auto.
        rewrite (Un x Hx E). auto.
    + clear - N. induction f as [|x k IHk r IHr]; auto. destruct N as (N1 & N2 & N3). unfold kmap in *. cbn [fmap nc_ok snd].
      rewrite roots_fmap, map_length. auto.
  - apply (upd_in_new m_pk n1 _ n); auto.
  - intros r Hr Nr. apply (upd_in m_pk n1); auto.
  - rewrite map_map. apply map_ext_in. intros x Hx. change (m_pk n1) with i. destruct (Nat.eqb_spec (m_pk x) i) as [E|]; auto.
    rewrite (Un x Hx E). auto.
Qed.
End MP.

Section NS.
Import NSModel NSInv.
Local Open Scope Z_scope.

Lemma number_put i dt f : forall T d l, number T d l (set_data i dt f) =
  map (fun r => if (n_pk r =? i)%nat then ns_set_data r dt else r) (number T d l f).
Proof.
  induction f as [|a k IHk r IHr]; intros T d l; auto. unfold set_data in *. cbn [fmap number map]. rewrite size_fmap, IHk, IHr, map_app.
  f_equal. unfold put_data. cbn [n_pk]. destruct (Nat.eqb_spec (nid a) i) as [->|]; auto.
Qed.

Lemma layout_put i dt F : forall ts, layout ts (set_data i dt F) =
  map (fun r => if (n_pk r =? i)%nat then ns_set_data r dt else r) (layout ts F).
Proof.
  induction F as [|a k _ r IHr]; intros [|T ts]; auto. unfold set_data in *. cbn [fmap layout]. rewrite map_app, <- IHr.
  f_equal. apply (number_put i dt (Cons a k Nil)).
Qed.

Lemma ns_save_ok db F n d : stores (ns_rows db) F -> In n (ns_rows db) ->
  stores (ns_rows (save_row db (ns_set_data n d))) (set_data (n_pk n) d F) /\
  In (ns_set_data n d) (ns_rows (save_row db (ns_set_data n d))) /\
  (forall r, In r (ns_rows db) -> n_pk r <> n_pk n -> In r (ns_rows (save_row db (ns_set_data n d)))).
Proof.
  intros (W & ts & I & P) Hn. set (n1 := ns_set_data n d). set (i := n_pk n).
  assert (E : ns_rows (save_row db n1) = map (fun x => if (n_pk x =? n_pk n1)%nat then n1 else x) (ns_rows db)).
  { unfold save_row. replace (existsb _ (ns_rows db)) with true; auto. symmetry. apply existsb_exists. exists n. split; auto. apply Nat.eqb_refl. }
  rewrite E. split; [|split].
  - split; [apply set_data_wf; auto|]. exists ts. split.
    + destruct I as (I1 & I2 & I3). split; auto. unfold set_data. rewrite roots_fmap, map_length. auto.
    + rewrite layout_put. rewrite (map_ext_in _ (fun x => if (n_pk x =? i)%nat then ns_set_data x d else x)).
      * apply Permutation_map. auto.
      * intros x Hx. change (n_pk n1) with i. destruct (Nat.eqb_spec (n_pk x) i) as [Ex|]; auto.
        assert (x = n) as -> by (apply (NSReads.row_eq (ns_rows db) F ts W I P); auto). auto.
  - apply (upd_in_new n_pk n1 _ n); auto.
  - intros r Hr Nr. apply (upd_in n_pk n1); auto.
Qed.
End NS.

Section AL.
Import ALModel ALInv.

Lemma kl_put i d F p : kl p (set_data i d F) = map (put_data i d) (kl p F).
Proof. unfold kl. rewrite set_data_kids. destruct (kid_list p F); auto. Qed.

Lemma al_save_fits so t F n d : wf_ids F -> fits so t F -> In n t ->
  fits so (save_row t (al_set_data n d)) (set_data (a_pk n) d F) /\
  In (al_set_data n d) (save_row t (al_set_data n d)) /\
  (forall r, In r t -> a_pk r <> a_pk n -> In r (save_row t (al_set_data n d))).
Proof.
  intros W Fit Hn. set (n1 := al_set_data n d). set (i := a_pk n).
  assert (E : save_row t n1 = map (fun x => if (a_pk x =? a_pk n1)%nat then n1 else x) t).
  { unfold save_row. replace (existsb _ t) with true; auto. symmetry. apply existsb_exists. exists n. split; auto. apply Nat.eqb_refl. }
  assert (Un : forall x, In x t -> a_pk x = i -> x = n) by (intros x Hx Ex; apply (pk_same so t F W Fit x n Hx Hn Ex)).
  rewrite E. rewrite (map_ext_in _ (fun x => if (a_pk x =? i)%nat then al_set_data x d else x)).
  2:{ intros x Hx. change (a_pk n1) with i. destruct (Nat.eqb_spec (a_pk x) i) as [Ex|]; auto. rewrite (Un x Hx Ex). auto. }
  split; [|split].
  - intros p. rewrite kl_put.
    assert (Ef : filter (fun r => par_eqb (a_parent r) p) (map (fun x => if (a_pk x =? i)%nat then al_set_data x d else x) t)
               = map (fun x => if (a_pk x =? i)%nat then al_set_data x d else x) (filter (fun r => par_eqb (a_parent r) p) t)).
    { clear. induction t as [|r t IH]; auto. cbn [map filter].
      replace (a_parent (if (a_pk r =? i)%nat then al_set_data r d else r)) with (a_parent r) by (destruct (a_pk r =? i); auto).
      destruct (par_eqb (a_parent r) p); cbn [map]; rewrite IH; auto. }
    rewrite Ef, (Fit p), !map_map. match goal with |- Permutation ?a ?b => replace b with a; [reflexivity|] end.
    apply map_ext. intros [j e]. unfold arow, put_data. cbn. destruct (Nat.eqb_spec j i) as [->|]; auto.
  - apply in_map_iff. exists n. split; auto. unfold i. rewrite Nat.eqb_refl. auto.
  - intros r Hr Nr. apply in_map_iff. exists r. split; auto. destruct (Nat.eqb_spec (a_pk r) i); auto. tauto.
Qed.

Lemma al_save_ok t F n d : stores [] t F -> In n t ->
  stores [] (save_row t (al_set_data n d)) (set_data (a_pk n) d F) /\
  In (al_set_data n d) (save_row t (al_set_data n d)) /\
  (forall r, In r t -> a_pk r <> a_pk n -> In r (save_row t (al_set_data n d))).
Proof.
  intros (W & _ & so & Fit & Inc) Hn. destruct (al_save_fits so t F n d W Fit Hn) as (Fit1 & H). split; auto.
  split; [apply set_data_wf; auto|]. split; [intros X; congruence|]. exists so. split; auto.
  intros _ p. specialize (Inc eq_refl p). destruct Inc as [I1 I2]. rewrite kl_put. split.
  - clear - I1. induction (kl p F) as [|a L IH]; cbn; constructor; inversion I1; subst; auto.
    rewrite Forall_forall in *. intros y Hy. apply in_map_iff in Hy. destruct Hy as (z & <- & Hz). rewrite !put_id. auto.
  - rewrite Forall_forall in *. intros y Hy. apply in_map_iff in Hy. destruct Hy as (z & <- & Hz). rewrite put_id. auto.
Qed.
End AL.

Section LT.
Import LTModel LTInv LTAdd.
Variable cfg : lt_cfg.

Lemma lt_save_ok db F n d : stores cfg (lt_rows db) F -> In n (lt_rows db) ->
  exists db1, lt_save cfg db (lt_set_data n d) = Ok db1 /\ stores cfg (lt_rows db1) (set_data (l_pk n) d F) /\
    In (lt_set_data n d) (lt_rows db1) /\ (forall r, In r (lt_rows db) -> l_pk r <> l_pk n -> In r (lt_rows db1)).
Proof.
  intros (f & L & <- & W) Hn. set (n1 := lt_set_data n d). set (i := l_pk n).
  assert (Un : forall x, In x (lt_rows db) -> l_pk x = i -> x = n) by (intros x Hx E; apply (pk_inj cfg _ _ _ _ L W Hx Hn E)).
  exists (mkLTDB (map (fun x => if l_pk x =? l_pk n1 then n1 else x) (lt_rows db)) (lt_sig db)). split.
  { unfold lt_save, save_row.
    replace (fits_ltree cfg (l_path n1)) with true by (symmetry; apply LTAdd.valid_fits; destruct (lay_in cfg _ _ _ L Hn) as (x & Hx & ->); apply (kvalid_path cfg f x); auto; apply L). cbn [negb].
    replace (existsb (fun x => l_pk x =? l_pk n1) (lt_rows db)) with true; auto. symmetry. apply existsb_exists.
    exists n. split; auto. apply Nat.eqb_refl. }
  cbn [lt_rows]. split; [|split].
  - exists (kmap (put_data i d) f). destruct L as (L1 & L2 & L3).
    split; [|split; [|apply set_data_wf; auto]].
    + split; [apply kmap_pwf; auto|]. split.
      * unfold kvalid, kmap in *. rewrite preorder_fmap, Forall_forall in *. intros y Hy. apply in_map_iff in Hy.
        destruct Hy as (z & <- & Hz). apply (L2 z Hz).
      * rewrite kmap_rows. rewrite (map_ext_in _ (fun x => if l_pk x =? i then lt_set_data x d else x)).
        { rewrite L3, !map_map. match goal with |- Permutation ?a ?b => replace b with a; [reflexivity|] end.
          apply map_ext. intros [p [j e]]. unfold mkrow, put_data. cbn. destruct (Nat.eqb_spec j i) as [->|]; auto. }
        intros x Hx. change (l_pk n1) with i. destruct (Nat.eqb_spec (l_pk x) i) as [E|]; auto.
        rewrite (Un x Hx E). auto.
    + unfold kerase, erase, kmap, set_data. rewrite !fmap_fmap. auto.
  - apply (upd_in_new l_pk n1 _ n); auto.
  - intros r Hr Nr. apply (upd_in l_pk n1); auto.
Qed.
End LT.
