(** Concurrent deletions on materialized paths (C66). *)
From Coq Require Import List Arith Lia Bool ZArith Permutation.
From Verif Require Import Prelude Forest SpecFacts CommonModel Order History
  MPModel MPStep MPInv MPDelete MPHist ConcModel ConcRun ConcLock.
From Verif Require PathTab PathDel.
Import ListNotations.
Local Open Scope nat_scope.

Section MP.
Variable cfg : mp_cfg.
Hypothesis radix2 : 2 <= radix cfg.
Hypothesis step1 : 1 <= steplen cfg.
Notation stores := (stores cfg).
Notation after := (after m_pk).

Definition named (l : list nat) (r : mprow) : bool := existsb (Nat.eqb (m_pk r)) l.
Definition below (t : mp_table) (l : list nat) (r : mprow) : bool :=
  existsb (fun y => named l y && ppre (m_path y) (m_path r)) t.
Definition lostn (t : mp_table) (l : list nat) (p : path) : nat :=
  length (filter (fun x => named l x && peq (parent_path_of cfg x) p) t).
Definition rem (t : mp_table) (l : list nat) := minimal_removed cfg [] (isort depth_path_le (filter (named l) t)).

Lemma pks_nodup t F : stores t F -> NoDup (map m_pk t).
Proof.
  intros (f & L & _ & <- & W). apply (Permutation_NoDup (Permutation_sym (lay_pks cfg _ _ L))). apply W.
Qed.

Lemma same_pk t F a b : stores t F -> In a t -> In b t -> m_pk a = m_pk b -> a = b.
Proof. intros (f & L & _ & <- & W). eapply pk_inj; eauto. Qed.

Lemma below_iff t l r : below t l r = true <-> exists y, In y t /\ In (m_pk y) l /\ exists z, m_path r = m_path y ++ z.
Proof.
  unfold below, named. rewrite existsb_exists. split.
  - intros (y & Hy & E). apply andb_true_iff in E. destruct E as [E1 E2]. apply existsb_exists in E1. destruct E1 as (k & Hk & E1).
    apply Nat.eqb_eq in E1. subst k. apply ppre_iff in E2. eauto.
  - intros (y & Hy & Hk & E). exists y. split; auto. apply andb_true_iff. split; [|apply ppre_iff; auto].
    apply existsb_exists. exists (m_pk y). rewrite Nat.eqb_refl. auto.
Qed.

Lemma named_iff l r : named l r = true <-> In (m_pk r) l.
Proof.
  unfold named. rewrite existsb_exists. split.
  - intros (k & Hk & E). apply Nat.eqb_eq in E. subst. auto.
  - intros H. exists (m_pk r). rewrite Nat.eqb_refl. auto.
Qed.

Lemma deleted_below t F l r : stores t F -> In r t -> deleted_row (rem t l) r = below t l r.
Proof.
  intros (f & L & N & <- & I) Hr. destruct (lay_in cfg _ _ _ L Hr) as (x & Hx & ->).
  unfold rem. rewrite (deleted_spec cfg radix2 step1 t f (named l) L N I x Hx). unfold PathDel.hit, below.
  apply eq_true_iff_eq. rewrite !existsb_exists. split.
  - intros (y & Hy & E). apply andb_true_iff in E. destruct E as [E1 E2]. exists (mkrow cfg y).
    split; [eapply lay_in_rev; eauto|]. apply andb_true_iff. split; auto.
    apply existsb_exists in E1. destruct E1 as (z & Hz & E1). apply andb_true_iff in E1. destruct E1 as [E1 E3].
    apply Nat.eqb_eq in E1. rewrite (pk_inj cfg t f z (mkrow cfg y)) in E3; auto. eapply lay_in_rev; eauto.
  - intros (y & Hy & E). apply andb_true_iff in E. destruct E as [E1 E2].
    destruct (lay_in cfg _ _ _ L Hy) as (z & Hz & ->). exists z. split; auto. apply andb_true_iff. split; auto.
    apply existsb_exists. exists (mkrow cfg z). split; auto. rewrite E1. cbn. rewrite Nat.eqb_refl. auto.
Qed.

Lemma row_facts t F r : stores t F -> In r t -> length (m_path r) = m_depth r * steplen cfg /\ 1 <= m_depth r.
Proof. intros (f & L & _ & _ & _) Hr. exact (row_aligned cfg radix2 step1 t f L r Hr). Qed.

Lemma path_nonempty t F r : stores t F -> In r t -> m_path r <> [].
Proof. intros St Hr E. destruct (row_facts t F r St Hr) as [E1 E2]. rewrite E in E1. cbn in E1. nia. Qed.

(** A path above the path of a child is above or is that of the parent. *)
Lemma above_parent t F x y : stores t F -> In x t -> In y t -> above (m_path y) (m_path x) ->
  exists z, parent_path_of cfg x = m_path y ++ z.
Proof.
  intros St Hx Hy (z & Nz & E). destruct (row_facts t F x St Hx) as [Lx Dx]. destruct (row_facts t F y St Hy) as [Ly Dy].
  unfold parent_path_of, get_basepath.
  assert (D : m_depth y <= m_depth x - 1).
  { assert (length (m_path y) < length (m_path x)) by (rewrite E, app_length; destruct z; [congruence|cbn; lia]). nia. }
  exists (firstn ((m_depth x - 1) * steplen cfg - length (m_path y)) z).
  rewrite E, firstn_app. f_equal. apply firstn_all2. rewrite Ly. apply Nat.mul_le_mono_r. auto.
Qed.

(** And the path of the parent is above that of the child. *)
Lemma parent_above t F x : stores t F -> In x t -> exists z, m_path x = parent_path_of cfg x ++ z.
Proof.
  intros St Hx. unfold parent_path_of, get_basepath. exists (skipn ((m_depth x - 1) * steplen cfg) (m_path x)).
  symmetry. apply firstn_skipn.
Qed.

Lemma lost_eq t F l p : stores t F -> (forall y, In y t -> In (m_pk y) l -> forall z, p <> m_path y ++ z) ->
  lost_children cfg (rem t l) p = lostn t l p.
Proof.
  intros St H. assert (St' := St). destruct St' as (f & L & N & <- & I).
  destruct (removed_spec cfg radix2 step1 t f (named l) L I) as [ND Hr]. fold (rem t l) in ND, Hr.
  unfold lost_children, lostn. apply Permutation_length. apply NoDup_Permutation.
  - apply NoDup_filter. auto.
  - apply NoDup_filter. apply NoDup_map_inv with (f := m_pk). eapply pks_nodup; eauto.
  - intros x. rewrite !filter_In, Hr, andb_true_iff. split; [tauto|].
    intros (Hx & Hn & E). split; auto. split; auto. split; auto. intros y Hy Hny Ha.
    destruct (above_parent t _ x y St Hx Hy Ha) as [z Ez]. apply peq_iff in E. apply (H y Hy (proj1 (named_iff _ _) Hny) z). congruence.
Qed.

Lemma lost_row t F l r : stores t F -> In r t -> below t l r = false -> lost_children cfg (rem t l) (m_path r) = lostn t l (m_path r).
Proof.
  intros St Hr B. apply (lost_eq t F); auto. intros y Hy Hl z E. apply not_true_iff_false in B. apply B. apply below_iff. eauto 6.
Qed.

(** What the call alone does. *)
Definition del_exec (t : mp_table) (l : list nat) : res mp_table :=
  do db <- mp_exec cfg (mkDB t []) (CDelete l); Ok (db_rows db).

Lemma del_rows t F l : stores t F ->
  del_exec t l = Ok (map (lower (lostn t l)) (filter (fun r => negb (below t l r)) t)).
Proof.
  intros St. unfold del_exec. cbn [mp_exec bind db_rows]. f_equal. unfold delete_queryset, delete_statements. cbv zeta.
  change (minimal_removed cfg [] (isort depth_path_le (filter _ t))) with (rem t l).
  rewrite run_all by (intros r Hr; eapply path_nonempty; eauto).
  rewrite (filter_ext_In _ (fun r => negb (below t l r))) by (intros r Hr; rewrite (deleted_below t F); auto).
  apply map_ext_in. intros r Hr. apply filter_In in Hr. destruct Hr as [Hr B]. apply negb_true_iff in B.
  unfold lower. rewrite (lost_row t F); auto.
Qed.

Lemma del_stores t F l : stores t F -> exists t', del_exec t l = Ok t' /\
  stores t' (remove_all (fun i => existsb (Nat.eqb i) l) F).
Proof.
  intros St. eexists. split; [reflexivity|]. cbn.
  assert (S' := MPDelete.delete_queryset_ok cfg radix2 step1 t F (named l) St). unfold named in S'.
  erewrite remove_all_ext; [exact S'|]. intros i Hi. cbn beta. symmetry. apply eq_true_iff_eq. rewrite existsb_exists. split.
  - intros (r & _ & E). apply andb_true_iff in E. destruct E as [E1 E2]. apply Nat.eqb_eq in E1. subst. auto.
  - intros E. destruct St as (f & L & _ & <- & I).
    apply (Permutation_in _ (Permutation_sym (lay_pks cfg _ _ L))) in Hi. apply in_map_iff in Hi. destruct Hi as (r & <- & Hr).
    exists r. split; auto. rewrite Nat.eqb_refl. auto.
Qed.

(** ** The states of the transaction *)
Definition on (ps : list path) (r : mprow) : bool := existsb (peq (m_path r)) ps.
Definition cut (rm : list mprow) (ds : list path) (r : mprow) : mprow :=
  if on ds r then lower (lost_children cfg rm) r else r.

(** What is known of the nodes found by the SELECT. *)
Definition reads (t : mp_table) (l : list nat) (rm : list mprow) : Prop :=
  forall r, In r t -> deleted_row rm r = below t l r /\
    (below t l r = false -> lost_children cfg rm (m_path r) = lostn t l (m_path r)).

Definition tail (rm : list mprow) : prog mprow := Delete (deleted_row rm) Commit.

Definition updating (t : mp_table) (rm : list mprow) (x : tx mprow) : Prop := exists ds todo,
  parents_of_removed cfg rm = ds ++ todo /\ x_prog x = mp_decrease cfg rm todo (tail rm) /\
  (forall r, In r t -> after (x_writes x) r = Some (cut rm ds r) /\ (on ds r = true -> In (m_pk r) (x_locks x))) /\
  match x_found x with
  | None => True
  | Some ks => forall r, In r t ->
      match todo with [] => deleted_row rm r = true | p :: _ => m_path r = p end -> In (m_pk r) ks
  end.

Definition deleted (t : mp_table) (rm : list mprow) (x : tx mprow) : Prop :=
  x_prog x = Commit /\
  forall r, In r t ->
    after (x_writes x) r = (if deleted_row rm r then None else Some (cut rm (parents_of_removed cfg rm) r)) /\
    (deleted_row rm r = true \/ on (parents_of_removed cfg rm) r = true -> In (m_pk r) (x_locks x)).

Definition writes_locked (x : tx mprow) : Prop :=
  Forall no_new (x_writes x) /\ incl (map (fun w => m_pk (written w)) (x_writes x)) (x_locks x).

Definition Q (t : mp_table) (l : list nat) (x : tx mprow) : Prop :=
  x = begin (mp_delete cfg l) \/
  exists rm, reads t l rm /\ writes_locked x /\ (updating t rm x \/ deleted t rm x).

Definition ok (t : mp_table) : Prop := exists F, stores t F.
Definition apart (c d : list nat) : Prop := forall k, In k c -> ~ In k d.

Lemma cut_key rm ds r : m_pk (cut rm ds r) = m_pk r /\ m_path (cut rm ds r) = m_path r.
Proof. unfold cut. destruct (on ds r); auto. Qed.

Lemma deleted_key rm a b : m_pk a = m_pk b -> m_path a = m_path b -> deleted_row rm a = deleted_row rm b.
Proof. intros E1 E2. unfold deleted_row. rewrite E1, E2. auto. Qed.

Lemma on_app ds p r : on (ds ++ [p]) r = on ds r || peq (m_path r) p.
Proof. unfold on. rewrite existsb_app. cbn. rewrite orb_false_r. auto. Qed.

Lemma see_updating t rm ds (x : tx mprow) : Forall no_new (x_writes x) ->
  (forall r, In r t -> after (x_writes x) r = Some (cut rm ds r)) -> visible m_pk t x = map (cut rm ds) t.
Proof.
  intros N H. unfold visible. rewrite fold_after by auto. rewrite (keep_some_ext _ (fun r => Some (cut rm ds r))) by auto.
  clear. induction t as [|a t IH]; cbn; congruence.
Qed.

Lemma goes_commit t p ws ls : (forall e, p <> Raise e) -> goes t p ws ls = @Go mprow (mkTx p ws ls None).
Proof. intros H. destruct p; auto. exfalso. eapply H; eauto. Qed.

Lemma decrease_no_raise rm todo e : mp_decrease cfg rm todo (tail rm) <> Raise e.
Proof. destruct todo; discriminate. Qed.

Lemma incl_app_locks (ws ws' : list (write mprow)) ks ls :
  incl (map (fun w => m_pk (written w)) ws) ls -> (forall w, In w ws' -> In (m_pk (written w)) ks) ->
  incl (map (fun w => m_pk (written w)) (ws ++ ws')) (ks ++ ls).
Proof.
  intros H K k Hk. rewrite map_app in Hk. apply in_app_iff in Hk. apply in_app_iff. destruct Hk as [Hk|Hk]; auto.
  apply in_map_iff in Hk. destruct Hk as (w & <- & Hw). left. auto.
Qed.

Lemma nodup_mid (A : Type) (ds : list A) p todo : NoDup (ds ++ p :: todo) -> ~ In p ds.
Proof. intros N H. apply NoDup_remove_2 in N. apply N. apply in_app_iff. auto. Qed.

Lemma Q_go t l x x' : ok t -> Q t l x -> solo m_pk mp_same t x = Go x' -> Q t l x'.
Proof.
  intros [F St] [->|(rm & Rd & [NN WL] & [(ds & todo & Ep & Eg & Aw & Fo)|(Eg & _)])].
  - cbn. change (fun r : mprow => existsb (Nat.eqb (m_pk r)) l) with (named l). fold (rem t l).
    rewrite goes_commit by apply decrease_no_raise. intros E. injection E as <-. right. exists (rem t l). split.
    { intros r Hr. split; [eapply deleted_below; eauto|]. apply (lost_row t F); auto. }
    split; [split; [constructor|intros k []]|]. left. exists [], (parents_of_removed cfg (rem t l)). cbn.
    split; auto. split; auto. split; auto. intros r Hr. split; auto. discriminate.
  - assert (Ev := see_updating t rm ds x NN (fun r Hr => proj1 (Aw r Hr))).
    assert (NV : NoDup (map m_pk (map (cut rm ds) t))).
    { rewrite map_map. erewrite map_ext; [eapply pks_nodup; eauto|]. intros a. apply cut_key. }
    unfold solo. rewrite Ev, Eg. destruct todo as [|p todo].
    + cbn [mp_decrease tail]. destruct (x_found x) as [ks|] eqn:Ex.
      * cbn [goes]. intros E. injection E as <-. right. exists rm. split; auto.
        set (s := fun r => deleted_row rm r && existsb (Nat.eqb (m_pk r)) ks).
        change (filter _ (map (cut rm ds) t)) with (filter s (map (cut rm ds) t)). split.
        { split; cbn [x_writes x_locks].
          - apply Forall_app. split; auto. apply Forall_forall. intros w Hw. apply in_map_iff in Hw. destruct Hw as (r & <- & _). exact Logic.I.
          - apply incl_app_locks; auto. intros w Hw. apply in_map_iff in Hw. destruct Hw as (r & <- & Hr). cbn.
            apply filter_In in Hr. destruct Hr as [_ Hr]. apply andb_true_iff in Hr. destruct Hr as [_ Hr].
            apply existsb_exists in Hr. destruct Hr as (k & Hk & Er). apply Nat.eqb_eq in Er. congruence. }
        right. split; auto. intros r Hr. cbn [x_writes x_locks]. rewrite app_nil_r in Ep. subst ds.
        destruct (Aw r Hr) as [A1 A2]. rewrite after_app, A1. rewrite after_gones by (auto; apply in_map; auto).
        destruct (cut_key rm (parents_of_removed cfg rm) r) as [K1 K2].
        unfold s. rewrite K1, (deleted_key rm _ r K1 K2). destruct (deleted_row rm r) eqn:Ed; cbn [andb].
        -- assert (Hk := Fo r Hr Ed). split.
           ++ replace (existsb (Nat.eqb (m_pk r)) ks) with true; auto. symmetry. apply existsb_exists. exists (m_pk r). rewrite Nat.eqb_refl. auto.
           ++ intros _. apply in_app_iff. auto.
        -- split; auto. intros [H|H]; [discriminate|]. apply in_app_iff. auto.
      * intros E. injection E as <-. right. exists rm. split; auto. split; [split; auto|]. left. exists ds, []. cbn.
        split; auto. split; auto. split; auto. intros r Hr Hd. apply in_map_iff.
        destruct (cut_key rm ds r) as [K1 K2]. exists (cut rm ds r). split; auto. apply filter_In. split; [apply in_map; auto|].
        rewrite (deleted_key rm _ r K1 K2). auto.
    + cbn [mp_decrease]. destruct (x_found x) as [ks|] eqn:Ex.
      * rewrite goes_commit by apply decrease_no_raise. intros E. injection E as <-. right. exists rm. split; auto.
        set (s := fun r => peq (m_path r) p && existsb (Nat.eqb (m_pk r)) ks).
        set (g := fun r => set_nc r (m_nc r - lost_children cfg rm p)).
        change (filter _ (map (cut rm ds) t)) with (filter s (map (cut rm ds) t)). split.
        { split; cbn [x_writes x_locks].
          - apply Forall_app. split; auto. apply Forall_forall. intros w Hw. apply in_map_iff in Hw. destruct Hw as (r & <- & _). exact Logic.I.
          - apply incl_app_locks; auto. intros w Hw. apply in_map_iff in Hw. destruct Hw as (r & <- & Hr). cbn.
            apply filter_In in Hr. destruct Hr as [_ Hr]. apply andb_true_iff in Hr. destruct Hr as [_ Hr].
            apply existsb_exists in Hr. destruct Hr as (k & Hk & Er). apply Nat.eqb_eq in Er. congruence. }
        left. exists (ds ++ [p]), todo. cbn [x_prog x_writes x_locks x_found]. split; [rewrite <- app_assoc; auto|]. split; auto. split; auto.
        intros r Hr. destruct (Aw r Hr) as [A1 A2].
        assert (Np : NoDup (ds ++ p :: todo)) by (rewrite <- Ep; apply dedup_spec).
        rewrite after_app, A1. rewrite (after_puts _ _ s g) by (auto; apply in_map; auto).
        destruct (cut_key rm ds r) as [K1 K2]. unfold s. rewrite K1, K2. destruct (peq (m_path r) p) eqn:Er; cbn [andb].
        -- apply peq_iff in Er. assert (Hk := Fo r Hr Er).
           assert (Eo : on ds r = false).
           { apply not_true_iff_false. intros H. apply existsb_exists in H. destruct H as (q & Hq & H). apply peq_iff in H. subst q.
             apply (nodup_mid _ _ _ _ Np). congruence. }
           split.
           ++ replace (existsb (Nat.eqb (m_pk r)) ks) with true
                by (symmetry; apply existsb_exists; exists (m_pk r); rewrite Nat.eqb_refl; auto).
              unfold cut. rewrite on_app, Eo. rewrite (proj2 (peq_iff _ _) Er). cbn [orb]. unfold g, lower. rewrite Er. auto.
           ++ intros _. apply in_app_iff. auto.
        -- split.
           ++ unfold cut. rewrite on_app, Er, orb_false_r. auto.
           ++ rewrite on_app, Er, orb_false_r. intros H. apply in_app_iff. auto.
      * intros E. injection E as <-. right. exists rm. split; auto. split; [split; auto|]. left. exists ds, (p :: todo). cbn.
        split; auto. split; auto. split; auto. intros r Hr Hd. apply in_map_iff.
        destruct (cut_key rm ds r) as [K1 K2]. exists (cut rm ds r). split; auto. apply filter_In. split; [apply in_map; auto|].
        rewrite K2. apply peq_iff. auto.
  - unfold solo. rewrite Eg. discriminate.
Qed.

Lemma lower_none r n : lost_children cfg n (m_path r) = 0 -> lower (lost_children cfg n) r = r.
Proof. intros E. unfold lower. rewrite E. destruct r. unfold set_nc. cbn. rewrite Nat.sub_0_r. auto. Qed.

Lemma Q_end t l x rows e : ok t -> Q t l x -> solo m_pk mp_same t x = End rows e ->
  del_exec t l = match e with None => Ok rows | Some e => Err e end.
Proof.
  intros [F St] [->|(rm & Rd & [NN WL] & [(ds & todo & Ep & Eg & Aw & Fo)|(Eg & Aw)])].
  - cbn. rewrite goes_commit by apply decrease_no_raise. discriminate.
  - unfold solo. rewrite Eg. destruct todo as [|p todo]; cbn [mp_decrease tail]; destruct (x_found x); try discriminate.
    rewrite goes_commit by apply decrease_no_raise. discriminate.
  - unfold solo. rewrite Eg. intros E. injection E as <- <-. rewrite (del_rows t F) by auto. f_equal.
    unfold visible. rewrite fold_after by auto. rewrite <- keep_some_some. symmetry. apply keep_some_ext. intros r Hr.
    rewrite (proj1 (Aw r Hr)). destruct (Rd r Hr) as [R1 R2]. rewrite R1. destruct (below t l r); auto. f_equal.
    unfold cut. specialize (R2 eq_refl). destruct (on _ r) eqn:Eo.
    + unfold lower. rewrite R2. auto.
    + rewrite <- (lower_none r rm) at 1; [unfold lower; rewrite R2; auto|]. apply lost_none; auto. eapply path_nonempty; eauto.
Qed.

(** The rows left by another deletion. *)
Lemma kept t F l d r : stores t F -> apart l d -> In r t -> below t d r = false ->
  forall t', del_exec t d = Ok t' -> forall r', m_pk r' = m_pk r -> m_path r' = m_path r ->
  below t' l r' = below t l r /\ lostn t' l (m_path r') = lostn t l (m_path r).
Proof.
  intros St A Hr B t' E r' K1 K2. rewrite (del_rows t F) in E by auto. injection E as <-.
  assert (NB : forall y, In y t -> In (m_pk y) d -> forall z, m_path r <> m_path y ++ z).
  { intros y Hy Hd z Ez. apply not_true_iff_false in B. apply B. apply below_iff. eauto 6. }
  split.
  - apply eq_true_iff_eq. rewrite !below_iff. rewrite K2. split.
    + intros (y & Hy & Hl & z & Ez). apply in_map_iff in Hy. destruct Hy as (y0 & <- & Hy). apply filter_In in Hy.
      exists y0. split; [tauto|]. split; [exact Hl|]. exists z. exact Ez.
    + intros (y & Hy & Hl & z & Ez). exists (lower (lostn t d) y). split; [|split; [exact Hl|exists z; exact Ez]].
      apply in_map. apply filter_In. split; auto. apply negb_true_iff, not_true_iff_false. rewrite below_iff.
      intros (u & Hu & Hd & v & Ev). apply (NB u Hu Hd (v ++ z)). rewrite Ez, Ev, app_assoc. auto.
  - rewrite K2. generalize (lostn t d). intros G. unfold lostn. rewrite filter_map, map_length, filter_filter. f_equal. apply filter_ext_In. intros x Hx.
    change (named l (lower G x)) with (named l x). change (parent_path_of cfg (lower G x)) with (parent_path_of cfg x).
    destruct (named l x && peq (parent_path_of cfg x) (m_path r)) eqn:Ex; [|rewrite ?andb_false_r; auto].
    rewrite ?andb_true_r. apply negb_true_iff, not_true_iff_false. rewrite below_iff. intros (u & Hu & Hd & v & Ev).
    apply andb_true_iff in Ex. destruct Ex as [E1 E2]. apply peq_iff in E2. apply named_iff in E1.
    destruct v as [|c v].
    + rewrite app_nil_r in Ev. assert (m_pk x = m_pk u).
      { destruct St as (f & L & _ & <- & I). destruct (lay_in cfg _ _ _ L Hx) as (a & Ha & ->). destruct (lay_in cfg _ _ _ L Hu) as (b & Hb & ->).
        cbn in Ev. destruct L as (W & _). assert (a = b); [|congruence].
        eapply NoDup_map_inj; [exact (k_NoDup cfg step1 f W)| | |]; auto. }
      apply (A (m_pk x)); auto. rewrite H. auto.
    + destruct (above_parent t F x u St Hx Hu) as [w Ew]; [exists (c :: v); split; auto; discriminate|].
      rewrite E2 in Ew. apply (NB u Hu Hd w). auto.
Qed.

Lemma Q_other t c d x y rows : ok t -> apart c d -> Q t c x -> Q t d y ->
  (forall k, In k (x_locks x) -> ~ In k (x_locks y)) -> solo m_pk mp_same t y = End rows None -> Q rows c x.
Proof.
  intros O A Qx Qy Lk Es. assert (E := Q_end t d y rows None O Qy Es). destruct O as [F St].
  destruct Qx as [->|(rm & Rd & WL & Stage)]; [left; auto|right]. exists rm.
  assert (Ws : writes_locked y /\ rows = keep_some (after (x_writes y)) t).
  { destruct Qy as [->|(rm' & _ & WL' & _)].
    - exfalso. cbn in Es. rewrite goes_commit in Es by apply decrease_no_raise. discriminate.
    - split; auto. destruct WL' as [NN _]. unfold solo in Es. destruct (x_prog y); try discriminate.
      + injection Es as <-. apply fold_after. auto.
      + unfold goes in Es. match type of Es with context [match ?p with _ => _ end] => destruct p; discriminate end.
      + unfold goes in Es. match type of Es with context [match ?p with _ => _ end] => destruct p; discriminate end.
      + unfold goes in Es. destruct (x_found y); [|discriminate]. match type of Es with context [match ?p with _ => _ end] => destruct p; discriminate end.
      + unfold goes in Es. destruct (x_found y); [|discriminate]. match type of Es with context [match ?p with _ => _ end] => destruct p; discriminate end.
      + unfold goes in Es. destruct (existsb _ _); [discriminate|]. match type of Es with context [match ?p with _ => _ end] => destruct p; discriminate end. }
  destruct Ws as [[NNy WLy] Ek].
  (* every row left was there, with the same key, and is the same if it is locked by x *)
  assert (Old : forall r', In r' rows -> exists r, In r t /\ m_pk r' = m_pk r /\ m_path r' = m_path r /\ below t d r = false /\
     (In (m_pk r) (x_locks x) -> r' = r)).
  { intros r' Hr'. assert (H1 := Hr'). rewrite Ek in H1. apply keep_some_in in H1. destruct H1 as (r & Hr & E1).
    assert (H2 := Hr'). rewrite (del_rows t F) in E by auto. injection E as E. rewrite <- E in H2. apply in_map_iff in H2.
    destruct H2 as (r2 & E2 & H2). apply filter_In in H2. destruct H2 as [H2 B2]. apply negb_true_iff in B2.
    assert (r = r2).
    { apply (same_pk t F); auto. rewrite <- (after_pk _ _ _ _ _ E1). rewrite <- E2. reflexivity. }
    subst r2. exists r. split; auto. split; [rewrite <- E2; auto|]. split; [rewrite <- E2; auto|]. split; auto.
    intros Hk. rewrite after_other in E1; [congruence|]. intros H. apply (Lk (m_pk r)); auto. }
  assert (Rd' : reads rows c rm).
  { intros r' Hr'. destruct (Old r' Hr') as (r & Hr & K1 & K2 & B & _).
    destruct (kept t F c d r St A Hr B rows E r' K1 K2) as [E1 E2]. destruct (Rd r Hr) as [R1 R2].
    rewrite (deleted_key rm r' r K1 K2), E1, E2, K2. auto. }
  split; auto. split; auto. destruct WL as [NN WL].
  destruct Stage as [(ds & todo & Ep & Eg & Aw & Fo)|(Eg & Aw)]; [left|right].
  - exists ds, todo. split; auto. split; auto. split.
    + intros r' Hr'. destruct (Old r' Hr') as (r & Hr & K1 & K2 & B & Same). destruct (Aw r Hr) as [A1 A2].
      assert (Eo : on ds r' = on ds r) by (unfold on; rewrite K2; auto). rewrite Eo, K1.
      destruct (in_dec Nat.eq_dec (m_pk r) (x_locks x)) as [H|H]; [rewrite (Same H); auto|].
      destruct (on ds r) eqn:Er; [exfalso; auto|]. split; [|discriminate].
      rewrite after_other by (rewrite K1; intros X; apply H, WL, X). unfold cut. rewrite Eo. auto.
    + destruct (x_found x) as [ks|]; auto. intros r' Hr' H. destruct (Old r' Hr') as (r & Hr & K1 & K2 & _). rewrite K1.
      apply (Fo r Hr). destruct todo; [rewrite <- (deleted_key rm r' r K1 K2); auto|congruence].
  - split; auto. intros r' Hr'. destruct (Old r' Hr') as (r & Hr & K1 & K2 & B & Same). destruct (Aw r Hr) as [A1 A2].
    rewrite (deleted_key rm r' r K1 K2).
    assert (Eo : forall ds, on ds r' = on ds r) by (intros; unfold on; rewrite K2; auto). rewrite Eo, K1. split; auto.
    destruct (in_dec Nat.eq_dec (m_pk r) (x_locks x)) as [H|H]; [rewrite (Same H); auto|].
    destruct (deleted_row rm r) eqn:Ed; [exfalso; auto|]. destruct (on (parents_of_removed cfg rm) r) eqn:Er; [exfalso; auto|].
    rewrite after_other by (rewrite K1; intros X; apply H, WL, X). unfold cut. rewrite Eo, Er. auto.
Qed.

Lemma mp_undisturbed : undisturbed mprow m_pk mp_same (list nat) (mp_delete cfg) del_exec ok apart Q (fun _ _ => True).
Proof.
  split.
  - intros t c _ _. left. auto.
  - apply Q_go.
  - apply Q_end.
  - intros t c x t' [F St] _ E. destruct (del_stores t F c St) as (t2 & E2 & S2). rewrite E in E2. injection E2 as ->. eexists. eauto.
  - apply Q_other.
Qed.

Lemma one_by_one_stores calls order : forall t F, stores t F ->
  stores (fst (one_by_one del_exec calls t order))
    (fold_left (fun F l => remove_all (fun i => existsb (Nat.eqb i) l) F) (succeeded calls (snd (one_by_one del_exec calls t order))) F) /\
  Forall (fun e => snd e = None) (snd (one_by_one del_exec calls t order)).
Proof.
  induction order as [|i order IH]; intros t F St; [cbn; auto|]. cbn [one_by_one].
  destruct (nth_error calls i) as [l|] eqn:En; auto.
  destruct (del_stores t F l St) as (t' & E & S'). rewrite E.
  destruct (one_by_one del_exec calls t' order) as [u log] eqn:Eo. cbn.
  specialize (IH t' _ S'). rewrite Eo in IH. cbn in IH. rewrite En. cbn. split; [apply IH|]. constructor; [auto|apply IH].
Qed.

Theorem mp_deletes t F (calls : list (list nat)) schedule : stores t F ->
  (forall i j c d, i <> j -> nth_error calls i = Some c -> nth_error calls j = Some d -> forall k, In k c -> ~ In k d) ->
  let W := play m_pk mp_same (all_begin t (map (mp_delete cfg) calls)) schedule in
  one_by_one del_exec calls t (map fst (w_log W)) = (w_rows W, w_log W) /\ NoDup (map fst (w_log W)) /\
  Forall (fun e => snd e = None) (w_log W) /\
  stores (w_rows W) (fold_left (fun F l => remove_all (fun i => existsb (Nat.eqb i) l) F) (succeeded calls (w_log W)) F) /\
  (finished W = true -> Permutation (map fst (w_log W)) (seq 0 (length calls))).
Proof.
  intros St A W.
  destruct (locked_serial _ _ _ _ _ _ _ _ _ _ mp_undisturbed calls t A (ex_intro _ F St) (fun _ _ => I) schedule) as (H1 & _ & H3 & H4). fold W in H1, H3, H4.
  destruct (one_by_one_stores calls (map fst (w_log W)) t F St) as [S1 S2]. rewrite H1 in S1, S2. auto.
Qed.
End MP.
