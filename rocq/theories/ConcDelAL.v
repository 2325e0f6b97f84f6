(** Concurrent deletions on adjacency lists and ltree (C66). *)
From Coq Require Import List Arith Lia Bool ZArith Permutation.
From Verif Require Import Prelude Forest SpecFacts SpecKids CommonModel Order History ConcModel ConcRun ConcLock ConcDelRows.
From Verif Require ALModel ALInv ALHist LTModel LTInv LTReads LTHist PathTab PathDel.
Import ListNotations.
Local Open Scope nat_scope.

Section AL.
Import ALModel ALInv ALHist.
Variable o : ordering.
Notation stores := (stores o).

Definition al_named (l : list nat) (r : alrow) : bool := existsb (Nat.eqb (a_pk r)) l.
Definition al_gone (t : al_table) (l : list nat) (r : alrow) : bool :=
  in_pks (cascade (length t) t (map a_pk (filter (al_named l) t))) (a_pk r).
Definition al_del_exec (t : al_table) (l : list nat) : res al_table := al_exec o t (CDelete l).

(** A named row, or a row below one. *)
Inductive dn (t : al_table) (l : list nat) : nat -> Prop :=
| dn_sel r : In r t -> In (a_pk r) l -> dn t l (a_pk r)
| dn_kid r p : In r t -> a_parent r = Some p -> dn t l p -> dn t l (a_pk r).

Lemma named_iff l r : al_named l r = true <-> In (a_pk r) l.
Proof. apply in_pks_spec. Qed.

Lemma gone_dn t F l r : stores t F -> In r t -> al_gone t l r = true <-> dn t l (a_pk r).
Proof.
  intros (W & _ & so & Fit & _) Hr. unfold al_gone.
  assert (C : forall q, In q t -> in_pks (cascade (length t) t (map a_pk (filter (al_named l) t))) (a_pk q) = gone (fun i => in_pks l i) F (a_pk q)).
  { intros q Hq. destruct (fits_pk so t F W Fit q Hq) as (Hi & _). exact (cascade_gone so t F (fun i => in_pks l i) W Fit (a_pk q) Hi). }
  split.
  - intros H. apply in_pks_spec in H. revert H. generalize (a_pk r). generalize (length t). clear r Hr C. intros n.
    induction n as [|n IH]; intros k H.
    + cbn in H. apply in_map_iff in H. destruct H as (r & <- & Hr). apply filter_In in Hr. destruct Hr as [Hr Hn].
      apply dn_sel; auto. apply named_iff. auto.
    + rewrite cascade_S in H. unfold cascade_step in H. apply in_map_iff in H. destruct H as (r & <- & Hr).
      apply filter_In in Hr. destruct Hr as [Hr E]. apply orb_true_iff in E. destruct E as [E|E].
      * apply IH. apply in_pks_spec. auto.
      * destruct (a_parent r) as [p|] eqn:Ep; [|discriminate]. apply (dn_kid t l r p); auto. apply IH. apply in_pks_spec. auto.
  - intros H. rewrite C by auto.
    assert (G : forall k, dn t l k -> gone (fun i => in_pks l i) F k = true).
    { clear r Hr H. intros k H. induction H as [r Hr Hl|r p Hr Ep Hd IH].
      - unfold gone. rewrite (proj2 (in_pks_spec l (a_pk r)) Hl). auto.
      - destruct (fits_pk so t F W Fit r Hr) as (Hi & Hp & _). rewrite (gone_child _ F _ p W Hi) by congruence. rewrite IH. apply orb_true_r. }
    apply G. auto.
Qed.

Lemma al_keys t F : stores t F -> NoDup (map a_pk t).
Proof. intros (W & _ & so & Fit & _). apply (Permutation_NoDup (Permutation_sym (perm_pks so t F W Fit))). apply W. Qed.

Lemma parent_row t F r p : stores t F -> In r t -> a_parent r = Some p -> exists q, In q t /\ a_pk q = p.
Proof.
  intros (W & _ & so & Fit & _) Hr Ep. destruct (fits_pk so t F W Fit r Hr) as (Hi & Hp & _).
  apply (fits_ex so t F W Fit). rewrite Ep in Hp.
  destruct (anc_parent (a_pk r) F W Hi) as (A & _ & [(E & _)|(q & A' & E & Hq & _)]); [congruence|].
  rewrite Hp in E. injection E as ->. apply in_map. auto.
Qed.

Lemma al_left t F d : stores t F ->
  stores (filter (fun r => negb (al_gone t d r)) t) (remove_all (fun i => existsb (Nat.eqb i) d) F).
Proof. intros St. exact (ALHist.delete_ok o t F (fun i => existsb (Nat.eqb i) d) St). Qed.

Lemma dn_kept t F l d k : stores t F -> dn t l k -> forall r, In r t -> a_pk r = k -> al_gone t d r = false ->
  dn (filter (fun r => negb (al_gone t d r)) t) l k.
Proof.
  intros St H. assert (Key := al_keys t F St).
  assert (Eq : forall a b, In a t -> In b t -> a_pk a = a_pk b -> a = b) by (intros a b; apply NoDup_map_inj; auto).
  induction H as [r Hr Hl|r p Hr Ep Hd IH]; intros r' Hr' Ek G; assert (r' = r) by auto; subst r'.
  - apply dn_sel; auto. apply filter_In. split; auto. rewrite G. auto.
  - apply (dn_kid _ l r p); auto; [apply filter_In; split; auto; rewrite G; auto|].
    destruct (parent_row t F r p St Hr Ep) as (q & Hq & Eq'). apply (IH q); auto.
    apply not_true_iff_false. intros Gq. apply not_true_iff_false in G. apply G. apply (gone_dn t F d r St Hr).
    apply (dn_kid t d r p); auto. rewrite <- Eq'. apply (gone_dn t F d q St Hq). auto.
Qed.

Lemma dn_in t t' l k : incl t' t -> dn t' l k -> dn t l k.
Proof. intros Hi H. induction H as [r Hr Hl|r p Hr Ep Hd IH]; [apply dn_sel; auto|apply (dn_kid t l r p); auto]. Qed.

Definition al_ok (t : al_table) : Prop := exists F, stores t F.
Definition fin (s : list nat) : prog alrow := Delete (fun r => in_pks s (a_pk r)) Commit.

Definition al_pre (t : al_table) (l : list nat) (x : tx alrow) : Prop :=
  x = begin (al_delete l) \/
  exists n s K, x = mkTx (al_collect n s fin) [] [] None /\ incl (map a_pk t) K /\ NoDup s /\ incl s K /\ length K <= n + length s /\
    (forall r, In r t -> In (a_pk r) s -> dn t l (a_pk r)) /\ (forall r, In r t -> In (a_pk r) l -> In (a_pk r) s).

Lemma nodup_filter_keys s t : NoDup (map a_pk t) -> NoDup (map a_pk (filter s t)).
Proof.
  induction t as [|a t IH]; cbn; intros N; [constructor|]. apply NoDup_cons_iff in N. destruct N as [Na N].
  destruct (s a); cbn; auto. constructor; auto. intros H. apply Na. apply in_map_iff in H. destruct H as (x & E & Hx).
  rewrite <- E. apply in_map. apply filter_In in Hx. tauto.
Qed.

Lemma collect_go t F l n s K : stores t F -> incl (map a_pk t) K -> NoDup s -> incl s K -> length K <= n + length s ->
  (forall r, In r t -> In (a_pk r) s -> dn t l (a_pk r)) -> (forall r, In r t -> In (a_pk r) l -> In (a_pk r) s) ->
  (exists n' s', solo a_pk al_same t (mkTx (al_collect n s fin) [] [] None) = Go (mkTx (al_collect n' s' fin) [] [] None) /\
     NoDup s' /\ incl s' K /\ length K <= n' + length s' /\
     (forall r, In r t -> In (a_pk r) s' -> dn t l (a_pk r)) /\ (forall r, In r t -> In (a_pk r) l -> In (a_pk r) s')) \/
  (solo a_pk al_same t (mkTx (al_collect n s fin) [] [] None) = Go (mkTx (fin s) [] [] None) /\
     agrees alrow al_gone t l (fun r => in_pks s (a_pk r))).
Proof.
  intros St HK Ns Hs Hn Ha Hb.
  set (sel := fun r => negb (in_pks s (a_pk r)) && match a_parent r with Some p => in_pks s p | None => false end).
  assert (Es : solo a_pk al_same t (mkTx (al_collect n s fin) [] [] None) =
    goes t (match map a_pk (filter sel t) with
            | [] => fin s
            | k :: l => match n with O => Raise OutOfFuel | S n => al_collect n (s ++ k :: l) fin end
            end) [] []) by (destruct n; reflexivity).
  rewrite Es. clear Es. destruct (map a_pk (filter sel t)) as [|k new] eqn:En.
  - right. split; [reflexivity|]. intros r Hr. apply eq_true_iff_eq. rewrite in_pks_spec, (gone_dn t F l r St Hr). split; auto.
    intros Hd. clear Hr. remember (a_pk r) as k eqn:Ek. clear r Ek. induction Hd as [r Hr Hl|r p Hr Ep Hd IH]; auto.
    destruct (in_dec Nat.eq_dec (a_pk r) s) as [H|H]; auto. exfalso.
    assert (X : In (a_pk r) (map a_pk (filter sel t))).
    { apply in_map. apply filter_In. split; auto. unfold sel. rewrite Ep, (proj2 (in_pks_spec s p) IH).
      replace (in_pks s (a_pk r)) with false; auto. symmetry. apply not_true_iff_false. rewrite in_pks_spec. auto. }
    rewrite En in X. destruct X.
  - assert (New : forall i, In i (k :: new) -> ~ In i s /\ dn t l i /\ In i (map a_pk t)).
    { intros i Hi. rewrite <- En in Hi. apply in_map_iff in Hi. destruct Hi as (r & <- & Hr). apply filter_In in Hr. destruct Hr as [Hr E].
      unfold sel in E. apply andb_true_iff in E. destruct E as [E1 E2]. apply negb_true_iff, not_true_iff_false in E1.
      rewrite in_pks_spec in E1. split; auto. split; [|apply in_map; auto].
      destruct (a_parent r) as [p|] eqn:Ep; [|discriminate]. apply in_pks_spec in E2. apply (dn_kid t l r p); auto.
      destruct (parent_row t F r p St Hr Ep) as (q & Hq & <-). apply Ha; auto. }
    destruct n as [|n].
    + exfalso. destruct (New k (or_introl eq_refl)) as (N1 & _ & N3). apply N1.
      apply (NoDup_length_incl Ns (l' := K)); auto.
    + left. exists n, (s ++ k :: new). split.
      { unfold goes. destruct n; reflexivity. }
      assert (Nn : NoDup (k :: new)) by (rewrite <- En; apply nodup_filter_keys; eapply al_keys; eauto).
      split.
      { apply NoDup_app_iff. split; auto. split; auto. intros i Hi Hi'. apply (New i) in Hi'. tauto. }
      split.
      { intros i Hi. apply in_app_iff in Hi. destruct Hi as [Hi|Hi]; auto. apply HK. apply (New i). auto. }
      split; [rewrite app_length; cbn; lia|]. split.
      * intros r Hr Hi. apply in_app_iff in Hi. destruct Hi as [Hi|Hi]; auto. apply (New _ Hi).
      * intros r Hr Hi. apply in_app_iff. auto.
Qed.

Lemma al_row_deletes : row_deletes alrow a_pk al_same al_delete al_del_exec al_ok al_gone al_pre.
Proof.
  split.
  - intros t [F St]. eapply al_keys; eauto.
  - reflexivity.
  - intros t l [F St]. eexists. apply al_left. eauto.
  - intros t l d r [F St] Hr G. assert (S' := al_left t F d St).
    assert (Hr' : In r (filter (fun r => negb (al_gone t d r)) t)) by (apply filter_In; rewrite G; auto).
    apply eq_true_iff_eq. rewrite (gone_dn _ _ l r S' Hr'), (gone_dn t F l r St Hr). split.
    + apply dn_in. intros a Ha. apply filter_In in Ha. tauto.
    + intros H. apply (dn_kept t F l d _ St H r); auto.
  - intros t l _. left. auto.
  - intros t l x _ [->|(n & s & K & -> & _)]; (split; [reflexivity|]); [|destruct n]; eexists; reflexivity.
  - intros t l x [F St] [->|(n & s & K & -> & H1 & H2 & H3 & H4 & H5 & H6)].
    + left. exists (mkTx (al_collect (length t) (map a_pk (filter (al_named l) t)) fin) [] [] None). split.
      * unfold solo, al_delete, goes. cbn [begin x_prog x_writes x_locks visible fold_left].
        change (fun r : alrow => existsb (Nat.eqb (a_pk r)) l) with (al_named l). destruct (length t); reflexivity.
      * right. exists (length t), (map a_pk (filter (al_named l) t)), (map a_pk t).
        split; [reflexivity|]. split; [apply incl_refl|]. split; [apply nodup_filter_keys; eapply al_keys; eauto|].
        split; [intros k Hk; apply in_map_iff in Hk; destruct Hk as (r & <- & Hr); apply in_map; apply filter_In in Hr; tauto|].
        split; [rewrite map_length; lia|]. split.
        -- intros r Hr H. apply in_map_iff in H. destruct H as (q & E & Hq). apply filter_In in Hq. destruct Hq as [Hq Hn].
           rewrite <- E. apply dn_sel; auto; apply named_iff; auto.
        -- intros r Hr H. apply in_map. apply filter_In. split; auto. apply named_iff. auto.
    + destruct (collect_go t F l n s K St H1 H2 H3 H4 H5 H6) as [(n' & s' & E & G)|(E & A)].
      * left. eexists. split; [exact E|]. right. exists n', s', K. split; auto.
      * right. left. eexists. split; [exact E|exact A].
  - intros t l d x [F St] [->|(n & s & K & -> & H1 & H2 & H3 & H4 & H5 & H6)]; [left; auto|right].
    exists n, s, K. split; auto.
    assert (Sub : forall r, In r (filter (fun r => negb (al_gone t d r)) t) -> In r t) by (intros r Hr; apply filter_In in Hr; tauto).
    split; [intros k Hk; apply in_map_iff in Hk; destruct Hk as (r & <- & Hr); apply H1, in_map, Sub, Hr|].
    split; auto. split; auto. split; auto. split; [|auto].
    intros r Hr Hs. apply (dn_kept t F l d _ St (H5 r (Sub r Hr) Hs) r); auto.
    apply filter_In in Hr. destruct Hr as [_ Hr]. apply negb_true_iff in Hr. auto.
Qed.

Theorem al_deletes t F (calls : list (list nat)) schedule : stores t F ->
  let W := play a_pk al_same (all_begin t (map al_delete calls)) schedule in
  one_by_one al_del_exec calls t (map fst (w_log W)) = (w_rows W, w_log W) /\ NoDup (map fst (w_log W)) /\
  Forall (fun e => snd e = None) (w_log W) /\
  stores (w_rows W) (fold_left (fun F l => remove_all (fun i => existsb (Nat.eqb i) l) F) (succeeded calls (w_log W)) F) /\
  (finished W = true -> Permutation (map fst (w_log W)) (seq 0 (length calls))) /\
  exists schedule', finished (play a_pk al_same W schedule') = true.
Proof.
  intros St W.
  destruct (rows_serial _ _ _ _ _ _ _ _ al_row_deletes calls t schedule (ex_intro _ F St)) as (H1 & H2 & H3 & H4). fold W in H1, H2, H3, H4.
  assert (D : forall t F l, stores t F -> exists t', al_del_exec t l = Ok t' /\ stores t' (remove_all (fun i => existsb (Nat.eqb i) l) F)).
  { intros t' F' l S'. eexists. split; [reflexivity|]. apply (al_left t' F' l S'). }
  destruct (one_by_one_deletes _ _ _ _ (fun l F => remove_all (fun i => existsb (Nat.eqb i) l) F) D calls (map fst (w_log W)) t F St) as [S1 S2].
  rewrite H1 in S1, S2. auto 8.
Qed.
End AL.

Section LT.
Import LTModel LTInv LTReads LTHist.
Variable cfg : lt_cfg.
Notation stores := (stores cfg).

Definition lt_named (l : list nat) (r : ltrow) : bool := existsb (Nat.eqb (l_pk r)) l.
Definition lt_gone (t : lt_table) (l : list nat) (r : ltrow) : bool :=
  existsb (fun y => lt_named l y && ppre (l_path y) (l_path r)) t.
Definition lt_del_exec (t : lt_table) (l : list nat) : res lt_table :=
  do db <- lt_exec cfg (mkLTDB t []) (CDelete l); Ok (lt_rows db).

Lemma lt_gone_iff t l r : lt_gone t l r = true <-> exists y, In y t /\ lt_named l y = true /\ exists z, l_path r = l_path y ++ z.
Proof.
  unfold lt_gone. rewrite existsb_exists. split.
  - intros (y & Hy & E). apply andb_true_iff in E. destruct E as [E1 E2]. apply ppre_iff in E2. eauto.
  - intros (y & Hy & E1 & E2). exists y. split; auto. rewrite E1. apply ppre_iff. auto.
Qed.

Lemma lt_deleted t F l r : stores t F -> In r t ->
  existsb (fun p => ppre p (l_path r)) (paths_to_remove (order_path (filter (lt_named l) t)) []) = lt_gone t l r.
Proof.
  intros (f & L & <- & I) Hr. destruct (lay_in cfg _ _ _ L Hr) as (x & Hx & ->).
  change (l_path (mkrow x)) with (fst x). rewrite (LTReads.deleted_spec cfg t f (lt_named l) L I x Hx). unfold PathDel.hit, lt_gone.
  apply eq_true_iff_eq. rewrite !existsb_exists. split.
  - intros (y & Hy & E). apply andb_true_iff in E. destruct E as [E1 E2]. exists (mkrow y).
    split; [eapply lay_in_rev; eauto|]. apply andb_true_iff. split; auto.
    apply existsb_exists in E1. destruct E1 as (z & Hz & E1). apply andb_true_iff in E1. destruct E1 as [E1 E3].
    apply Nat.eqb_eq in E1. rewrite (LTInv.pk_inj cfg t f z (mkrow y)) in E3; auto. eapply lay_in_rev; eauto.
  - intros (y & Hy & E). apply andb_true_iff in E. destruct E as [E1 E2].
    destruct (lay_in cfg _ _ _ L Hy) as (z & Hz & ->). exists z. split; auto. apply andb_true_iff. split; auto.
    apply existsb_exists. exists (mkrow z). split; auto. rewrite E1. cbn. rewrite Nat.eqb_refl. auto.
Qed.

Lemma lt_del_rows t F l : stores t F -> lt_del_exec t l = Ok (filter (fun r => negb (lt_gone t l r)) t).
Proof.
  intros St. unfold lt_del_exec. cbn [lt_exec bind]. f_equal. unfold delete_queryset. cbn [lt_rows].
  change (fun r : ltrow => existsb (Nat.eqb (l_pk r)) l) with (lt_named l).
  assert (E : filter (fun r => negb (existsb (fun p => ppre p (l_path r)) (paths_to_remove (order_path (filter (lt_named l) t)) []))) t =
    filter (fun r => negb (lt_gone t l r)) t) by (apply filter_ext_In; intros r Hr; rewrite (lt_deleted t F); auto).
  destruct (paths_to_remove _ []) as [|p ps]; auto. rewrite <- E. cbn [existsb negb lt_rows]. symmetry. apply filter_all. auto.
Qed.

Lemma lt_left t F l : stores t F ->
  stores (filter (fun r => negb (lt_gone t l r)) t) (remove_all (fun i => existsb (Nat.eqb i) l) F).
Proof.
  intros St. assert (E := lt_del_rows t F l St). unfold lt_del_exec in E. cbn [lt_exec bind] in E. injection E as <-.
  destruct (LTReads.delete_queryset_ok cfg (mkLTDB t []) F (lt_named l) St) as [S' _]. cbn [lt_rows] in S'.
  erewrite remove_all_ext; [exact S'|]. intros i Hi. cbn beta. unfold lt_named. apply eq_true_iff_eq. rewrite existsb_exists. split.
  - intros E. destruct St as (f & L & <- & I).
    apply (Permutation_in _ (Permutation_sym (lay_pks cfg _ _ L))) in Hi. apply in_map_iff in Hi. destruct Hi as (r & <- & Hr).
    apply existsb_exists. exists r. split; auto. rewrite Nat.eqb_refl. apply existsb_exists. auto.
  - intros E. apply existsb_exists in E. destruct E as (r & _ & E). apply andb_true_iff in E. destruct E as [E1 E2].
    apply Nat.eqb_eq in E1. subst. apply existsb_exists in E2. auto.
Qed.

Definition lt_ok (t : lt_table) : Prop := exists F, stores t F.
Definition lt_pre (t : lt_table) (l : list nat) (x : tx ltrow) : Prop := x = begin (lt_delete l).

Lemma lt_keys t F : stores t F -> NoDup (map l_pk t).
Proof. intros (f & L & <- & I). apply (Permutation_NoDup (Permutation_sym (lay_pks cfg _ _ L))). apply I. Qed.

Lemma lt_row_deletes : row_deletes ltrow l_pk lt_same lt_delete lt_del_exec lt_ok lt_gone lt_pre.
Proof.
  unfold lt_pre. split.
  - intros t [F St]. eapply lt_keys; eauto.
  - intros t l [F St]. eapply lt_del_rows; eauto.
  - intros t l [F St]. eexists. apply lt_left. eauto.
  - intros t l d r _ Hr G. apply eq_true_iff_eq. rewrite !lt_gone_iff. split.
    + intros (y & Hy & E). apply filter_In in Hy. exists y. tauto.
    + intros (y & Hy & E1 & z & E2). exists y. split; [|eauto]. apply filter_In. split; auto.
      apply negb_true_iff, not_true_iff_false. rewrite lt_gone_iff. intros (u & Hu & Eu & v & Ev).
      apply not_true_iff_false in G. apply G. apply lt_gone_iff. exists u. split; auto. split; auto. exists (v ++ z). rewrite app_assoc, <- Ev. auto.
  - intros t l _. reflexivity.
  - intros t l x _ ->. split; [reflexivity|]. eexists. reflexivity.
  - intros t l x [F St] ->. right. cbn. change (fun r : ltrow => existsb (Nat.eqb (l_pk r)) l) with (lt_named l).
    assert (A : agrees ltrow lt_gone t l (fun r => existsb (fun p => ppre p (l_path r)) (paths_to_remove (order_path (filter (lt_named l) t)) [])))
      by (intros r Hr; eapply lt_deleted; eauto).
    destruct (paths_to_remove _ []) as [|p ps]; [right; auto|left].
    eexists. split; [reflexivity|exact A].
  - intros t l d x _ ->. reflexivity.
Qed.

Theorem lt_deletes t F (calls : list (list nat)) schedule : stores t F ->
  let W := play l_pk lt_same (all_begin t (map lt_delete calls)) schedule in
  one_by_one lt_del_exec calls t (map fst (w_log W)) = (w_rows W, w_log W) /\ NoDup (map fst (w_log W)) /\
  Forall (fun e => snd e = None) (w_log W) /\
  stores (w_rows W) (fold_left (fun F l => remove_all (fun i => existsb (Nat.eqb i) l) F) (succeeded calls (w_log W)) F) /\
  (finished W = true -> Permutation (map fst (w_log W)) (seq 0 (length calls))) /\
  exists schedule', finished (play l_pk lt_same W schedule') = true.
Proof.
  intros St W.
  destruct (rows_serial _ _ _ _ _ _ _ _ lt_row_deletes calls t schedule (ex_intro _ F St)) as (H1 & H2 & H3 & H4). fold W in H1, H2, H3, H4.
  assert (D : forall t F l, stores t F -> exists t', lt_del_exec t l = Ok t' /\ stores t' (remove_all (fun i => existsb (Nat.eqb i) l) F)).
  { intros t' F' l S'. eexists. split; [eapply lt_del_rows; eauto|]. apply (lt_left t' F' l S'). }
  destruct (one_by_one_deletes _ _ _ _ (fun l F => remove_all (fun i => existsb (Nat.eqb i) l) F) D calls (map fst (w_log W)) t F St) as [S1 S2].
  rewrite H1 in S1, S2. auto 8.
Qed.
End LT.
