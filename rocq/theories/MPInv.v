(** How a materialized path table stores a forest, and what the basic queries
    return on such a table. *)
From Coq Require Import List Arith Lia Bool Permutation Sorted.
From Verif Require Import Prelude Forest NumConv SpecFacts PathTab PathMove CommonModel MPModel MPStep.
Import ListNotations.

Notation payload := (node * nat)%type.
Notation kf := (forest (path * payload)).

(** ** Layout *)
Section Layout.
Variable cfg : mp_cfg.
Notation w := (steplen cfg).

(** The row of a node [(n, numchild)] at path [p]. *)
Definition mkrow (r : path * payload) : mprow :=
  mkMP (nid (fst (snd r))) (fst r) (length (fst r) / w) (snd (snd r)) (ndata (fst (snd r))).

(** Every step is valid: right width, characters of the alphabet, not zero. *)
Definition kvalid (f : kf) : Prop := Forall (fun x => vseg cfg (fst x)) (preorder f).

(** The stored numchild of every node is its number of children. *)
Fixpoint nc_ok (f : kf) : Prop :=
  match f with
  | Nil => True
  | Cons x k r => snd (snd x) = length (roots k) /\ nc_ok k /\ nc_ok r
  end.

Definition kpwf (f : kf) : Prop := pwf Nat.ltb w f.
Definition kerase (f : kf) : forest node := erase fst f.

Definition lay (t : mp_table) (f : kf) : Prop :=
  kpwf f /\ kvalid f /\ Permutation t (map mkrow (rows f)).

(** The table [t] stores the forest [F]: there are steps for the nodes, strictly
    increasing in every sibling list, such that the rows of [t] are the nodes of
    [F] with path = the steps from the root, depth = the number of steps,
    numchild = the number of children; primary keys are unique. *)
Definition stores (t : mp_table) (F : forest node) : Prop :=
  exists f, lay t f /\ nc_ok f /\ kerase f = F /\ wf_ids F.

End Layout.

Definition irr := Nat.ltb_irrefl.

Section Inv.
Variable cfg : mp_cfg.
Hypothesis radix2 : 2 <= radix cfg.
Hypothesis step1 : 1 <= steplen cfg.
Notation R := (radix cfg).
Notation w := (steplen cfg).
Notation mkrow := (mkrow cfg).
Notation kpwf := (kpwf cfg).
Notation kvalid := (kvalid cfg).
Notation lay := (lay cfg).

(** *** PathTab at this instance *)
Lemma k_len f r : kpwf f -> In r (rows f) -> exists n, length (fst r) = S n * w.
Proof. apply (rows_len Nat.ltb). auto. Qed.
Lemma k_sorted f : kpwf f -> psorted Nat.ltb (rows f).
Proof. apply rows_sorted; auto using irr. Qed.
Lemma k_NoDup f : kpwf f -> NoDup (map fst (rows f)).
Proof. eapply rows_NoDup; eauto using irr. Qed.
Lemma k_inj f p (a b : payload) : kpwf f -> In (p, a) (rows f) -> In (p, b) (rows f) -> a = b.
Proof. eapply rows_inj; eauto using irr. Qed.
Lemma k_At_pwf_l q pa l l' f f' : At q pa l l' f f' -> kpwf f -> kpwf l.
Proof. apply At_pwf_l. Qed.
Lemma k_At_pwf q pa l l' f f' : At q pa l l' f f' -> kpwf f -> kpwf l' -> kpwf f'.
Proof. apply At_pwf. Qed.
Lemma k_At_len q pa l l' f f' : At q pa l l' f f' -> kpwf f -> exists n, length q = n * w.
Proof. eapply At_len; eauto. Qed.
Lemma k_At_nonempty q aa l l' f f' : At q (Some aa) l l' f f' -> kpwf f -> q <> [].
Proof. eapply At_nonempty; eauto. Qed.
Lemma k_children q pa l l' f f' : At q pa l l' f f' -> kpwf f ->
  filter (fun r => ppre q (fst r) && (length (fst r) =? length q + w)) (rows f) = map (pre q) (roots l).
Proof. apply At_filter_children; eauto using irr, ltb_tr', ltb_tot'. Qed.
Lemma k_prefix q pa l l' f f' : At q pa l l' f f' -> kpwf f ->
  filter (fun r => ppre q (fst r)) (rows f) = prow q (pold pa) ++ map (pre q) (rows l).
Proof. apply At_filter_prefix; eauto using irr, ltb_tr', ltb_tot'. Qed.
Lemma k_At_in q a a' (l l' f f' : kf) : At q (Some (a, a')) l l' f f' -> In (q, a) (rows f).
Proof. eapply At_in; eauto using irr, ltb_tr', ltb_tot'. Qed.
Lemma k_root_in q pa s a (l l' f f' : kf) : At q pa l l' f f' -> In (s, a) (roots l) ->
  In (q ++ s, a) (rows f).
Proof. eapply At_root_in; eauto using irr, ltb_tr', ltb_tot'. Qed.

(** *** Validity of the steps *)
Lemma kvalid_cons x k r : kvalid (Cons x k r) <-> vseg cfg (fst x) /\ kvalid k /\ kvalid r.
Proof.
  unfold kvalid, MPInv.kvalid. simpl. rewrite Forall_cons_iff, Forall_app. tauto.
Qed.

Lemma kvalid_fapp f g : kvalid (fapp f g) <-> kvalid f /\ kvalid g.
Proof. unfold kvalid, MPInv.kvalid. rewrite preorder_fapp, Forall_app. tauto. Qed.

Lemma kvalid_roots f x : kvalid f -> In x (roots f) -> vseg cfg (fst x).
Proof.
  intros V H. unfold MPInv.kvalid in V. rewrite Forall_forall in V. apply V.
  apply roots_preorder; auto.
Qed.

Lemma kvalid_At q pa (l l' f f' : kf) : At q pa l l' f f' -> kvalid f -> kvalid l' -> kvalid f'.
Proof.
  induction 1; intros V V'; rewrite ?kvalid_cons in *; tauto.
Qed.

Lemma kvalid_At_l q pa (l l' f f' : kf) : At q pa l l' f f' -> kvalid f -> kvalid l.
Proof. induction 1; intros V; rewrite ?kvalid_cons in *; tauto. Qed.

Lemma kvalid_digits f r : kvalid f -> In r (rows f) -> Forall (fun d => d < R) (fst r).
Proof.
  revert r. induction f as [|x k IHk rr IHr]; intros r V H; [inversion H|].
  apply kvalid_cons in V. destruct V as (V1 & V2 & V3). simpl in H. destruct H as [<-|H].
  - apply V1.
  - apply in_app_iff in H. destruct H as [H|H]; auto.
    apply in_map_iff in H. destruct H as [y [<- Hy]]. simpl. apply Forall_app. split; auto.
    apply V1.
Qed.

(** *** numchild *)
Lemma nc_fapp f g : nc_ok (fapp f g) <-> nc_ok f /\ nc_ok g.
Proof. induction f; simpl; tauto. Qed.

Lemma nc_At_l q pa (l l' f f' : kf) : At q pa l l' f f' -> nc_ok f -> nc_ok l.
Proof. induction 1; simpl; tauto. Qed.

Lemma nc_At_par q a a' (l l' f f' : kf) : At q (Some (a, a')) l l' f f' -> nc_ok f ->
  snd a = length (roots l).
Proof.
  remember (Some (a, a')) as pa. induction 1; simpl; intros N; try discriminate.
  - injection Heqpa as -> ->. tauto.
  - apply IHAt; tauto.
  - apply IHAt; tauto.
Qed.

Lemma At_roots_same q aa (l l' f f' : kf) : At q (Some aa) l l' f f' ->
  length (roots f') = length (roots f).
Proof.
  intros H. assert (E := f_equal (@length _) (At_roots_fst H)). rewrite !map_length in E. auto.
Qed.

Lemma nc_At q pa (l l' f f' : kf) : At q pa l l' f f' -> nc_ok f -> nc_ok l' ->
  (forall a a', pa = Some (a, a') -> snd a' = length (roots l')) -> nc_ok f'.
Proof.
  induction 1; simpl; intros N N' E; auto.
  - repeat split; try tauto. apply (E a a'); auto.
  - repeat split; try tauto. rewrite (At_roots_same _ _ _ _ _ _ H). tauto.
  - repeat split; try tauto.
Qed.

(** ** Tables *)

Lemma lay_in t f r : lay t f -> In r t -> exists x, In x (rows f) /\ r = mkrow x.
Proof.
  intros (_ & _ & P) H. apply (Permutation_in _ P) in H. apply in_map_iff in H.
  destruct H as [x [<- H]]. eauto.
Qed.

Lemma lay_in_rev t f x : lay t f -> In x (rows f) -> In (mkrow x) t.
Proof.
  intros (_ & _ & P) H. apply (Permutation_in _ (Permutation_sym P)). apply in_map; auto.
Qed.

Lemma depth_spec f x : kpwf f -> In x (rows f) ->
  length (fst x) = m_depth (mkrow x) * w /\ 1 <= m_depth (mkrow x).
Proof.
  intros W H. destruct (k_len _ _ W H) as [n E].
  change (m_depth (mkrow x)) with (length (fst x) / w). rewrite E, Nat.div_mul by lia. lia.
Qed.

Lemma depth_len f x y : kpwf f -> In x (rows f) -> In y (rows f) ->
  (m_depth (mkrow x) =? m_depth (mkrow y)) = (length (fst x) =? length (fst y)).
Proof.
  intros W Hx Hy. destruct (depth_spec _ _ W Hx) as [E1 _]. destruct (depth_spec _ _ W Hy) as [E2 _].
  rewrite E1, E2.
  destruct (Nat.eqb_spec (m_depth (mkrow x)) (m_depth (mkrow y))) as [E|N].
  - rewrite E. symmetry. apply Nat.eqb_refl.
  - symmetry. apply Nat.eqb_neq. nia.
Qed.

Lemma mk_sorted l : psorted Nat.ltb l -> ssorted m_path (fun a b => plt a b = true) (map mkrow l).
Proof.
  unfold psorted, ssorted. induction 1; simpl; constructor; auto.
  apply Forall_forall. intros y Hy. apply in_map_iff in Hy. destruct Hy as [z [<- Hz]].
  rewrite Forall_forall in H0. simpl. apply H0; auto.
Qed.

(** ORDER BY path of a filter: the rows of the forest in depth-first order. *)
Lemma query P t f : lay t f ->
  order_path (filter P t) = map mkrow (filter (fun r => P (mkrow r)) (rows f)).
Proof.
  intros (W & _ & Pm). unfold order_path.
  apply isort_unique with (lt := fun a b => plt a b = true).
  - tauto.
  - intros x. unfold plt. rewrite llt_irr; auto using irr.
  - intros x y z. apply llt_trans; eauto using irr, ltb_tr', ltb_tot'.
  - apply mk_sorted. apply ssorted_filter. apply k_sorted; auto.
  - rewrite (Permutation_filter P Pm), filter_map. reflexivity.
Qed.

Lemma mkrow_eq_len q x : mkrow (pre q x) = mkrow (q ++ fst x, snd x).
Proof. reflexivity. Qed.

Definition sibrows (q : path) (l : kf) : list mprow := map (fun r => mkrow (pre q r)) (roots l).

Lemma sibrows_map q l : map mkrow (map (pre q) (roots l)) = sibrows q l.
Proof. unfold sibrows. rewrite map_map. auto. Qed.

Lemma root_row_len q pa s a l l' f f' : At q pa l l' f f' -> kpwf f -> In (s, a) (roots l) ->
  length (q ++ s) = length q + w.
Proof.
  intros H W Hs. rewrite app_length. f_equal.
  change s with (fst (s, a)). apply roots_len with Nat.ltb l; auto. eapply k_At_pwf_l; eauto.
Qed.

Lemma get_siblings_lay t f q pa l l' f' s a :
  lay t f -> At q pa l l' f f' -> In (s, a) (roots l) ->
  get_siblings cfg t (mkrow (q ++ s, a)) = sibrows q l.
Proof.
  intros L H Hs. assert (L' := L). destruct L as (W & V & P).
  assert (Hx := k_root_in _ _ _ _ _ _ _ _ H Hs).
  unfold get_siblings. rewrite query with (f := f) by auto.
  rewrite <- sibrows_map. rewrite <- (k_children _ _ _ _ _ _ H W). f_equal.
  apply filter_ext_In. intros x Hin.
  rewrite (depth_len f) by auto. simpl fst.
  rewrite (root_row_len _ _ _ _ _ _ _ _ H W Hs).
  destruct (k_At_len _ _ _ _ _ _ H W) as [n En].
  assert (Ed : m_depth (mkrow (q ++ s, a)) = S n).
  { destruct (depth_spec _ _ W Hx) as [E _]. simpl fst in E.
    rewrite (root_row_len _ _ _ _ _ _ _ _ H W Hs), En in E. nia. }
  rewrite Ed. rewrite Nat.sub_succ, Nat.sub_0_r.
  destruct (Nat.eqb_spec (length (fst x)) (length q + w)) as [E|E].
  - rewrite andb_true_r. cbn [andb].
    change (m_path (mkrow (q ++ s, a))) with (q ++ s).
    rewrite get_basepath_app by auto.
    destruct (Nat.ltb_spec 1 (S n)).
    + apply in_range_prefix; auto. eapply kvalid_digits; eauto.
    + destruct q; [reflexivity|]. simpl in En. assert (n = 0) by lia. subst. simpl in En. lia.
  - rewrite andb_false_r. auto.
Qed.

Lemma get_root_nodes_lay t f : lay t f -> get_root_nodes t = sibrows [] f.
Proof.
  intros L. assert (L' := L). destruct L as (W & V & P).
  unfold get_root_nodes. rewrite query with (f := f) by auto.
  rewrite <- sibrows_map. rewrite <- (k_children _ _ _ _ _ _ (At_top f f) W). f_equal.
  apply filter_ext_In. intros x Hin.
  change (m_depth (mkrow x)) with (length (fst x) / w). cbn [ppre prefixb strip andb].
  destruct (k_len _ _ W Hin) as [n En]. rewrite En, Nat.div_mul by lia. simpl length.
  destruct (Nat.eqb_spec (S n) 1); destruct (Nat.eqb_spec (S n * w) (0 + w)); auto; nia.
Qed.

Lemma get_children_lay t f p a a' l l' f' :
  lay t f -> nc_ok f -> At p (Some (a, a')) l l' f f' ->
  get_children cfg t (mkrow (p, a)) = sibrows p l.
Proof.
  intros L N H. assert (L' := L). destruct L as (W & V & P).
  assert (Hx := k_At_in _ _ _ _ _ _ _ H).
  assert (Nl := nc_At_par _ _ _ _ _ _ _ H N).
  unfold get_children, is_leaf. simpl m_nc. rewrite Nl.
  destruct (roots l) as [|r0 rs] eqn:Er; [unfold sibrows; rewrite Er; reflexivity|].
  cbn [length Nat.eqb].
  rewrite query with (f := f) by auto.
  rewrite <- sibrows_map. rewrite <- (k_children _ _ _ _ _ _ H W). f_equal.
  apply filter_ext_In. intros x Hin.
  destruct (depth_spec _ _ W Hx) as [E1 _]. destruct (depth_spec _ _ W Hin) as [E2 _].
  change (m_path (mkrow (p, a))) with p. change (m_path (mkrow x)) with (fst x).
  simpl fst in E1.
  destruct (Nat.eqb_spec (length (fst x)) (length p + w)) as [E|E].
  - rewrite andb_true_r. rewrite (in_range_prefix cfg radix2); auto.
    + replace (m_depth (mkrow x) =? m_depth (mkrow (p, a)) + 1) with true; auto.
      symmetry. apply Nat.eqb_eq. nia.
    + eapply kvalid_digits; eauto.
  - rewrite andb_false_r. apply andb_false_iff. left. apply Nat.eqb_neq. nia.
Qed.

(** *** Looking rows up *)
Lemma lay_pks t f : lay t f -> Permutation (map m_pk t) (ids (kerase f)).
Proof.
  intros (_ & _ & P). unfold kerase. rewrite erase_ids.
  rewrite (Permutation_map m_pk P), map_map. reflexivity.
Qed.

Lemma get_by_pk_lay t f r : lay t f -> wf_ids (kerase f) -> In r t ->
  get_by_pk t (m_pk r) = Ok r.
Proof.
  intros L W H. unfold get_by_pk.
  assert (ND : NoDup (map m_pk t)) by (rewrite (lay_pks _ _ L); auto).
  destruct (filter (fun r0 => m_pk r0 =? m_pk r) t) as [|r0 l] eqn:E.
  - exfalso. assert (Hin : In r (filter (fun r0 => m_pk r0 =? m_pk r) t)).
    { apply filter_In. rewrite Nat.eqb_refl. auto. }
    rewrite E in Hin. inversion Hin.
  - assert (Hin : In r0 (filter (fun r0 => m_pk r0 =? m_pk r) t)) by (rewrite E; simpl; auto).
    apply filter_In in Hin. destruct Hin as [Hin Ek]. apply Nat.eqb_eq in Ek.
    f_equal. eapply NoDup_map_inj; eauto.
Qed.

Lemma pk_inj t f r r' : lay t f -> wf_ids (kerase f) -> In r t -> In r' t -> m_pk r = m_pk r' -> r = r'.
Proof.
  intros L W H H' E. eapply NoDup_map_inj; eauto. rewrite (lay_pks _ _ L). auto.
Qed.

Lemma get_by_path_lay t f x : lay t f -> In x (rows f) -> get_by_path t (fst x) = Ok (mkrow x).
Proof.
  intros L H. unfold get_by_path. assert (L' := L). destruct L as (W & V & P).
  assert (Ef : filter (fun r => peq (fst r) (fst x)) (rows f) = [x]).
  { assert (ND := k_NoDup _ W). revert H ND. clear. generalize (rows f) as l.
    induction l as [|y l IH]; simpl; [tauto|]. intros H ND. inversion ND; subst.
    destruct H as [->|H].
    - rewrite peq_refl. f_equal. apply filter_none. intros z Hz. apply peq_false.
      intros E. apply H2. rewrite <- E. apply in_map; auto.
    - rewrite IH by auto. destruct (peq (fst y) (fst x)) eqn:E; auto.
      apply peq_iff in E. exfalso. apply H2. rewrite E. apply in_map; auto. }
  assert (Pf := Permutation_filter (fun r => peq (m_path r) (fst x)) P).
  rewrite filter_map in Pf. simpl in Pf. rewrite Ef in Pf. simpl in Pf.
  apply Permutation_sym, Permutation_length_1_inv in Pf. rewrite Pf. auto.
Qed.

Lemma get_by_path_none t f p : lay t f -> ~ In p (map fst (rows f)) -> get_by_path t p = Err DoesNotExist.
Proof.
  intros (_ & _ & P) H. unfold get_by_path.
  rewrite filter_none; auto. intros r Hr. apply peq_false. intros <-.
  apply (Permutation_in _ P) in Hr. apply in_map_iff in Hr. destruct Hr as [x [<- Hx]].
  apply H. apply (in_map fst _ _ Hx).
Qed.

End Inv.
