(** How an ltree table stores a forest, and what the basic queries return on such a table. *)
From Coq Require Import List Arith Lia Bool Permutation Sorted.
From Verif Require Import Prelude Forest SpecFacts PathTab PathMove CommonModel LTModel LTLabel.
Import ListNotations.

Notation kf := (forest (lpath * node)).

Definition idn (n : node) : node := n.
Definition kerase (f : kf) : forest node := erase idn f.
Definition kpwf (f : kf) : Prop := pwf lblt 1 f.
Definition nodes (l : kf) : list node := map snd (roots l).
Definition labels (l : kf) : list label := map (fun x => last_label (fst x)) (roots l).

(** The row of a node at a path. *)
Definition mkrow (r : lpath * node) : ltrow := mkLT (nid (snd r)) (fst r) (ndata (snd r)).

(** A label that the generator may give and that the database accepts. *)
Definition valid_label (cfg : lt_cfg) (l : label) : Prop := l <> [] /\ alpha l /\ length l <= label_max cfg.

Definition kvalid (cfg : lt_cfg) (f : kf) : Prop := Forall (fun x => Forall (valid_label cfg) (fst x)) (preorder f).

Definition lay (cfg : lt_cfg) (t : lt_table) (f : kf) : Prop :=
  kpwf f /\ kvalid cfg f /\ Permutation t (map mkrow (rows f)).

(** The table [t] stores the forest [F]: there are valid labels for the nodes, strictly
    increasing in every sibling list, such that the rows of [t] are the nodes of [F] with
    the labels from the root as path; primary keys are unique. *)
Definition stores (cfg : lt_cfg) (t : lt_table) (F : forest node) : Prop :=
  exists f, lay cfg t f /\ kerase f = F /\ wf_ids F.

(** *** PathTab at this instance *)
Lemma w1 : 0 < 1. Proof. lia. Qed.
#[global] Hint Resolve lblt_irr lblt_tr lblt_tot w1 : lt.

Lemma plt_irr p : plt p p = false. Proof. apply llt_irr. auto with lt. Qed.
Lemma plt_tr a b c : plt a b = true -> plt b c = true -> plt a c = true.
Proof. apply llt_trans; eauto with lt. Qed.
Lemma plt_asym a b : plt a b = true -> plt b a = false.
Proof. apply llt_asym; eauto with lt. Qed.
Lemma plt_pre p a b : plt (p ++ a) (p ++ b) = plt a b.
Proof. apply llt_pre; auto with lt. Qed.
Lemma plt_one a b : plt [a] [b] = lblt a b.
Proof. unfold plt. cbn. rewrite andb_false_r, orb_false_r. auto. Qed.
Lemma peq_iff a b : peq a b = true <-> a = b.
Proof. apply leq_iff; eauto with lt. Qed.
Lemma peq_refl a : peq a a = true. Proof. apply peq_iff; auto. Qed.
Lemma peq_false a b : peq a b = false <-> a <> b.
Proof. rewrite <- peq_iff. destruct (peq a b); split; intros; auto; congruence. Qed.
Lemma ppre_iff p l : ppre p l = true <-> exists x, l = p ++ x.
Proof. apply prefixb_iff; eauto with lt. Qed.
Lemma ppre_app p x : ppre p (p ++ x) = true. Proof. apply ppre_iff; eauto. Qed.
Lemma ppre_false p l : ppre p l = false <-> forall x, l <> p ++ x.
Proof. apply prefixb_false; eauto with lt. Qed.

Lemma k_len f r : kpwf f -> In r (rows f) -> 1 <= length (fst r).
Proof. intros W H. destruct (@rows_len _ lblt 1 _ w1 _ _ W H) as [n E]. lia. Qed.
Lemma k_sorted f : kpwf f -> psorted lblt (rows f).
Proof. apply rows_sorted; eauto with lt. Qed.
Lemma k_NoDup f : kpwf f -> NoDup (map fst (rows f)).
Proof. eapply rows_NoDup; eauto with lt. Qed.
Lemma k_inj f p (a b : node) : kpwf f -> In (p, a) (rows f) -> In (p, b) (rows f) -> a = b.
Proof. eapply rows_inj; eauto with lt. Qed.
Lemma k_At_pwf_l q pa l l' f f' : At q pa l l' f f' -> kpwf f -> kpwf l.
Proof. apply At_pwf_l. Qed.
Lemma k_At_pwf q pa l l' f f' : At q pa l l' f f' -> kpwf f -> kpwf l' -> kpwf f'.
Proof. apply At_pwf. Qed.
Lemma k_At_nonempty q aa l l' f f' : At q (Some aa) l l' f f' -> kpwf f -> q <> [].
Proof. eapply At_nonempty; eauto with lt. Qed.
Lemma k_children q pa l l' f f' : At q pa l l' f f' -> kpwf f ->
  filter (fun r => ppre q (fst r) && (length (fst r) =? length q + 1)) (rows f) = map (pre q) (roots l).
Proof. apply At_filter_children; eauto with lt. Qed.
Lemma k_prefix q pa l l' f f' : At q pa l l' f f' -> kpwf f ->
  filter (fun r => ppre q (fst r)) (rows f) = prow q (pold pa) ++ map (pre q) (rows l).
Proof. apply At_filter_prefix; eauto with lt. Qed.
Lemma k_At_in q a a' (l l' f f' : kf) : At q (Some (a, a')) l l' f f' -> In (q, a) (rows f).
Proof. eapply At_in; eauto with lt. Qed.
Lemma k_root_in q pa s a (l l' f f' : kf) : At q pa l l' f f' -> In (s, a) (roots l) -> In (q ++ s, a) (rows f).
Proof. eapply At_root_in; eauto with lt. Qed.
Lemma k_At_rows q pa (l l' f f' : kf) : At q pa l l' f f' ->
  exists R,
    Permutation (rows f) (prow q (pold pa) ++ R ++ map (pre q) (rows l)) /\
    Permutation (rows f') (prow q (pnew pa) ++ R ++ map (pre q) (rows l')) /\
    (kpwf f -> pa = None -> R = []) /\
    (kpwf f -> pa <> None -> forall r, In r R -> ppre q (fst r) = false).
Proof. apply At_rows; eauto with lt. Qed.

(** Segments are single labels. *)
Lemma seg_one f x : kpwf f -> In x (roots f) -> exists s, fst x = [s].
Proof.
  intros W H. assert (E := roots_len lblt 1 _ _ W H). destruct (fst x) as [|s [|]]; try discriminate. eauto.
Qed.

Lemma parent_snoc (q : lpath) s : parent_path (q ++ [s]) = q.
Proof. apply removelast_last. Qed.
Lemma last_snoc (q : lpath) s : last_label (q ++ [s]) = s.
Proof. apply last_last. Qed.

Lemma pid (pa : option (node * node)) : pold pa = pnew pa -> forall a a', pa = Some (a, a') -> idn a = idn a'.
Proof. intros E a a' ->. cbn in E. unfold idn. congruence. Qed.

Definition up_of (pa : option (node * node)) : option nat := option_map (fun z => nid (fst z)) pa.

Lemma kerase_fapp (l1 l2 : kf) : kerase (fapp l1 l2) = fapp (kerase l1) (kerase l2).
Proof. apply erase_fapp. Qed.
Lemma kerase_roots (l : kf) : roots (kerase l) = nodes l.
Proof. apply erase_roots. Qed.
Lemma kerase_ids (f : kf) : ids (kerase f) = map (fun r => nid (snd r)) (rows f).
Proof. apply erase_ids. Qed.
Lemma nodes_fapp l1 l2 : nodes (fapp l1 l2) = nodes l1 ++ nodes l2.
Proof. unfold nodes. rewrite roots_fapp, map_app. auto. Qed.
Lemma labels_fapp l1 l2 : labels (fapp l1 l2) = labels l1 ++ labels l2.
Proof. unfold labels. rewrite roots_fapp, map_app. auto. Qed.

Lemma At_Ctx' q pa (l l' f f' : kf) : At q pa l l' f f' -> pold pa = pnew pa ->
  Ctx (up_of pa) (kerase l) (kerase l') (kerase f) (kerase f').
Proof. intros H E. exact (At_Ctx idn H (pid _ E)). Qed.

Lemma nodes_split (l : kf) L1 L2 : nodes l = L1 ++ L2 ->
  exists l1 l2, l = fapp l1 l2 /\ nodes l1 = L1 /\ nodes l2 = L2.
Proof.
  intros E. apply map_app_split in E. destruct E as (R1 & R2 & E & E1 & E2).
  apply roots_app_split in E. destruct E as (l1 & l2 & -> & F1 & F2).
  exists l1, l2. unfold nodes. rewrite F1, F2. auto.
Qed.

(** Ids of siblings are different. *)
Lemma roots_wf (g : forest node) : wf_ids g -> NoDup (map nid (roots g)).
Proof.
  induction g as [|a k IHk r IHr]; simpl; intros Wl; [constructor|].
  apply wf_cons_inv in Wl. constructor; [|tauto]. intros Hi. apply Wl.
  apply in_map_iff in Hi. destruct Hi as (x & <- & Hx). unfold ids. apply in_map.
  apply roots_preorder; auto.
Qed.

Lemma nodes_NoDup q pa (l l' f f' : kf) : At q pa l l' f f' -> pold pa = pnew pa ->
  wf_ids (kerase f) -> NoDup (map nid (nodes l)).
Proof.
  intros H E W. assert (C := At_Ctx' _ _ _ _ _ _ H E). rewrite <- kerase_roots. apply roots_wf. exact (Ctx_wf_l C W).
Qed.

Lemma rows_id_inj f p a p' a' : wf_ids (kerase f) -> In (p, a) (rows f) -> In (p', a') (rows f) -> nid a = nid a' ->
  (p, a) = (p', a').
Proof.
  intros W H H' E. unfold wf_ids in W. rewrite kerase_ids in W. eapply NoDup_map_inj; eauto.
Qed.

Section Inv.
Variable cfg : lt_cfg.
Notation lay := (lay cfg).
Notation kvalid := (kvalid cfg).

(** *** Validity of the labels *)
Lemma kvalid_cons x k r : kvalid (Cons x k r) <-> Forall (valid_label cfg) (fst x) /\ kvalid k /\ kvalid r.
Proof. unfold kvalid, LTInv.kvalid. simpl. rewrite Forall_cons_iff, Forall_app. tauto. Qed.
Lemma kvalid_fapp f g : kvalid (fapp f g) <-> kvalid f /\ kvalid g.
Proof. unfold kvalid, LTInv.kvalid. rewrite preorder_fapp, Forall_app. tauto. Qed.
Lemma kvalid_roots f x : kvalid f -> In x (roots f) -> Forall (valid_label cfg) (fst x).
Proof. intros V H. unfold LTInv.kvalid in V. rewrite Forall_forall in V. apply V. apply roots_preorder; auto. Qed.
Lemma kvalid_At q pa (l l' f f' : kf) : At q pa l l' f f' -> kvalid f -> kvalid l' -> kvalid f'.
Proof. induction 1; intros V V'; rewrite ?kvalid_cons in *; cbn [fst] in *; tauto. Qed.
Lemma kvalid_At_l q pa (l l' f f' : kf) : At q pa l l' f f' -> kvalid f -> kvalid l.
Proof. induction 1; intros V; rewrite ?kvalid_cons in *; tauto. Qed.

Lemma kvalid_path f r : kvalid f -> In r (rows f) -> Forall (valid_label cfg) (fst r).
Proof.
  revert r. induction f as [|x k IHk rr IHr]; intros r V H; [inversion H|].
  apply kvalid_cons in V. destruct V as (V1 & V2 & V3). simpl in H. destruct H as [<-|H]; auto.
  apply in_app_iff in H. destruct H as [H|H]; auto.
  apply in_map_iff in H. destruct H as [y [<- Hy]]. simpl. apply Forall_app. split; auto.
Qed.

Lemma label_valid f s : kpwf f -> kvalid f -> In s (labels f) -> valid_label cfg s.
Proof.
  intros W V H. apply in_map_iff in H. destruct H as (x & <- & Hx). destruct (seg_one _ _ W Hx) as (s & E).
  assert (Vx := kvalid_roots _ _ V Hx). rewrite E in *. inversion Vx; auto.
Qed.

(** *** Tables *)
Lemma lay_in t f r : lay t f -> In r t -> exists x, In x (rows f) /\ r = mkrow x.
Proof.
  intros (_ & _ & P) H. apply (Permutation_in _ P) in H. apply in_map_iff in H. destruct H as [x [<- H]]. eauto.
Qed.
Lemma lay_in_rev t f x : lay t f -> In x (rows f) -> In (mkrow x) t.
Proof. intros (_ & _ & P) H. apply (Permutation_in _ (Permutation_sym P)). apply in_map; auto. Qed.

Lemma mk_sorted l : psorted lblt l -> ssorted l_path (fun a b => plt a b = true) (map mkrow l).
Proof.
  unfold psorted, ssorted. induction 1; simpl; constructor; auto.
  apply Forall_forall. intros y Hy. apply in_map_iff in Hy. destruct Hy as [z [<- Hz]].
  rewrite Forall_forall in H0. simpl. apply H0; auto.
Qed.

(** ORDER BY path of a filter: the rows of the forest in depth-first order. *)
Lemma query P t f : lay t f -> order_path (filter P t) = map mkrow (filter (fun r => P (mkrow r)) (rows f)).
Proof.
  intros (W & _ & Pm). unfold order_path.
  apply isort_unique with (lt := fun a b => plt a b = true).
  - tauto.
  - intros x. rewrite plt_irr. auto.
  - intros x y z. apply plt_tr.
  - apply mk_sorted. apply ssorted_filter. apply k_sorted; auto.
  - rewrite (Permutation_filter P Pm), filter_map. reflexivity.
Qed.

Definition sibrows (q : lpath) (l : kf) : list ltrow := map (fun r => mkrow (pre q r)) (roots l).

Lemma sibrows_map q l : map mkrow (map (pre q) (roots l)) = sibrows q l.
Proof. unfold sibrows. rewrite map_map. auto. Qed.
Lemma sibrows_fapp q l1 l2 : sibrows q (fapp l1 l2) = sibrows q l1 ++ sibrows q l2.
Proof. unfold sibrows. rewrite roots_fapp, map_app. auto. Qed.

(** Rows one label below [q]. *)
Lemma kids_lay t f q pa l l' f' : lay t f -> At q pa l l' f f' ->
  order_path (filter (fun r => ppre q (l_path r) && (length (l_path r) =? length q + 1)) t) = sibrows q l.
Proof.
  intros L H. rewrite query with (f := f) by auto. cbn [l_path mkrow].
  rewrite (k_children _ _ _ _ _ _ H (proj1 L)). apply sibrows_map.
Qed.

Lemma get_children_lay t f p a a' l l' f' : lay t f -> At p (Some (a, a')) l l' f f' ->
  get_children t (mkrow (p, a)) = sibrows p l.
Proof. intros L H. eapply kids_lay; eauto. Qed.

Lemma get_siblings_lay t f q pa l l' f' s a : lay t f -> At q pa l l' f f' -> In ([s], a) (roots l) ->
  get_siblings t (mkrow (q ++ [s], a)) = sibrows q l.
Proof.
  intros L H Hs. unfold get_siblings. cbn [l_path mkrow fst]. rewrite parent_snoc, app_length. eapply kids_lay; eauto.
Qed.

Lemma get_root_nodes_lay t f : lay t f -> get_root_nodes t = sibrows [] f.
Proof. intros L. rewrite <- (kids_lay _ _ _ _ _ _ _ L (At_top f f)). auto. Qed.

Lemma lay_pks t f : lay t f -> Permutation (map l_pk t) (ids (kerase f)).
Proof. intros (_ & _ & P). rewrite kerase_ids, (Permutation_map l_pk P), map_map. reflexivity. Qed.

Lemma get_by_pk_lay t f r : lay t f -> wf_ids (kerase f) -> In r t -> get_by_pk t (l_pk r) = Ok r.
Proof.
  intros L W H. unfold get_by_pk.
  assert (ND : NoDup (map l_pk t)) by (rewrite (lay_pks _ _ L); auto).
  destruct (filter (fun r0 => l_pk r0 =? l_pk r) t) as [|r0 l] eqn:E.
  - exfalso. assert (Hin : In r (filter (fun r0 => l_pk r0 =? l_pk r) t)) by (apply filter_In; rewrite Nat.eqb_refl; auto).
    rewrite E in Hin. inversion Hin.
  - assert (Hin : In r0 (filter (fun r0 => l_pk r0 =? l_pk r) t)) by (rewrite E; simpl; auto).
    apply filter_In in Hin. destruct Hin as [Hin Ek]. apply Nat.eqb_eq in Ek. f_equal. eapply NoDup_map_inj; eauto.
Qed.

Lemma pk_inj t f r r' : lay t f -> wf_ids (kerase f) -> In r t -> In r' t -> l_pk r = l_pk r' -> r = r'.
Proof. intros L W H H' E. eapply NoDup_map_inj; eauto. rewrite (lay_pks _ _ L). auto. Qed.

Lemma get_by_path_lay t f x : lay t f -> In x (rows f) -> get_by_path t (fst x) = Ok (mkrow x).
Proof.
  intros L H. unfold get_by_path. assert (L' := L). destruct L as (W & V & P).
  assert (Ef : filter (fun r => peq (fst r) (fst x)) (rows f) = [x]).
  { assert (ND := k_NoDup _ W). revert H ND. clear. generalize (rows f) as l.
    induction l as [|y l IH]; simpl; [tauto|]. intros H ND. inversion ND; subst.
    destruct H as [->|H].
    - rewrite peq_refl. f_equal. apply filter_none. intros z Hz. apply peq_false.
      intros E. apply H2. rewrite <- E. apply in_map; auto.
    - rewrite IH by auto. destruct (peq (fst y) (fst x)) eqn:E; auto.
      apply peq_iff in E. exfalso. apply H2. rewrite E. apply in_map; auto. }
  assert (Pf := Permutation_filter (fun r => peq (l_path r) (fst x)) P).
  rewrite filter_map in Pf. simpl in Pf. rewrite Ef in Pf. simpl in Pf.
  apply Permutation_sym, Permutation_length_1_inv in Pf. rewrite Pf. auto.
Qed.

(** Where a row is. *)
Lemma locate t f r : lay t f -> In r t ->
  exists q s pa l1 a c l2, r = mkrow (q ++ [s], a) /\ pold pa = pnew pa /\
    At q pa (fapp l1 (Cons ([s], a) c l2)) (fapp l1 (Cons ([s], a) c l2)) f f /\ (pa = None <-> q = []).
Proof.
  intros L Hr. destruct (lay_in _ _ _ L Hr) as ([p a] & Hx & ->).
  assert (W : kpwf f) by apply L.
  destruct (@row_siblings _ _ _ _ _ Hx) as (q & s & up & l & -> & Hs & Hl).
  destruct (Hl l up (iff_refl _)) as [f' H].
  set (pa := match up with Some x => match up with Some y => Some (x, y) | None => None end | None => None end) in H.
  assert (Ep : pold pa = pnew pa) by (destruct up; reflexivity).
  assert (f = f') by (eapply At_same; eauto). subst f'.
  destruct (@roots_split _ _ _ _ Hs) as (l1 & c & l2 & ->).
  destruct (seg_one _ _ (k_At_pwf_l _ _ _ _ _ _ H W) Hs) as (s' & E). cbn in E. subst s.
  exists q, s', pa, l1, a, c, l2. repeat split; auto.
  - intros E. rewrite E in H. inversion H; auto.
  - intros E. destruct pa as [aa|] eqn:Epa; auto. exfalso. apply (k_At_nonempty _ _ _ _ _ _ H W E).
Qed.

(** The children of a stored row. *)
Lemma locate_kids t f r : lay t f -> In r t ->
  exists p a l, r = mkrow (p, a) /\ At p (Some (a, a)) l l f f /\ p <> [].
Proof.
  intros L Hr. destruct (lay_in _ _ _ L Hr) as ([p a] & Hx & ->). destruct (@row_kids _ _ _ _ _ Hx) as [l Hl].
  destruct (Hl a l) as [f' H]. assert (f = f') by (eapply At_same; eauto). subst f'.
  exists p, a, l. split; auto. split; auto. apply (k_At_nonempty _ _ _ _ _ _ H (proj1 L)).
Qed.

End Inv.
