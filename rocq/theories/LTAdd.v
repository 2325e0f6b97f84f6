(** add_root, add_child and add_sibling of ltree trees. *)
From Coq Require Import String List Arith ZArith Lia Bool Permutation Sorted.
From Verif Require Import Prelude Forest SpecFacts SpecSane SpecRun SpecKids PathTab PathMove CommonModel Order History
  SpecPerm LTModel LTLabel LTInv LTShift LTNewPath.
Import ListNotations.

(** The labels one level below a path. *)
Definition labels_below (t : lt_table) (q : lpath) : list label :=
  map (fun r => last_label (l_path r)) (filter (fun r => ppre q (l_path r) && (length (l_path r) =? length q + 1)) t).

(** A label is to be found among the labels [L] between those of [b] and [a], and the
    existing nodes keep their order. *)
Definition calm_at (L : list label) (b a : option ltrow) : Prop :=
  match b, a with
  | None, None => appendable L
  | _, _ => no_digit_ext L \/ ~ tight (label_of b) (label_of a)
  end.

Lemma appendable_in L M : (forall x, In x L <-> In x M) -> appendable L -> appendable M.
Proof. intros E (c & H1 & H2 & H3). exists c. split; auto. split; intros; [apply E|apply H3, E]; auto. Qed.
Lemma no_digit_in L M : (forall x, In x L <-> In x M) -> no_digit_ext L -> no_digit_ext M.
Proof. intros E H x y d z Hx Hy. apply H; apply E; auto. Qed.
Lemma calm_in L M b a : (forall x, In x L <-> In x M) -> calm_at L b a -> calm_at M b a.
Proof. unfold calm_at. intros E. destruct b, a; eauto using appendable_in; intros [H|H]; eauto using no_digit_in. Qed.
Lemma letters_in L M : (forall x, In x L <-> In x M) -> letters_used L -> letters_used M.
Proof. unfold letters_used. intros E H l Hl. apply E. auto. Qed.

Lemma hd_sib q (l1 l2 : kf) : hd_error (sibrows q l1 ++ sibrows q l2) = None -> fapp l1 l2 = Nil.
Proof. destruct l1, l2; cbn; congruence. Qed.

Section Add.
Variable cfg : lt_cfg.
Hypothesis max2 : 2 <= label_max cfg.
Notation lay := (lay cfg).
Notation kvalid := (kvalid cfg).
Notation found := (found cfg).
Notation long_label := (long_label cfg).

Lemma labels_below_lay t f q pa l l' f' : lay t f -> At q pa l l' f f' ->
  forall x, In x (labels l) <-> In x (labels_below t q).
Proof.
  intros L H x. assert (Wl := k_At_pwf_l _ _ _ _ _ _ H (proj1 L)).
  rewrite <- (skip_labels q l Wl), map_map. unfold labels_below. rewrite <- (kids_lay cfg t f q pa l l' f' L H).
  unfold order_path. rewrite !in_map_iff.
  assert (Pm := isort_perm (le_key l_path plt) (filter (fun r => ppre q (l_path r) && (length (l_path r) =? length q + 1)) t)).
  split; intros (r & E & Hr); exists r; split; auto; [apply (Permutation_in _ Pm Hr)|apply (Permutation_in _ (Permutation_sym Pm) Hr)].
Qed.

(** *** Neighbours *)
Lemma sib_at q (m1 : kf) s a c m2 : sibrows q (fapp m1 (Cons ([s], a) c m2)) = sibrows q m1 ++ mkrow (q ++ [s], a) :: sibrows q m2.
Proof. rewrite sibrows_fapp. reflexivity. Qed.

Lemma mid_order q (m1 : kf) s a c m2 : kpwf (fapp m1 (Cons ([s], a) c m2)) ->
  (forall r, In r (sibrows q m1) -> plt (l_path r) (q ++ [s]) = true) /\
  (forall r, In r (sibrows q m2) -> plt (q ++ [s]) (l_path r) = true).
Proof.
  intros W. apply pwf_fapp in W. destruct W as (W1 & W2 & W3). split; intros r Hr;
    apply in_map_iff in Hr; destruct Hr as (x & <- & Hx); cbn [mkrow pre l_path fst]; rewrite plt_pre.
  - apply (W3 x ([s], a)); cbn; auto.
  - destruct W2 as (_ & _ & _ & W2). rewrite Forall_forall in W2. apply (W2 x Hx).
Qed.

Lemma prev_sib t f q pa (m1 : kf) s a c m2 : let l := fapp m1 (Cons ([s], a) c m2) in
  lay t f -> At q pa l l f f -> get_prev_sibling t (mkrow (q ++ [s], a)) = last_opt (sibrows q m1).
Proof.
  intros l L H. assert (Wl := k_At_pwf_l _ _ _ _ _ _ H (proj1 L)). unfold get_prev_sibling.
  rewrite (get_siblings_lay cfg t f q pa l l f s a L H) by (unfold l; rewrite roots_fapp, in_app_iff; cbn; auto).
  unfold l in *. rewrite sib_at, filter_app. cbn [filter l_path mkrow fst]. rewrite plt_irr.
  destruct (mid_order q _ _ _ _ _ Wl) as [O1 O2].
  rewrite filter_all by (intros r Hr; apply (O1 r Hr)). rewrite filter_none by (intros r Hr; apply plt_asym, O2; auto).
  rewrite app_nil_r. auto.
Qed.

Lemma next_sib t f q pa (m1 : kf) s a c m2 : let l := fapp m1 (Cons ([s], a) c m2) in
  lay t f -> At q pa l l f f -> get_next_sibling t (mkrow (q ++ [s], a)) = hd_error (sibrows q m2).
Proof.
  intros l L H. assert (Wl := k_At_pwf_l _ _ _ _ _ _ H (proj1 L)). unfold get_next_sibling.
  rewrite (get_siblings_lay cfg t f q pa l l f s a L H) by (unfold l; rewrite roots_fapp, in_app_iff; cbn; auto).
  unfold l in *. rewrite sib_at, filter_app. cbn [filter l_path mkrow fst]. rewrite plt_irr.
  destruct (mid_order q _ _ _ _ _ Wl) as [O1 O2].
  rewrite filter_none by (intros r Hr; apply plt_asym, O1; auto). rewrite filter_all by (intros r Hr; apply O2; auto).
  auto.
Qed.

(** The gap of [l] that belongs to a position. *)
Definition gap (q : lpath) (l n1 n2 : kf) (ba : option ltrow * option ltrow) : Prop :=
  l = fapp n1 n2 /\ (ba = (hd_error (sibrows q n2), last_opt (sibrows q n1)) \/ (ba = (None, None) /\ n2 = Nil)).

Lemma split_node (l : kf) L1 a L2 : kpwf l -> nodes l = L1 ++ a :: L2 ->
  exists m1 s c m2, l = fapp m1 (Cons ([s], a) c m2) /\ nodes m1 = L1 /\ nodes m2 = L2.
Proof.
  intros W E. destruct (nodes_split _ _ _ E) as (m1 & m2 & -> & E1 & E2).
  destruct m2 as [|[p b] c m2]; [discriminate|]. cbn in E2. injection E2 as -> E2.
  apply pwf_fapp in W. destruct W as (_ & W & _). destruct W as (W & _). cbn in W.
  destruct p as [|s [|]]; try discriminate. exists m1, s, c, m2. auto.
Qed.

Lemma sorted_gap t f q pa l d gt : lay t f -> At q pa l l f f ->
  (forall x, gt x = sorted_after (lt_order cfg) d (ndata x)) ->
  exists n1 n2, gap q l n1 n2
    (let b := sorted_first cfg (sibrows q l) d in (b, match b with Some b => get_prev_sibling t b | None => None end)) /\
    ins_split (PSorted gt) (nodes n1) (nodes n2).
Proof.
  intros L H G. assert (Wl := k_At_pwf_l _ _ _ _ _ _ H (proj1 L)).
  assert (EF : filter (fun r => sorted_after (lt_order cfg) d (l_data r)) (sibrows q l) =
     map (fun r => mkrow (pre q r)) (filter (fun r => gt (snd r)) (roots l))).
  { unfold sibrows. generalize (roots l) as R. induction R as [|r R IH]; auto. cbn [map filter mkrow pre l_data snd].
    rewrite <- G, IH. destruct (gt (snd r)); auto. }
  unfold sorted_first. rewrite EF.
  destruct (first_split gt (nodes l)) as [(L1 & a & L2 & E & Ga & Gl)|Gn].
  - destruct (split_node l L1 a L2 Wl E) as (m1 & s & c & m2 & -> & E1 & E2).
    exists m1, (Cons ([s], a) c m2). split.
    + split; auto. left. rewrite roots_fapp, filter_app, (filter_none _ (roots m1)).
      * cbn [roots app filter snd]. rewrite Ga. cbn [map hd_error]. unfold pre at 1 2. cbn [fst snd].
        rewrite (prev_sib t f q pa m1 s a c m2 L H). reflexivity.
      * intros x Hx. apply Gl. rewrite <- E1. apply (in_map snd _ _ Hx).
    + cbn [ins_split]. split; [intros x Hx; apply Gl; rewrite <- E1; auto|]. intros b Lb E'. injection E' as <- _. auto.
  - exists l, Nil. split.
    + split; [rewrite fapp_nil_r; auto|]. right. rewrite filter_none; auto.
      intros x Hx. apply Gn. apply (in_map snd _ _ Hx).
    + cbn [ins_split]. split; auto. intros b Lb E'. discriminate.
Qed.

Lemma neighbours_sib t f q pa (m1 : kf) s a c m2 P d gt : let l := fapp m1 (Cons ([s], a) c m2) in
  lay t f -> wf_ids (kerase f) -> At q pa l l f f -> pold pa = pnew pa -> is_sib_pos P ->
  (forall x, gt x = sorted_after (lt_order cfg) d (ndata x)) ->
  exists n1 n2, gap q l n1 n2 (neighbours cfg t (mkrow (q ++ [s], a)) P d) /\
    ins_split (sib_place P (nid a) gt) (nodes n1) (nodes n2).
Proof.
  intros l L WF H Ep HP G. assert (ND := nodes_NoDup _ _ _ _ _ _ H Ep WF).
  assert (ES : get_siblings t (mkrow (q ++ [s], a)) = sibrows q l).
  { apply (get_siblings_lay cfg t f q pa l l f s a L H). unfold l. rewrite roots_fapp, in_app_iff. cbn; auto. }
  assert (Nl : nodes l = nodes m1 ++ a :: nodes m2) by (unfold l; rewrite nodes_fapp; reflexivity).
  rewrite Nl, map_app in ND. cbn [map] in ND. assert (Na := NoDup_remove_2 _ _ _ ND). rewrite in_app_iff in Na.
  assert (N1 : forall x, In x (nodes m1) -> nid x <> nid a).
  { intros x Hx E. apply Na. left. rewrite <- E. apply in_map. auto. }
  destruct P; try destruct HP; cbn [neighbours].
  - exists Nil, l. split; [split; auto; left|cbn; auto]. unfold get_first_sibling. rewrite ES. auto.
  - exists m1, (Cons ([s], a) c m2). split; [split; auto; left|].
    + rewrite (prev_sib t f q pa m1 s a c m2 L H). auto.
    + cbn. split; auto. exists a, (nodes m2). auto.
  - exists (fapp m1 (Cons ([s], a) c Nil)), m2. split; [split; [|left]|].
    + unfold l. rewrite fapp_assoc. auto.
    + rewrite (next_sib t f q pa m1 s a c m2 L H), sib_at. cbn [sibrows roots map]. rewrite last_opt_app. auto.
    + rewrite nodes_fapp. cbn. exists (nodes m1), a. auto.
  - exists l, Nil. split; [split; [rewrite fapp_nil_r; auto|left]|cbn; auto]. unfold get_last_sibling. rewrite ES. auto.
  - rewrite ES. apply (sorted_gap t f q pa l d gt L H G).
Qed.

Lemma neighbours_child t f p a l P d gt : lay t f -> At p (Some (a, a)) l l f f -> is_child_pos P = true ->
  (forall x, gt x = sorted_after (lt_order cfg) d (ndata x)) ->
  exists n1 n2, gap p l n1 n2 (neighbours cfg t (mkrow (p, a)) P d) /\
    forall n, ins_split (sib_place P n gt) (nodes n1) (nodes n2).
Proof.
  intros L H HP G. assert (EC := get_children_lay cfg t f p a a l l f L H).
  destruct P; try discriminate; cbn [neighbours].
  - exists Nil, l. split; [split; auto; left|cbn; auto]. unfold get_first_child. rewrite EC. auto.
  - exists l, Nil. split; [split; [rewrite fapp_nil_r; auto|left]|cbn; auto]. unfold get_last_child. rewrite EC. auto.
  - rewrite EC. destruct (sorted_gap t f p _ l d gt L H G) as (n1 & n2 & X & Y). exists n1, n2. auto.
Qed.

(** *** A path for the new node *)
Definition roomy (db : lt_db) (f : kf) (q : lpath) pa (l n1 n2 : kf) (b a : option ltrow) : Prop :=
  (exists db1 lab mv f1 k1 k2, get_new_path cfg 2 db q b a false = Ok (db1, q ++ [lab], mv) /\
     found (lt_rows db) f q pa l (nodes n1) (nodes n2) (calm_at (labels l) b a) (lt_rows db1) lab f1 k1 k2 /\
     map l_pk (lt_rows db1) = map l_pk (lt_rows db) /\ (mv = false -> db1 = db /\ f1 = f)) \/
  (get_new_path cfg 2 db q b a false = Err DataError /\ long_label (lt_rows db)) \/
  (get_new_path cfg 2 db q b a false = Err ValueError /\ letters_used (labels l)).

Lemma room db f q pa l n1 n2 b a : lay (lt_rows db) f -> wf_ids (kerase f) -> At q pa l l f f -> pold pa = pnew pa ->
  gap q l n1 n2 (b, a) -> roomy db f q pa l n1 n2 b a.
Proof.
  intros L WF H Ep [El Gb].
  assert (Free : n2 = Nil -> b = None -> a = None -> roomy db f q pa l n1 n2 b a).
  { intros -> -> ->. rewrite fapp_nil_r in El. subst n1. unfold roomy. rewrite (free_new_path cfg db f q pa l L H).
    destruct (free_path cfg max2 (lt_rows db) f q pa l L H) as [(lab & k1 & k2 & E & _ & Fd)|[E U]]; rewrite E; cbn [bind]; auto.
    left. exists db, lab, false, f, k1, k2. split; auto. }
  destruct Gb as [Gb|[Gb Gn]]; [|injection Gb as -> ->; auto].
  injection Gb as Eb Ea.
  destruct (fapp n1 n2) as [|x k r] eqn:Ex.
  - assert (n1 = Nil /\ n2 = Nil) as [-> ->] by (destruct n1; [cbn in Ex|discriminate]; auto).
    apply Free; auto.
  - assert (Nn : fapp n1 n2 <> Nil) by (rewrite Ex; discriminate). rewrite <- Ex in El. clear Ex x k r. subst l.
    destruct (new_path cfg max2 db f q pa n1 n2 b a L WF H Ep Eb Ea Nn) as [N|N]; [|unfold roomy; auto].
    left. destruct N as (db1 & lab & mv & f1 & k1 & k2 & E & Fd & Pk & M). exists db1, lab, mv, f1, k1, k2.
    split; auto. split; auto.
    destruct Fd. constructor; auto. intros C. apply fd_calm. destruct b, a; auto. exfalso. apply Nn.
    symmetry in Ea. apply last_opt_None in Ea. destruct n1; [|discriminate]. destruct n2; [reflexivity|discriminate].
Qed.

(** *** Storing the new row *)
Lemma tp_children (l l' : forest node) : tperm l l' -> wf_ids l -> forall q, children_of q l = children_of q l'.
Proof.
  induction 1; intros W p; auto.
  - cbn [children_of]. rewrite IHtperm; auto. apply wf_cons_inv in W. tauto.
  - apply wf_cons_inv in W. destruct W as (W3 & W4 & W1 & W2 & W5). apply wf_cons_inv in W2. destruct W2 as (V3 & V4 & V1 & V2 & V5).
    cbn [children_of]. destruct (Nat.eqb_spec (nid a) p) as [E|E], (Nat.eqb_spec (nid b) p) as [E'|E']; auto.
    + exfalso. apply W4. rewrite ids_cons. left. congruence.
    + rewrite (children_of_notin p m); auto. intros X. apply W4. rewrite ids_cons. right. apply in_app_iff. left. congruence.
    + rewrite (children_of_notin p k); auto. intros X. apply (W5 p X). rewrite ids_cons. left. auto.
    + destruct (children_of p k) eqn:Ek, (children_of p m) eqn:Em; auto. exfalso.
      apply (W5 p); [apply (children_in _ _ _ Ek)|]. rewrite ids_cons. right. apply in_app_iff. left. apply (children_in _ _ _ Em).
  - rewrite IHtperm1 by auto. apply IHtperm2. unfold wf_ids, ids in *. rewrite <- (Permutation_map nid (tp_preorder _ _ H)). auto.
Qed.

Lemma tp_ids (l l' : forest node) : tperm l l' -> Permutation (ids l) (ids l').
Proof. intros H. unfold ids. apply Permutation_map, tp_preorder. auto. Qed.

Lemma At_none (q : lpath) (l l' f f' : kf) : At q None l l' f f' -> q = [] /\ l = f /\ l' = f'.
Proof. intros H. inversion H; subst; auto. Qed.

Lemma q_valid t f q pa l l' f' : lay t f -> At q pa l l' f f' -> Forall (valid_label cfg) q.
Proof.
  intros L H. destruct pa as [[a a']|]; [|apply At_none in H; destruct H as [-> _]; constructor].
  apply (kvalid_path cfg f (q, a)); [apply L|]. eapply k_At_in; eauto.
Qed.

Lemma fits_valid p : fits_ltree cfg p = true <-> Forall (fun s : label => length s <= label_max cfg) p.
Proof.
  unfold fits_ltree. rewrite forallb_forall, Forall_forall. split; intros H x Hx; apply Nat.leb_le; auto.
Qed.

Lemma valid_fits p : Forall (valid_label cfg) p -> fits_ltree cfg p = true.
Proof. intros H. apply fits_valid. eapply Forall_impl; [|exact H]. intros s V. apply V. Qed.

Lemma unique_lay t f : lay t f -> unique_paths t = true.
Proof.
  intros (W & _ & P). assert (ND : NoDup (map l_path t)).
  { rewrite P, map_map. cbn. apply k_NoDup. auto. }
  clear W P. induction t as [|r t IH]; auto. cbn in *. inversion ND; subst. rewrite IH by auto. rewrite andb_true_r.
  apply negb_true_iff. apply existsb_false. intros x Hx. apply peq_false. intros E. apply H1. rewrite <- E. apply in_map. auto.
Qed.

Lemma commit_lay db f : lay (lt_rows db) f -> commit db = Ok db.
Proof. intros L. unfold commit. rewrite (unique_lay _ _ L). auto. Qed.

Lemma split_place w L1 L2 : ins_split w L1 L2 -> place_ok w (L1 ++ L2).
Proof.
  destruct w; cbn; auto.
  - intros (_ & a & L & -> & <-). rewrite map_app, in_app_iff. cbn; auto.
  - intros (L & a & -> & <- & _). rewrite !map_app, !in_app_iff. cbn; auto.
Qed.

Lemma Ctx_eq up l F F' : Ctx up l l F F' -> F = F'.
Proof. intros C. remember l as l' in C at 2. induction C; subst; auto; f_equal; auto. Qed.

Lemma found_same t f q pa l N1 N2 calm t1 lab f1 k1 k2 : pold pa = pnew pa -> wf_ids (kerase f) ->
  found t f q pa l N1 N2 calm t1 lab f1 k1 k2 ->
  wf_ids (kerase f1) /\ same_kids (kerase f) (kerase f1) /\ Permutation (ids (kerase f)) (ids (kerase f1)) /\
  kids_of (up_of pa) (kerase f) = Some (kerase l) /\ kids_of (up_of pa) (kerase f1) = Some (kerase (fapp k1 k2)) /\
  (calm -> kerase f1 = kerase f).
Proof.
  intros Ep WF Fd. destruct Fd as [Ha _ Hp _ _ _ Hc]. assert (C := At_Ctx' _ _ _ _ _ _ Ha Ep).
  assert (PI : Permutation (ids (kerase f)) (ids (kerase f1))).
  { destruct (Ctx_ids C) as (X & P1 & P2). rewrite P1, P2. apply Permutation_app_head, tp_ids. auto. }
  assert (W1 : wf_ids (kerase f1)) by (unfold wf_ids; rewrite <- PI; auto).
  split; auto. split; [|split; auto; split; [apply (Ctx_kids_of C WF)|split]].
  - apply (Ctx_same _ _ _ _ _ C WF W1); [apply tp_roots; auto|].
    intros i. rewrite (tp_children _ _ Hp); auto. apply (Ctx_wf_l C WF).
  - destruct (Ctx_chain _ _ _ _ _ C (kerase (fapp k1 k2))) as (X & C1 & _). apply (Ctx_kids_of C1 W1).
  - intros Hcalm. destruct (Hc Hcalm) as [E _]. rewrite E in C. symmetry. apply (Ctx_eq _ _ _ _ C).
Qed.

(** Inserting a leaf in two forests that are equal up to the order of siblings. *)
Lemma same_ins F G up w w' x l m : wf_ids F -> wf_ids G -> same_kids F G -> kids_of up F = Some l -> kids_of up G = Some m ->
  place_ok w (roots l) -> place_ok w' (roots m) -> ~ In (nid x) (ids F) ->
  same_kids (at_kids up (ins w (leaf x)) F) (at_kids up (ins w' (leaf x)) G).
Proof.
  intros WF WG S El Em P P' Hx.
  assert (Hx' : ~ In (nid x) (ids G)) by (intros X; apply Hx; apply (same_ids F G S); auto).
  destruct (ins_added up w x F l WF El P Hx) as (L1 & L2 & _ & A).
  destruct (ins_added up w' x G m WG Em P' Hx') as (M1 & M2 & _ & B).
  eapply same_added; eauto. intros ->. apply Hx. cbn [kids_of] in El. apply (children_in _ _ _ El).
Qed.

Definition newrow (x : node) (p : lpath) : ltrow := mkLT (nid x) p (ndata x).

Lemma insert_row t f q pa l N1 N2 calm t1 lab f1 k1 k2 x wh :
  lay t f -> wf_ids (kerase f) -> At q pa l l f f -> pold pa = pnew pa -> ~ In (nid x) (ids (kerase f)) ->
  found t f q pa l N1 N2 calm t1 lab f1 k1 k2 -> N1 ++ N2 = nodes l -> ins_split wh N1 N2 ->
  let S := at_kids (up_of pa) (ins wh (leaf x)) (kerase f) in
  (save_row cfg t1 (newrow x (q ++ [lab])) = Err DataError /\ long_label t) \/
  (save_row cfg t1 (newrow x (q ++ [lab])) = Ok (newrow x (q ++ [lab]) :: t1) /\
   exists f2, lay (newrow x (q ++ [lab]) :: t1) f2 /\ wf_ids (kerase f2) /\ same_kids S (kerase f2) /\ (calm -> kerase f2 = S)).
Proof.
  intros L WF H Ep Hx Fd EN Hw S. destruct (found_same _ _ _ _ _ _ _ _ _ _ _ _ _ Ep WF Fd) as (W1 & Sk & PI & Kl & Kk & Cl).
  destruct Fd as [Ha L1 Hp Hb [Hl1 Hl2] Hlen Hc].
  assert (Vq := q_valid _ _ _ _ _ _ _ L H).
  assert (Np : existsb (fun r => l_pk r =? nid x) t1 = false).
  { apply existsb_false. intros r Hr. apply Nat.eqb_neq. intros E. apply Hx. rewrite PI.
    rewrite <- (lay_pks _ _ _ L1), <- E. apply in_map. auto. }
  unfold save_row, newrow. cbn [l_path l_pk]. rewrite Np.
  destruct (fits_ltree cfg (q ++ [lab])) eqn:Fit; cbn [negb].
  2: { left. split; auto. destruct Hlen as [Hlen|]; auto. exfalso.
       rewrite (proj2 (fits_valid _)) in Fit; [discriminate|]. apply Forall_app. split.
       - eapply Forall_impl; [|exact Vq]. intros s V. apply V.
       - constructor; auto. }
  right. split; auto.
  apply fits_valid in Fit. apply Forall_app in Fit. destruct Fit as [_ Fit]. inversion Fit as [|? ? Fl _]; subst.
  assert (Wf1 : kpwf f1) by apply L1.
  destruct (@At_chain _ _ _ _ _ _ _ _ Ha pa (fapp k1 (Cons ([lab], x) Nil k2))) as (f2 & A2 & _); [auto|].
  assert (Wl := k_At_pwf_l _ _ _ _ _ _ A2 Wf1). assert (Wl' := Wl). apply pwf_app in Wl'. destruct Wl' as (Wk1 & Wk2 & Wk3).
  destruct (between_paths _ _ _ Wk1 Wk2 Hb) as [B1 B2].
  assert (Wn : kpwf (fapp k1 (Cons ([lab], x) Nil k2))) by (apply pwf_insert; cbn; auto).
  assert (Wf2 := k_At_pwf _ _ _ _ _ _ A2 Wf1 Wn).
  assert (Vf1 : kvalid f1) by apply L1. assert (Vl := kvalid_At_l cfg _ _ _ _ _ _ A2 Vf1).
  apply kvalid_fapp in Vl. destruct Vl as [Vk1 Vk2].
  assert (Vn : kvalid (fapp k1 (Cons ([lab], x) Nil k2))).
  { apply kvalid_fapp. split; auto. apply kvalid_cons. split; [|split; [constructor|auto]]. constructor; [|constructor].
    split; auto. }
  assert (Vf2 := kvalid_At cfg _ _ _ _ _ _ A2 Vf1 Vn).
  assert (PR := @At_insert_rows _ lblt 1 _ lblt_irr lblt_tot w1 _ _ _ _ _ _ _ _ _ A2 Ep).
  assert (Lf2 : lay (mkLT (nid x) (q ++ [lab]) (ndata x) :: t1) f2).
  { split; auto. split; auto. rewrite PR, map_app. cbn. eapply Permutation_trans; [|apply Permutation_cons_append]. constructor. apply L1. }
  assert (NDk : NoDup (map nid (nodes k1 ++ nodes k2))).
  { rewrite <- nodes_fapp. apply (nodes_NoDup _ _ _ _ _ _ A2 Ep W1). }
  destruct (some_place _ _ NDk) as (wh' & Hw').
  assert (Sp : forall w0, ins_split w0 (nodes k1) (nodes k2) -> kerase f2 = at_kids (up_of pa) (ins w0 (leaf x)) (kerase f1)).
  { intros w0 Hw0. apply (@insert_spec _ _ idn q pa k1 [lab] x k2 f1 f2 w0 (up_of pa) A2 (pid _ Ep) W1 eq_refl Hw0). }
  exists f2. split; auto. split; [|split].
  - unfold wf_ids. rewrite <- (lay_pks _ _ _ Lf2). cbn [map l_pk]. constructor.
    + intros X. apply Hx. rewrite PI, <- (lay_pks _ _ _ L1). auto.
    + rewrite (lay_pks _ _ _ L1). auto.
  - rewrite (Sp _ Hw'). unfold S. eapply same_ins; eauto; rewrite kerase_roots.
    + rewrite <- EN. apply split_place. auto.
    + rewrite nodes_fapp. apply split_place. auto.
  - intros Hcalm. destruct (Hc Hcalm) as (E0 & E1 & E2). rewrite <- E1, <- E2 in Hw. rewrite (Sp _ Hw), (Cl Hcalm). auto.
Qed.

(** *** The calls *)

(** What an insertion below [up] (path [q]) does: [S] is the intended forest. *)
Definition adds (t : lt_table) (q : lpath) (x : node) (S : forest node) (calm : Prop) (out : res (lt_db * ltrow)) : Prop :=
  (exists db' r F', out = Ok (db', r) /\ In r (lt_rows db') /\ l_pk r = nid x /\ l_data r = ndata x /\
     stores cfg (lt_rows db') F' /\ same_kids S F' /\ (calm -> F' = S)) \/
  (out = Err DataError /\ long_label t) \/
  (out = Err ValueError /\ letters_used (labels_below t q)).

Lemma adds_weak t q x S (c c' : Prop) out : (c' -> c) -> adds t q x S c out -> adds t q x S c' out.
Proof.
  intros Hc [(db' & r & F' & H1 & H2 & H3 & H4 & H5 & H6 & H7)|H]; [left|right; auto]. exists db', r, F'. auto 10.
Qed.

(** From a generated path to the end of the call. *)
Lemma adds_save db f q pa l n1 n2 calm t1 sg lab f1 k1 k2 x wh S :
  lay (lt_rows db) f -> wf_ids (kerase f) -> At q pa l l f f -> pold pa = pnew pa -> ~ In (nid x) (ids (kerase f)) ->
  found (lt_rows db) f q pa l n1 n2 calm t1 lab f1 k1 k2 -> n1 ++ n2 = nodes l -> ins_split wh n1 n2 ->
  S = at_kids (up_of pa) (ins wh (leaf x)) (kerase f) ->
  adds (lt_rows db) q x S calm
    (do '(db', r) <- (do t <- save_row cfg t1 (newrow x (q ++ [lab])); Ok (mkLTDB t sg, newrow x (q ++ [lab])));
     do db'' <- commit db'; Ok (db'', r)).
Proof.
  intros L WF H Ep Hx Fd EN Hw ->.
  destruct (insert_row _ _ _ _ _ _ _ _ _ _ _ _ _ x wh L WF H Ep Hx Fd EN Hw) as [[E Lg]|(E & f2 & L2 & W2 & S2 & C2)];
    rewrite E; cbn [bind]; [right; left; auto|left].
  rewrite (commit_lay (mkLTDB _ sg) f2 L2). cbn [bind].
  exists (mkLTDB (newrow x (q ++ [lab]) :: t1) sg), (newrow x (q ++ [lab])), (kerase f2).
  cbn [lt_rows]. split; auto. split; [cbn; auto|]. split; auto. split; auto. split; [exists f2; auto|]. auto.
Qed.

Definition new_of (x : node) : newobj := mkNew (nid x) (ndata x).
Definition gt_lt (x : node) : node -> bool := fun y => sorted_after (lt_order cfg) (ndata x) (ndata y).

(** The insertion next to a sibling, with the neighbours the code finds. *)
Theorem sibling_body db f q pa m1 s a c m2 P p x : let l := fapp m1 (Cons ([s], a) c m2) in
  lay (lt_rows db) f -> wf_ids (kerase f) -> At q pa l l f f -> pold pa = pnew pa -> ~ In (nid x) (ids (kerase f)) ->
  is_sib_pos P -> prepare_pos_add (is_sorted cfg) p = Ok P ->
  let ba := neighbours cfg (lt_rows db) (mkrow (q ++ [s], a)) P (ndata x) in
  adds (lt_rows db) q x (at_kids (up_of pa) (ins (sib_place P (nid a) (gt_lt x)) (leaf x)) (kerase f))
    (calm_at (labels_below (lt_rows db) q) (fst ba) (snd ba))
    (do '(db', r) <- add_sibling_body cfg db (mkrow (q ++ [s], a)) p (new_of x);
     do db'' <- commit db'; Ok (db'', r)).
Proof.
  intros l L WF H Ep Hx HP Epos ba. unfold add_sibling_body. rewrite Epos. cbn [bind new_data new_of new_pk].
  destruct (neighbours_sib (lt_rows db) f q pa m1 s a c m2 P (ndata x) (gt_lt x) L WF H Ep HP) as (n1 & n2 & G & Hw); [reflexivity|].
  fold ba in G |- *. destruct ba as [b e] eqn:Eba. cbn [fst snd]. cbn [l_path mkrow fst]. rewrite parent_snoc.
  assert (LB := labels_below_lay _ _ _ _ _ _ _ L H). fold l in LB.
  destruct (room db f q pa l n1 n2 b e L WF H Ep G) as [(db1 & lab & mv & f1 & k1 & k2 & E & Fd & Pk & M)|[[E Lg]|[E Lu]]];
    rewrite E; cbn [bind].
  - eapply adds_weak; [intros Hc; eapply calm_in; [intros y; symmetry; apply LB|exact Hc]|].
    apply (adds_save db f q pa l (nodes n1) (nodes n2) _ (lt_rows db1) (lt_sig db1) lab f1 k1 k2 x (sib_place P (nid a) (gt_lt x)) _ L WF H Ep Hx Fd); auto.
    destruct G as [Gl _]. fold l in Gl. rewrite Gl, nodes_fapp. auto.
  - right. left. auto.
  - right. right. split; auto. eapply letters_in; [exact LB|auto].
Qed.

(** The position of a node by its path in the table and by its key in the forest. *)
Lemma at_sib db F r : stores cfg (lt_rows db) F -> In r (lt_rows db) ->
  exists f q s pa m1 a c m2, kerase f = F /\ lay (lt_rows db) f /\ wf_ids (kerase f) /\ r = mkrow (q ++ [s], a) /\
    pold pa = pnew pa /\ At q pa (fapp m1 (Cons ([s], a) c m2)) (fapp m1 (Cons ([s], a) c m2)) f f /\
    parent_of (nid a) F = Some (up_of pa).
Proof.
  intros (f & L & <- & WF) Hr. destruct (locate cfg _ _ _ L Hr) as (q & s & pa & m1 & a & c & m2 & -> & Ep & H & _).
  exists f, q, s, pa, m1, a, c, m2. repeat (split; auto).
  assert (C := At_Ctx' _ _ _ _ _ _ H Ep). apply (Ctx_parent_of (nid a) C WF).
  rewrite kerase_fapp, roots_fapp, map_app, in_app_iff. cbn; auto.
Qed.

(** insert_before and insert_after for a position. *)
Definition calm_pos (t : lt_table) (target : ltrow) (P : pos) (d : fields) : Prop :=
  let ba := neighbours cfg t target P d in
  calm_at (labels_below t (if is_child_pos P then l_path target else parent_path (l_path target))) (fst ba) (snd ba).

Theorem add_sibling_ok db F target p P x : stores cfg (lt_rows db) F -> In target (lt_rows db) ->
  ~ In (nid x) (ids F) -> prepare_pos_add (is_sorted cfg) p = Ok P ->
  adds (lt_rows db) (parent_path (l_path target)) x (sp_add_sibling (l_pk target) P (gt_lt x) x F)
    (calm_pos (lt_rows db) target P (ndata x)) (add_sibling cfg db target p (new_of x)).
Proof.
  intros St Ht Hx Ep. destruct (at_sib _ _ _ St Ht) as (f & q & s & pa & m1 & a & c & m2 & <- & L & WF & -> & Eq & H & Pa).
  assert (HP := prepare_add_sib _ _ _ Ep).
  assert (B := sibling_body db f q pa m1 s a c m2 P p x L WF H Eq Hx HP Ep). cbn zeta in B.
  unfold add_sibling, calm_pos. cbn [l_path mkrow fst l_pk snd]. rewrite parent_snoc.
  replace (is_child_pos P) with false by (destruct P; try destruct HP; reflexivity).
  unfold sp_add_sibling. rewrite (resolve_sib P (nid a) (gt_lt x) (kerase f) (up_of pa) HP Pa). exact B.
Qed.

Lemma roots_At (f : kf) : At [] (@None (node * node)) f f f f.
Proof. constructor. Qed.

Lemma last_split q (l : kf) r : kpwf l -> last_opt (sibrows q l) = Some r ->
  exists m1 s a c, l = fapp m1 (Cons ([s], a) c Nil) /\ r = mkrow (q ++ [s], a).
Proof.
  intros W E. apply last_opt_Some in E. destruct E as [L E]. unfold sibrows in E.
  apply map_app_split in E. destruct E as (R1 & R2 & E & E1 & E2).
  destruct R2 as [|[p a] [|]]; try discriminate. injection E2 as <-.
  destruct (roots_snoc _ _ _ E) as (l1 & k & -> & E3).
  assert (Hin : In (p, a) (roots (fapp l1 (Cons (p, a) k Nil)))) by (rewrite roots_fapp, in_app_iff; cbn; auto).
  destruct (seg_one _ _ W Hin) as (s & Es). cbn in Es. subst p. exists l1, s, a, k. auto.
Qed.

(** Inserting at the sorted place among the nodes of a list, next to its last node. *)
Lemma sorted_body db f q pa m1 s a c x : let l := fapp m1 (Cons ([s], a) c Nil) in
  lay (lt_rows db) f -> wf_ids (kerase f) -> At q pa l l f f -> pold pa = pnew pa -> ~ In (nid x) (ids (kerase f)) ->
  is_sorted cfg = true ->
  let ba := neighbours cfg (lt_rows db) (mkrow (q ++ [s], a)) SortedSibling (ndata x) in
  adds (lt_rows db) q x (at_kids (up_of pa) (ins (PSorted (gt_lt x)) (leaf x)) (kerase f))
    (calm_at (labels_below (lt_rows db) q) (fst ba) (snd ba))
    (do '(db', r) <- add_sibling_body cfg db (mkrow (q ++ [s], a)) (Some "sorted-sibling"%string) (new_of x);
     do db'' <- commit db'; Ok (db'', r)).
Proof.
  intros l L WF H Ep Hx So ba.
  apply (sibling_body db f q pa m1 s a c Nil SortedSibling (Some "sorted-sibling"%string) x L WF H Ep Hx Logic.I). rewrite So. reflexivity.
Qed.

(** *** add_root *)
Definition calm_root (t : lt_table) (d : fields) : Prop :=
  if is_sorted cfg then
    match get_last_root_node t with
    | Some last => calm_pos t last SortedSibling d
    | None => True
    end
  else appendable (labels_below t []).

Lemma appendable_nil : appendable [].
Proof. exists 10. split; [lia|]. split; [intros; lia|intros x []]. Qed.

Theorem add_root_ok db F x : stores cfg (lt_rows db) F -> ~ In (nid x) (ids F) ->
  adds (lt_rows db) [] x (sp_add_root (gt_opt (lt_order cfg) (ndata x)) x F) (calm_root (lt_rows db) (ndata x))
    (add_root cfg db (new_of x)).
Proof.
  intros (f & L & <- & WF) Hx. unfold add_root, calm_root, sp_add_root, gt_opt, get_last_root_node.
  assert (Wf : kpwf f) by apply L. assert (H := roots_At f).
  assert (LB := labels_below_lay _ _ _ _ _ _ _ L H).
  assert (ES : sorts (lt_order cfg) = is_sorted cfg) by reflexivity. rewrite ES.
  rewrite (get_root_nodes_lay cfg _ _ L).
  assert (Free : is_sorted cfg = false \/ f = Nil ->
    adds (lt_rows db) [] x (at_kids None (ins (match (if is_sorted cfg then Some (gt_of (lt_order cfg) (ndata x)) else None)
                                    with None => PLast | Some g => PSorted g end) (leaf x)) (kerase f))
      (if is_sorted cfg then True else appendable (labels_below (lt_rows db) []))
      (do '(db', r) <- (do np <- generate_path [] None None (map l_path (sibrows [] f));
         do t <- save_row cfg (lt_rows db) (newrow x np); Ok (mkLTDB t (lt_sig db), newrow x np));
       do db'' <- commit db'; Ok (db'', r))).
  { intros Hs. destruct (free_path cfg max2 (lt_rows db) f [] None f L H) as [(lab & k1 & k2 & E & _ & Fd)|[E U]]; rewrite E; cbn [bind].
    - eapply adds_weak; [|apply (adds_save db f [] None f (nodes f) [] _ (lt_rows db) (lt_sig db) lab f k1 k2 x
        (match (if is_sorted cfg then Some (gt_of (lt_order cfg) (ndata x)) else None) with None => PLast | Some g => PSorted g end)
        _ L WF H eq_refl Hx Fd)]; auto.
      + destruct Hs as [-> | ->]; [intros Hc; eapply appendable_in; [intros y; symmetry; apply LB|exact Hc]|intros _; apply appendable_nil].
      + apply app_nil_r.
      + destruct Hs as [-> | ->]; [cbn; auto|]. destruct (is_sorted cfg); cbn; auto. split; [intros ? []|discriminate].
    - right. right. split; auto. eapply letters_in; [exact LB|auto]. }
  destruct (last_opt (sibrows [] f)) as [r|] eqn:El.
  - destruct (last_split _ _ _ Wf El) as (m1 & s & a & c & Ef & ->).
    destruct (is_sorted cfg) eqn:So.
    + unfold calm_pos. cbn [is_child_pos]. assert (H' := H). rewrite Ef in H' at 1 2.
      change (parent_path (l_path (mkrow ([] ++ [s], a)))) with (@nil label).
      apply (sorted_body db f [] None m1 s a c x L WF H' eq_refl Hx So).
    + apply Free. auto.
  - apply last_opt_None in El. assert (f = Nil) by (destruct f; [auto|discriminate]).
    destruct (is_sorted cfg) eqn:So; subst f; apply Free; auto.
Qed.

(** *** add_child *)
Definition calm_child (t : lt_table) (target : ltrow) (d : fields) : Prop :=
  if is_sorted cfg then
    match get_last_child t target with
    | Some last => calm_pos t last SortedSibling d
    | None => True
    end
  else True.

Theorem add_child_ok db F target x : stores cfg (lt_rows db) F -> In target (lt_rows db) -> ~ In (nid x) (ids F) ->
  adds (lt_rows db) (l_path target) x (sp_add_child (gt_opt (lt_order cfg) (ndata x)) (l_pk target) x F)
    (calm_child (lt_rows db) target (ndata x)) (add_child cfg db target (new_of x)).
Proof.
  intros (f & L & <- & WF) Ht Hx. unfold add_child, calm_child, sp_add_child, gt_opt.
  destruct (locate_kids cfg _ _ _ L Ht) as (p & a & l & -> & H & Np). cbn [l_pk l_path mkrow snd fst].
  assert (Wf : kpwf f) by apply L. assert (Wl := k_At_pwf_l _ _ _ _ _ _ H Wf).
  assert (Gp := get_by_pk_lay cfg _ _ _ L WF Ht). cbn [l_pk mkrow snd] in Gp. rewrite Gp. cbn [bind].
  assert (LB := labels_below_lay _ _ _ _ _ _ _ L H).
  assert (ES : sorts (lt_order cfg) = is_sorted cfg) by reflexivity. rewrite ES.
  unfold is_leaf, get_last_child. rewrite (get_children_lay cfg _ _ _ _ _ _ _ _ L H).
  change (at_kids (Some (nid a))) with (at_kids (up_of (Some (a, a)))).
  destruct (last_opt (sibrows p l)) as [r|] eqn:El.
  - assert (Ne : sibrows p l <> []) by (intros E; rewrite E in El; discriminate).
    destruct (sibrows p l) as [|r0 rs] eqn:Es; [congruence|]. rewrite <- Es in *. clear Ne.
    destruct (last_split _ _ _ Wl El) as (m1 & s & b & c & Ef & Er).
    replace (match sibrows p l with [] => true | _ => false end) with false by (rewrite Es; auto).
    destruct (is_sorted cfg) eqn:So; cbn [andb negb opt_res bind].
    + subst r. assert (H' := H). rewrite Ef in H' at 1 2. unfold calm_pos. cbn [is_child_pos l_path mkrow fst]. rewrite parent_snoc.
      apply (sorted_body db f p (Some (a, a)) m1 s b c x L WF H' eq_refl Hx So).
    + destruct (last_path cfg max2 (lt_rows db) f p (Some (a, a)) l r L H El) as (lab & E & Fd). rewrite E. cbn [bind].
      apply (adds_save db f p (Some (a, a)) l (nodes l) [] _ (lt_rows db) (lt_sig db) lab f l Nil x PLast _ L WF H eq_refl Hx Fd); auto.
      apply app_nil_r. cbn; auto.
  - apply last_opt_None in El. assert (l = Nil) by (destruct l; [auto|discriminate]). subst l. cbn [sibrows roots map andb negb].
    rewrite andb_false_r.
    destruct (free_path cfg max2 (lt_rows db) f p (Some (a, a)) Nil L H) as [(lab & k1 & k2 & E & _ & Fd)|[E U]];
      cbn [sibrows roots map] in E; rewrite E; cbn [bind].
    + eapply adds_weak; [|apply (adds_save db f p (Some (a, a)) Nil [] [] _ (lt_rows db) (lt_sig db) lab f k1 k2 x
        (match (if is_sorted cfg then Some (gt_of (lt_order cfg) (ndata x)) else None) with None => PLast | Some g => PSorted g end)
        _ L WF H eq_refl Hx Fd)]; auto.
      * intros _. apply appendable_nil.
      * destruct (is_sorted cfg); cbn; auto. split; [intros ? []|discriminate].
    + right. right. split; auto. eapply letters_in; [exact LB|auto].
Qed.

End Add.
