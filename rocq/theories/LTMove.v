(** move of ltree trees. *)
From Coq Require Import String List Arith ZArith Lia Bool Permutation Sorted.
From Verif Require Import Prelude Forest SpecFacts SpecSane SpecRun SpecKids PathTab PathMove CommonModel Order History
  SpecPerm LTModel LTLabel LTInv LTShift LTNewPath LTAdd.
Import ListNotations.

Lemma some_sorted L1 L2 : NoDup (map nid (L1 ++ L2)) -> exists g, ins_split (PSorted g) L1 L2.
Proof.
  intros ND. exists (fun x => existsb (fun y => nid x =? nid y) L2). split.
  - intros x Hx. apply existsb_false. intros y Hy. apply Nat.eqb_neq. intros E.
    rewrite map_app in ND. apply NoDup_app_iff in ND. destruct ND as (_ & _ & ND).
    apply (ND (nid x)); [apply in_map; auto|rewrite E; apply in_map; auto].
  - intros a L ->. cbn. rewrite Nat.eqb_refl. auto.
Qed.

Lemma prefix_same (a b : lpath) : ppre a b = true -> length b <= length a -> a = b.
Proof.
  intros H Hl. apply ppre_iff in H. destruct H as [x ->]. rewrite app_length in Hl.
  destruct x; [rewrite app_nil_r; auto|simpl in Hl; lia].
Qed.

Lemma ppre_app p x : ppre p (p ++ x) = true.
Proof. apply ppre_iff. eauto. Qed.

Lemma desc_spec f np an p a : kpwf f -> wf_ids (kerase f) -> In (np, an) (rows f) -> In (p, a) (rows f) ->
  (length np <? length p) && ppre np p = true <-> descends (kerase f) (nid an) (nid a).
Proof.
  intros W WF Hn Hp.
  destruct (@row_kids _ _ _ _ _ Hn) as [l Hl]. destruct (Hl an l) as [f' HA].
  assert (f = f') by (eapply At_same; eauto). subst f'. clear Hl.
  assert (Ek : children_of (nid an) (kerase f) = Some (kerase l)).
  { assert (C := At_Ctx' _ _ _ _ _ _ HA eq_refl). apply (Ctx_kids_of C WF). }
  assert (F := k_prefix _ _ _ _ _ _ HA W).
  assert (Eids := kerase_ids l).
  split.
  - intros E. apply andb_true_iff in E. destruct E as [E2 E1]. apply Nat.ltb_lt in E2.
    assert (Hf : In (p, a) (filter (fun r => ppre np (fst r)) (rows f))) by (apply filter_In; auto).
    rewrite F, in_app_iff in Hf. destruct Hf as [Hf|Hf].
    + simpl in Hf. destruct Hf as [Hf|[]]. injection Hf as <- <-. lia.
    + exists (kerase l). split; auto. rewrite Eids. apply in_map_iff in Hf. destruct Hf as (x & Ex & Hx).
      apply in_map_iff. exists x. split; auto. unfold pre in Ex. injection Ex as _ <-. auto.
  - intros (l0 & E0 & Hi). rewrite Ek in E0. injection E0 as <-. rewrite Eids in Hi.
    apply in_map_iff in Hi. destruct Hi as (x & Ex & Hx).
    assert (Hx' : In (pre np x) (rows f)).
    { assert (Hf : In (pre np x) (filter (fun r => ppre np (fst r)) (rows f))).
      { rewrite F, in_app_iff. right. apply in_map. auto. }
      apply filter_In in Hf. tauto. }
    assert (E := rows_id_inj f _ _ _ _ WF Hx' Hp Ex). unfold pre in E. injection E as E _. rewrite <- E.
    rewrite ppre_app, andb_true_r. apply Nat.ltb_lt. rewrite app_length.
    assert (Hz := k_len _ _ (k_At_pwf_l _ _ _ _ _ _ HA W) Hx). lia.
Qed.

(** Dropping the moved node leaves the place of the others. *)
Lemma drop_split wh n L1 L2 : ins_split wh L1 L2 -> place_is_self n wh = false ->
  (forall g x, wh = PSorted g -> In x L2 -> nid x = n -> g x = true -> forall y, g y = true) ->
  ins_split wh (drop n L1) (drop n L2).
Proof.
  destruct wh as [| |s|s|g]; cbn [ins_split place_is_self]; intros H N G.
  - subst. auto.
  - subst. auto.
  - apply Nat.eqb_neq in N. destruct H as (H & a & L & -> & E). split.
    + intros x Hx. apply drop_in in Hx. apply H. tauto.
    + exists a, (drop n L). split; auto. unfold drop. cbn [filter]. rewrite (proj2 (Nat.eqb_neq _ _)) by congruence. auto.
  - apply Nat.eqb_neq in N. destruct H as (L & a & -> & E & H). exists (drop n L), a. split; [|split; auto].
    + rewrite drop_app. f_equal. unfold drop. cbn [filter]. rewrite (proj2 (Nat.eqb_neq _ _)) by congruence. auto.
    + intros x Hx. apply drop_in in Hx. apply H. tauto.
  - destruct H as [H1 H2]. split.
    + intros x Hx. apply drop_in in Hx. apply H1. tauto.
    + intros a L E. destruct L2 as [|b L2]; [discriminate|]. assert (Hb := H2 b L2 eq_refl).
      unfold drop in E. cbn [filter] in E. destruct (Nat.eqb_spec (nid b) n) as [En|Nn]; cbn [negb] in E.
      * apply (G g b eq_refl (or_introl eq_refl) En Hb).
      * injection E as <- _. auto.
Qed.

Lemma sorted_self o d : sorted_after o d d = true -> forall e, sorted_after o d e = true.
Proof.
  intros H e. rewrite sorted_after_lex in *. apply orb_true_iff in H. destruct H as [H|H]; [rewrite H; auto|].
  rewrite (lexlt_asym _ _ _ H) in H. discriminate.
Qed.

Lemma split_unique (lt : lpath -> bool) (gt : lpath -> bool) : (forall p, lt p = true -> gt p = true -> False) ->
  forall L1 L2 M1 M2 : list (lpath * node), L1 ++ L2 = M1 ++ M2 ->
  (forall x, In x L1 -> lt (fst x) = true) -> (forall x, In x L2 -> gt (fst x) = true) ->
  (forall x, In x M1 -> lt (fst x) = true) -> (forall x, In x M2 -> gt (fst x) = true) -> L1 = M1 /\ L2 = M2.
Proof.
  intros Ex. induction L1 as [|a L1 IH]; intros L2 [|b M1] M2 E A1 A2 B1 B2; cbn in E; auto.
  - subst L2. exfalso. apply (Ex (fst b)); [apply B1|apply A2]; cbn; auto.
  - subst M2. exfalso. apply (Ex (fst a)); [apply A1|apply B2]; cbn; auto.
  - injection E as -> E. destruct (IH L2 M1 M2 E) as [-> ->]; auto; intros x Hx; [apply A1|apply B1]; cbn; auto.
Qed.

Section Move.
Variable cfg : lt_cfg.
Hypothesis max2 : 2 <= label_max cfg.
Notation lay := (lay cfg).
Notation kvalid := (kvalid cfg).
Notation found := (found cfg).
Notation long_label := (long_label cfg).
Notation stores := (stores cfg).

(** *** The statements that rename the branch *)
Definition renamed (old np : lpath) (r : ltrow) : bool := ppre old (l_path r) && (length old <? length (l_path r)).

Lemma rename_fail t old np an : fits_ltree cfg np = false ->
  (do t1 <- update_path cfg t (renamed old np) (fun q => np ++ skipn (length old) q);
   save_row cfg t1 (mkrow (np, an))) = Err DataError.
Proof.
  intros F. unfold update_path. destruct (forallb _ t); cbn [bind]; auto. unfold save_row. cbn [l_path mkrow fst]. rewrite F. auto.
Qed.

Lemma rename_rows t f old an np : lay t f -> wf_ids (kerase f) -> In (old, an) (rows f) ->
  (forall r, In r (rows f) -> ppre old (fst r) = true -> fits_ltree cfg (np ++ skipn (length old) (fst r)) = true) ->
  exists t1 t2, update_path cfg t (renamed old np) (fun q => np ++ skipn (length old) q) = Ok t1 /\
    save_row cfg t1 (mkrow (np, an)) = Ok t2 /\
    Permutation t2 (map mkrow (map (ren lblt old np) (rows f))).
Proof.
  intros L WF Hn Fit. set (g := fun q => np ++ skipn (length old) q).
  assert (Eu : update_path cfg t (renamed old np) g = Ok (map (fun r => if renamed old np r then mkLT (l_pk r) (g (l_path r)) (l_data r) else r) t)).
  { unfold update_path. replace (forallb _ t) with true; auto. symmetry. apply forallb_forall. intros r Hr.
    destruct (lay_in cfg _ _ _ L Hr) as (x & Hx & ->). unfold renamed. cbn [l_path mkrow].
    destruct (ppre old (fst x)) eqn:E; [|auto]. cbn [andb]. unfold g. rewrite Fit by auto. apply orb_true_r. }
  eexists. eexists. split; [exact Eu|]. split.
  - unfold save_row. cbn [l_path mkrow fst l_pk snd].
    assert (F0 := Fit _ Hn (proj2 (ppre_iff _ _) (ex_intro _ [] (eq_sym (app_nil_r _))))). cbn [fst] in F0.
    rewrite skipn_all, app_nil_r in F0. rewrite F0. cbn [negb].
    replace (existsb _ _) with true; [reflexivity|]. symmetry. apply existsb_exists.
    assert (Hr := lay_in_rev cfg _ _ _ L Hn).
    eexists. split; [apply in_map; exact Hr|]. destruct (renamed old np (mkrow (old, an))); cbn; apply Nat.eqb_refl.
  - rewrite map_map. destruct L as (W & V & P). rewrite P, !map_map.
    replace (map (fun x => mkrow (ren lblt old np x)) (rows f)) with
      (map (fun x => if l_pk (if renamed old np (mkrow x) then mkLT (l_pk (mkrow x)) (g (l_path (mkrow x))) (l_data (mkrow x)) else mkrow x) =? nid an
                     then mkrow (np, an)
                     else if renamed old np (mkrow x) then mkLT (l_pk (mkrow x)) (g (l_path (mkrow x))) (l_data (mkrow x)) else mkrow x) (rows f));
      [reflexivity|].
    apply map_ext_in. intros [p a] Hx. unfold renamed, ren. cbn [mkrow l_path l_pk l_data fst snd].
    assert (PB : prefixb lblt old p = ppre old p) by reflexivity. rewrite PB.
    destruct (Nat.eqb_spec (nid a) (nid an)) as [E|E].
    + assert (Ei := rows_id_inj f _ _ _ _ WF Hx Hn E). injection Ei as -> ->.
      replace (ppre old old) with true by (symmetry; apply ppre_iff; exists []; rewrite app_nil_r; auto).
      rewrite Nat.ltb_irrefl. cbn [andb l_pk]. rewrite Nat.eqb_refl, skipn_all, app_nil_r. auto.
    + destruct (ppre old p) eqn:Ep; cbn [andb].
      * destruct (Nat.ltb_spec (length old) (length p)) as [Hl|Hl]; cbn [l_pk].
        -- rewrite (proj2 (Nat.eqb_neq _ _)) by auto. reflexivity.
        -- exfalso. apply E. assert (old = p) by (apply prefix_same; auto). subst p.
           f_equal. apply (k_inj f old a an W Hx Hn).
      * rewrite (proj2 (Nat.eqb_neq _ _)) by auto. reflexivity.
Qed.

Lemma found_at t f q pa l N1 N2 calm t1 lab f1 k1 k2 : pold pa = pnew pa ->
  found t f q pa l N1 N2 calm t1 lab f1 k1 k2 -> At q pa (fapp k1 k2) (fapp k1 k2) f1 f1.
Proof.
  intros Ep Fd. destruct Fd as [Ha _ _ _ _ _ _].
  destruct (@At_chain _ _ _ _ _ _ _ _ Ha pa (fapp k1 k2)) as (f2 & A2 & _); [auto|].
  assert (f1 = f2) by (eapply At_same; eauto). subst f2. auto.
Qed.

(** *** The tree after the renaming *)
Lemma rename_forest t f q pa l N1 N2 calm t1 lab f1 k1 k2 np an : pold pa = pnew pa -> lay t f -> wf_ids (kerase f) -> At q pa l l f f ->
  found t f q pa l N1 N2 calm t1 lab f1 k1 k2 -> In (np, an) (rows f1) -> (pa <> None -> ppre np q = false) ->
  length lab <= label_max cfg ->
  exists f2 M1 M2, Permutation (map (ren lblt np (q ++ [lab])) (rows f1)) (rows f2) /\ kpwf f2 /\ kvalid f2 /\ wf_ids (kerase f2) /\
    (forall r, In r (rows f1) -> ppre np (fst r) = true -> fits_ltree cfg ((q ++ [lab]) ++ skipn (length np) (fst r)) = true) /\
    M1 = drop (nid an) (nodes k1) /\ M2 = drop (nid an) (nodes k2) /\
    forall wh, ins_split wh M1 M2 ->
      kerase f2 = at_kids (up_of pa) (ins wh (subtree (nid an) (kerase f1))) (remove (nid an) (kerase f1)).
Proof.
  intros Ep L WF H Fd Hn Np Ll.
  destruct (found_same cfg _ _ _ _ _ _ _ _ _ _ _ _ _ Ep WF Fd) as (W1 & Sk & PI & Kl & Kk & Cl).
  assert (A1 := found_at _ _ _ _ _ _ _ _ _ _ _ _ _ Ep Fd).
  destruct Fd as [Ha L1 Hp Hb [Hl1 Hl2] Hlen Hc].
  assert (Wf1 : kpwf f1) by apply L1. assert (Wl := k_At_pwf_l _ _ _ _ _ _ A1 Wf1).
  assert (Wl' := Wl). apply pwf_app in Wl'. destruct Wl' as (Wk1 & Wk2 & Wk3).
  destruct (between_paths _ _ _ Wk1 Wk2 Hb) as [B1 B2].
  assert (Nin : ~ In [lab] (map fst (roots (fapp k1 k2)))).
  { rewrite roots_fapp, map_app, in_app_iff. intros [X|X]; apply in_map_iff in X; destruct X as (x & E & Hx).
    - specialize (B1 _ Hx). rewrite E in B1. rewrite (@llt_irr _ lblt lblt_irr) in B1. discriminate.
    - specialize (B2 _ Hx). rewrite E in B2. rewrite (@llt_irr _ lblt lblt_irr) in B2. discriminate. }
  destruct (@move_general _ lblt 1 _ lblt_irr lblt_tr lblt_tot w1 idn f1 np an q pa (fapp k1 k2) [lab] Wf1 Hn A1 Ep Np eq_refl Nin)
    as (qn & sn & pan & x & c & y & f0 & m1 & m2 & f2 & Enp & Lsn & Epn & H1 & H2 & W0 & W2 & Er & R1 & R2).
  assert (Vf1 : kvalid f1) by apply L1.
  assert (Vl := kvalid_At_l cfg _ _ _ _ _ _ H1 Vf1). apply kvalid_fapp in Vl. destruct Vl as [Vx Vy].
  apply kvalid_cons in Vy. destruct Vy as (Vs & Vc & Vy).
  assert (V0 : kvalid f0) by (apply (kvalid_At cfg _ _ _ _ _ _ H1 Vf1); apply kvalid_fapp; auto).
  assert (Vm := kvalid_At_l cfg _ _ _ _ _ _ H2 V0). apply kvalid_fapp in Vm. destruct Vm as [Vm1 Vm2].
  assert (V2 : kvalid f2).
  { apply (kvalid_At cfg _ _ _ _ _ _ H2 V0). apply kvalid_fapp. split; auto. apply kvalid_cons. split; [|auto].
    constructor; [split; auto|constructor]. }
  assert (PR : Permutation (map (ren lblt np (q ++ [lab])) (rows f1)) (rows f2)).
  { rewrite Enp. apply (@ren_rows _ lblt 1 _ lblt_irr lblt_tr lblt_tot w1 _ _ _ _ _ _ _ _ _ _ _ _ _ _ _ H1 Epn H2 Ep Wf1). }
  assert (WF2 : wf_ids (kerase f2)).
  { unfold wf_ids. rewrite kerase_ids. rewrite <- (Permutation_map (fun r => nid (snd r)) PR). rewrite map_map.
    erewrite map_ext; [rewrite <- kerase_ids; exact W1|]. intros r. unfold ren. destruct (prefixb lblt np (fst r)); auto. }
  (* the two parts of the list *)
  rewrite !roots_fapp, filter_app in Er.
  destruct (split_unique (fun p => llt lblt p [lab]) (fun p => llt lblt [lab] p)) with
    (L1 := roots m1) (L2 := roots m2)
    (M1 := filter (fun r => negb (leq lblt (q ++ fst r) np)) (roots k1)) (M2 := filter (fun r => negb (leq lblt (q ++ fst r) np)) (roots k2))
    as [E1 E2]; auto.
  { intros p Hp1 Hp2. rewrite (@llt_asym _ lblt lblt_irr lblt_tr lblt_tot _ _ Hp1) in Hp2. discriminate. }
  { intros z Hz. apply filter_In in Hz. apply B1. tauto. }
  { intros z Hz. apply filter_In in Hz. apply B2. tauto. }
  assert (Dr : forall k, incl (roots k) (roots (fapp k1 k2)) ->
    map snd (filter (fun r => negb (leq lblt (q ++ fst r) np)) (roots k)) = drop (nid an) (nodes k)).
  { intros k Hk. unfold nodes, drop. rewrite filter_map. f_equal. apply filter_ext_In. intros [s b] Hs. cbn [fst snd]. f_equal.
    assert (Hr := k_root_in _ _ _ _ _ _ _ _ A1 (Hk _ Hs)).
    destruct (Nat.eqb_spec (nid b) (nid an)) as [E|E].
    - assert (Ei := rows_id_inj f1 _ _ _ _ W1 Hr Hn E). injection Ei as -> _. apply (@leq_refl _ lblt lblt_irr lblt_tot).
    - apply (@leq_false _ lblt lblt_irr lblt_tot). intros Ei. apply E. rewrite Ei in Hr. f_equal. apply (k_inj f1 np b an Wf1 Hr Hn). }
  exists f2, (drop (nid an) (nodes k1)), (drop (nid an) (nodes k2)).
  split; auto. split; auto. split; auto. split; auto. split.
  { intros r Hr Hpre. apply fits_valid. apply Forall_app. split; [apply Forall_app; split|].
    - eapply Forall_impl; [|apply (q_valid cfg _ _ _ _ _ _ _ L H)]. intros s V. apply V.
    - constructor; auto.
    - assert (Vr := kvalid_path cfg _ _ Vf1 Hr). apply ppre_iff in Hpre. destruct Hpre as (z & Ez). rewrite Ez in Vr |- *.
      rewrite skipn_app, skipn_all, Nat.sub_diag. cbn [app skipn]. apply Forall_app in Vr. destruct Vr as [_ Vr].
      eapply Forall_impl; [|exact Vr]. intros s V. apply V. }
  split; auto. split; auto. intros wh Hw.
  apply (@move_spec _ _ idn qn pan x sn an c y f1 f0 q pa m1 [lab] m2 f2 wh (up_of pa) H1 (pid _ Epn) H2 (pid _ Ep) W1 eq_refl).
  change (ins_split wh (map snd (roots m1)) (map snd (roots m2))). rewrite E1, E2, !Dr; auto.
  - intros z Hz. rewrite roots_fapp, in_app_iff. auto.
  - intros z Hz. rewrite roots_fapp, in_app_iff. auto.
Qed.

(** *** The call *)

(** What a move does: [S] is the intended forest. *)
Definition moves (t : lt_table) (q : lpath) (n : nat) (S : forest node) (calm : Prop) (out : res (lt_db * ltrow)) : Prop :=
  (exists db' r F', out = Ok (db', r) /\ In r (lt_rows db') /\ l_pk r = n /\
     stores (lt_rows db') F' /\ same_kids S F' /\ (calm -> F' = S)) \/
  (out = Err DataError /\ long_label t) \/
  (out = Err ValueError /\ letters_used (labels_below t q)).

(** Renaming a branch after a path was found for it. *)
Lemma move_rest db f q pa l n1 n2 calm db1 (mv : bool) lab f1 k1 k2 np an tn P gt wh :
  lay (lt_rows db) f -> wf_ids (kerase f) -> At q pa l l f f -> pold pa = pnew pa ->
  found (lt_rows db) f q pa l (nodes n1) (nodes n2) calm (lt_rows db1) lab f1 k1 k2 ->
  (mv = false -> db1 = db /\ f1 = f) -> l = fapp n1 n2 ->
  In (np, an) (rows f) -> In tn (ids (kerase f)) -> ~ inside (kerase f) (nid an) tn P ->
  (if is_child_pos P then up_of pa = Some tn else parent_of tn (kerase f) = Some (up_of pa)) ->
  wh = sib_place P tn gt -> ins_split wh (nodes n1) (nodes n2) ->
  (forall x, gt x = sorted_after (lt_order cfg) (ndata an) (ndata x)) ->
  moves (lt_rows db) q (nid an) (sp_move (nid an) tn P gt (kerase f)) calm
    (do node <- (if mv then get_by_pk (lt_rows db1) (nid an) else Ok (mkrow (np, an)));
     do t1 <- update_path cfg (lt_rows db1) (renamed (l_path node) (q ++ [lab])) (fun p => (q ++ [lab]) ++ skipn (length (l_path node)) p);
     do t2 <- save_row cfg t1 (mkLT (l_pk node) (q ++ [lab]) (l_data node));
     do db2 <- commit (mkLTDB t2 (lt_sig db1 ++ [Moved (l_path node) (q ++ [lab])]));
     Ok (db2, mkLT (l_pk node) (q ++ [lab]) (l_data node))).
Proof.
  intros L WF H Ep Fd M El Hn Ht Hi Hup Ewh Hw G.
  destruct (found_same cfg _ _ _ _ _ _ _ _ _ _ _ _ _ Ep WF Fd) as (W1 & Sk & PI & Kl & Kk & Cl).
  assert (A1 := found_at _ _ _ _ _ _ _ _ _ _ _ _ _ Ep Fd).
  assert (L1 : lay (lt_rows db1) f1) by apply Fd.
  assert (Wf1 : kpwf f1) by apply L1.
  (* the row of the node after the shift *)
  assert (exists np1, In (np1, an) (rows f1) /\
    (if mv then get_by_pk (lt_rows db1) (nid an) else Ok (mkrow (np, an))) = Ok (mkrow (np1, an))) as (np1 & Hn1 & En1).
  { destruct mv.
    - assert (Ha : In an (preorder (kerase f1))).
      { apply (same_node (kerase f)); auto. unfold kerase, erase. rewrite preorder_fmap. apply in_map_iff.
        assert (X := in_map snd _ _ Hn). rewrite rows_snd in X. apply in_map_iff in X. destruct X as (y & Ey & Hy).
        exists y. split; auto. }
      assert (X : In an (map snd (rows f1))).
      { rewrite rows_snd. unfold kerase, erase in Ha. rewrite preorder_fmap in Ha. exact Ha. }
      apply in_map_iff in X. destruct X as ([np1 b] & Eb & Hb). cbn in Eb. subst b. exists np1. split; auto.
      apply (get_by_pk_lay cfg _ f1 (mkrow (np1, an)) L1 W1). apply (lay_in_rev cfg _ _ _ L1 Hb).
    - destruct (M eq_refl) as [-> ->]. eauto. }
  rewrite En1. cbn [bind l_path l_pk l_data mkrow fst snd].
  (* the target is not below the node *)
  assert (Ht1 : In tn (ids (kerase f1))) by (rewrite <- PI; auto).
  assert (Hi1 : ~ inside (kerase f1) (nid an) tn P).
  { intros [D|D]; apply Hi; [left|right; auto]. apply (same_descends (kerase f1) (kerase f)); auto using same_sym. }
  assert (Hup1 : if is_child_pos P then up_of pa = Some tn else parent_of tn (kerase f1) = Some (up_of pa)).
  { destruct (is_child_pos P); auto. rewrite <- (same_parent (kerase f) (kerase f1)); auto. }
  assert (Np1 : pa <> None -> ppre np1 q = false).
  { intros Npa. destruct pa as [[b b']|]; [|congruence]. cbn in Ep. injection Ep as <-.
    destruct (ppre np1 q) eqn:E; auto. exfalso. assert (Hb := k_At_in _ _ _ _ _ _ _ A1).
    destruct (Nat.ltb_spec (length np1) (length q)) as [Hl|Hl].
    - assert (D : descends (kerase f1) (nid an) (nid b)).
      { apply (desc_spec f1 np1 an q b Wf1 W1 Hn1 Hb). rewrite E, andb_true_r. apply Nat.ltb_lt. auto. }
      apply Hi1. left. destruct (is_child_pos P); cbn in Hup1; [injection Hup1 as <-; auto|].
      destruct D as (c & Ec & Hc). exists c. split; auto.
      destruct (kl_ex (kerase f1) tn W1 Ht1) as (up' & z & Hz & Ez & Eup). rewrite Hup1 in Eup. injection Eup as <-.
      destruct (kl_inv _ _ _ Hz) as (lz & Elz & Hlz & _). cbn [kids_of] in Elz.
      rewrite (children_sub _ _ _ _ W1 Ec Hc) in Elz. rewrite <- Ez.
      apply (kids_in (Some (nid b)) c lz); auto. apply roots_ids. apply in_map. auto.
    - assert (np1 = q) by (apply prefix_same; auto). subst np1.
      assert (an = b) by (apply (k_inj f1 q an b Wf1 Hn1 Hb)). subst b.
      destruct (is_child_pos P) eqn:Ecp; cbn in Hup1.
      + injection Hup1 as Hup1. apply Hi1. right. auto.
      + apply Hi1. left. destruct (kl_ex (kerase f1) tn W1 Ht1) as (up' & z & Hz & Ez & Eup). rewrite Hup1 in Eup. injection Eup as <-.
        destruct (kl_inv _ _ _ Hz) as (lz & Elz & Hlz & _). exists lz. split; auto. rewrite <- Ez. apply roots_ids, in_map. auto. }
  destruct (le_lt_dec (length lab) (label_max cfg)) as [Ll|Ll].
  2: { right. left. split.
       - assert (F : fits_ltree cfg (q ++ [lab]) = false).
         { destruct (fits_ltree cfg (q ++ [lab])) eqn:E; auto. apply fits_valid in E. apply Forall_app in E.
           destruct E as [_ E]. inversion E; subst. lia. }
         assert (RF := rename_fail (lt_rows db1) np1 (q ++ [lab]) an F). unfold mkrow in RF. cbn [fst snd] in RF.
         destruct (update_path cfg (lt_rows db1) _ _) as [t1|e]; cbn [bind] in RF |- *; [rewrite RF|]; cbn [bind]; congruence.
       - destruct Fd as [_ _ _ _ _ [Hlen|Hlen] _]; auto. lia. }
  destruct (rename_forest _ _ _ _ _ _ _ _ _ _ _ _ _ np1 an Ep L WF H Fd Hn1 Np1 Ll)
    as (f2 & M1 & M2 & PR & W2 & V2 & WF2 & Fit & EM1 & EM2 & Sp).
  destruct (rename_rows (lt_rows db1) f1 np1 an (q ++ [lab]) L1 W1 Hn1 Fit) as (t1 & t2 & U1 & U2 & PT).
  rewrite U1. cbn [bind]. unfold mkrow in U2. cbn [fst snd] in U2. rewrite U2. cbn [bind].
  assert (L2 : lay t2 f2) by (split; auto; split; auto; rewrite PT; apply Permutation_map; auto).
  rewrite (commit_lay cfg (mkLTDB t2 _) f2 L2). cbn [bind]. left.
  exists (mkLTDB t2 (lt_sig db1 ++ [Moved np1 (q ++ [lab])])), (mkLT (nid an) (q ++ [lab]) (ndata an)), (kerase f2).
  cbn [lt_rows]. split; auto. split.
  { apply (lay_in_rev cfg t2 f2 (q ++ [lab], an) L2). apply (Permutation_in _ PR). apply in_map_iff.
    exists (np1, an). split; auto. unfold ren. cbn [fst snd].
    replace (prefixb lblt np1 np1) with true by (symmetry; apply (proj2 (ppre_iff np1 np1)); exists []; rewrite app_nil_r; auto).
    rewrite skipn_all, app_nil_r. auto. }
  split; auto. split; [exists f2; auto|].
  (* the forest *)
  assert (NDk : NoDup (map nid (M1 ++ M2))).
  { assert (X := nodes_NoDup _ _ _ _ _ _ A1 Ep W1). rewrite nodes_fapp in X. subst M1 M2. rewrite <- drop_app.
    clear - X. induction (nodes k1 ++ nodes k2) as [|z Z IH]; [constructor|]. cbn in X. inversion X; subst. unfold drop. cbn [filter].
    destruct (negb (nid z =? nid an)); auto. cbn. constructor; auto. intros Y. apply H1. apply in_map_iff in Y. destruct Y as (v & Ev & Hv).
    apply drop_in in Hv. rewrite <- Ev. apply in_map. tauto. }
  destruct (some_sorted _ _ NDk) as (g' & Hg).
  assert (Hnf : In (nid an) (ids (kerase f))).
  { rewrite kerase_ids. apply in_map_iff. exists (np, an). auto. }
  split.
  - rewrite (Sp _ Hg).
    set (P' := if is_child_pos P then SortedChild else SortedSibling).
    assert (ES : at_kids (up_of pa) (ins (PSorted g') (subtree (nid an) (kerase f1))) (remove (nid an) (kerase f1)) =
       sp_move (nid an) tn P' g' (kerase f1)).
    { unfold sp_move, P'. destruct (is_child_pos P).
      - rewrite Hup1. reflexivity.
      - rewrite (resolve_sib SortedSibling tn g' (kerase f1) (up_of pa) Logic.I Hup1). reflexivity. }
    rewrite ES. apply same_move; auto. unfold P'. destruct (is_child_pos P); auto.
  - intros Hcalm. assert (E1 := Cl Hcalm). destruct Fd as [_ _ _ _ _ _ Fc]. destruct (Fc Hcalm) as (E0 & En1' & En2').
    assert (Eres : resolve tn P gt (kerase f) = (up_of pa, wh)).
    { subst wh. destruct (is_child_pos P) eqn:Ec.
      - rewrite Hup. destruct P; try discriminate; reflexivity.
      - apply resolve_sib; auto. destruct P; try discriminate; exact Logic.I. }
    unfold sp_move. rewrite Eres.
    destruct (place_is_self (nid an) wh) eqn:Es.
    + (* next to itself *)
      rewrite (Sp _ Hg), E1.
      assert (C := At_Ctx' _ _ _ _ _ _ H Ep). rewrite El, kerase_fapp in C.
      assert (Ec : exists x cc y, fapp (kerase n1) (kerase n2) = fapp x (Cons an cc y) /\ roots x = M1 /\ roots y = M2).
      { subst M1 M2. rewrite En1', En2'. assert (ND := nodes_NoDup _ _ _ _ _ _ H Ep WF). rewrite El, nodes_fapp, map_app in ND.
        apply NoDup_app_iff in ND. destruct ND as (ND1 & ND2 & ND3).
        assert (Same : forall z, In z (nodes n1 ++ nodes n2) -> nid z = nid an -> z = an).
        { intros z Hz Ez. apply (node_eq (kerase f)); auto.
          - apply (kl_pre (up_of pa)). rewrite (kl_some _ _ _ (Ctx_kids_of C WF)), roots_fapp, !kerase_roots. auto.
          - unfold kerase, erase. rewrite preorder_fmap. change (In an (map snd (preorder f))). rewrite <- rows_snd.
            apply (in_map snd _ _ Hn). }
        rewrite <- !kerase_roots in *.
        destruct wh as [| |s0|s0|g0]; try discriminate; cbn [place_is_self] in Es; apply Nat.eqb_eq in Es; subst s0; cbn [ins_split] in Hw.
        - destruct Hw as (H1 & b & L' & E2 & Eb).
          assert (b = an) by (apply Same; auto; rewrite E2, in_app_iff; cbn; auto). subst b.
          destruct (kerase n2) as [|b cc y] eqn:Ek2; [discriminate|]. cbn in E2. injection E2 as -> E2.
          exists (kerase n1), cc, y. split; auto. split.
          + rewrite drop_notin; auto. intros X. apply in_map_iff in X. destruct X as (z & Ez & Hz). apply (H1 z Hz Ez).
          + cbn [roots]. unfold drop. cbn [filter]. rewrite Nat.eqb_refl. cbn [negb]. fold (drop (nid an) (roots y)).
            rewrite drop_notin; auto. inversion ND2; auto.
        - destruct Hw as (L' & b & E2 & Eb & H1).
          assert (b = an) by (apply Same; auto; rewrite E2, !in_app_iff; cbn; auto). subst b.
          destruct (roots_snoc _ _ _ E2) as (x & cc & E3 & E4).
          exists x, cc, (kerase n2). split; [rewrite E3, fapp_assoc; reflexivity|]. split.
          + rewrite E2, E4, drop_app. rewrite (drop_notin _ L'). unfold drop. cbn [filter]. rewrite Nat.eqb_refl. cbn. rewrite app_nil_r. auto.
            intros X. apply in_map_iff in X. destruct X as (z & Ez & Hz). apply (H1 z Hz Ez).
          + rewrite drop_notin; auto. intros X. apply (ND3 (nid an)); auto. rewrite E2, map_app, in_app_iff. cbn; auto. }
      destruct Ec as (x & cc & y & Ex & Ex1 & Ex2). rewrite Ex in C.
      apply (Ctx_noop _ x an cc y); auto. rewrite Ex1, Ex2. auto.
    + rewrite <- E1. apply Sp. subst M1 M2. rewrite En1', En2'. apply drop_split; auto.
      intros g0 z Eg Hz Ez Hg0 y. subst wh.
      assert (g0 = gt) by (destruct P; cbn in Eg; congruence). subst g0.
      assert (z = an).
      { apply (node_eq (kerase f)); auto.
        - assert (C := At_Ctx' _ _ _ _ _ _ H Ep). apply (kl_pre (up_of pa)).
          rewrite (kl_some _ _ _ (Ctx_kids_of C WF)), El, kerase_fapp, roots_fapp, !kerase_roots, in_app_iff. auto.
        - unfold kerase, erase. rewrite preorder_fmap. change (In an (map snd (preorder f))). rewrite <- rows_snd.
          apply (in_map snd _ _ Hn). }
      subst z. rewrite G in *. apply sorted_self. auto.
Qed.

Theorem move_ok db F node target p P : stores (lt_rows db) F -> In node (lt_rows db) -> In target (lt_rows db) ->
  prepare_pos_move (is_sorted cfg) p = Ok P ->
  let q := if is_child_pos P then l_path target else parent_path (l_path target) in
  let gt := fun y => sorted_after (lt_order cfg) (l_data node) (ndata y) in
  (inside F (l_pk node) (l_pk target) P /\ move cfg db node target p = Err InvalidMoveToDescendant) \/
  (~ inside F (l_pk node) (l_pk target) P /\
   moves (lt_rows db) q (l_pk node) (sp_move (l_pk node) (l_pk target) P gt F) (calm_pos cfg (lt_rows db) target P (l_data node))
     (move cfg db node target p)).
Proof.
  intros St Hn Ht Epos q gt.
  destruct (at_sib cfg db F target St Ht) as (f & qt & st & pa & m1 & a & c & m2 & <- & L & WF & -> & Ep & H & Pa).
  destruct (lay_in cfg _ _ _ L Hn) as ([np an] & Hnr & ->).
  assert (Htr : In (qt ++ [st], a) (rows f)).
  { eapply k_root_in; eauto. rewrite roots_fapp, in_app_iff. cbn; auto. }
  assert (Wf : kpwf f) by apply L.
  unfold move. rewrite Epos. cbn [bind]. cbn [l_pk l_path l_data mkrow fst snd] in *.
  assert (CP : match P with FirstChild | LastChild | SortedChild => true | _ => false end = is_child_pos P) by (destruct P; reflexivity).
  rewrite CP. unfold is_descendant_of. cbn [l_path mkrow fst].
  assert (DS := desc_spec f np an (qt ++ [st]) a Wf WF Hnr Htr).
  destruct (is_child_pos P && (nid a =? nid an)) eqn:E1.
  { left. split; auto. apply andb_true_iff in E1. destruct E1 as [E1 E2]. apply Nat.eqb_eq in E2. right. auto. }
  destruct ((length np <? length (qt ++ [st])) && ppre np (qt ++ [st])) eqn:E2.
  { left. split; auto. left. apply DS. auto. }
  right. assert (Hi : ~ inside (kerase f) (nid an) (nid a) P).
  { intros [D|[D1 D2]]; [apply DS in D; congruence|]. rewrite D1, D2, Nat.eqb_refl in E1. discriminate. }
  split; auto.
  assert (Hta : In (nid a) (ids (kerase f))) by (rewrite kerase_ids; apply in_map_iff; exists (qt ++ [st], a); auto).
  unfold calm_pos. cbn [l_path mkrow fst]. fold q.
  destruct (is_child_pos P) eqn:Ecp; cbn [andb] in *.
  - destruct (@row_kids _ _ _ _ _ Htr) as [l Hl]. destruct (Hl a l) as [f' HA].
    assert (f = f') by (eapply At_same; eauto). subst f'. clear Hl.
    destruct (neighbours_child cfg (lt_rows db) f (qt ++ [st]) a l P (ndata an) gt L HA Ecp) as (n1 & n2 & Gp & Hw); [reflexivity|].
    destruct (neighbours cfg (lt_rows db) _ P (ndata an)) as [b e] eqn:Eba. cbn [fst snd].
    assert (LB := labels_below_lay cfg _ _ _ _ _ _ _ L HA).
    destruct (room cfg max2 db f q (Some (a, a)) l n1 n2 b e L WF HA eq_refl Gp) as [(db1 & lab & mv & f1 & k1 & k2 & E & Fd & Pk & M)|[[E Lg]|[E Lu]]];
      rewrite E; cbn [bind].
    + assert (MR := move_rest db f q (Some (a, a)) l n1 n2 _ db1 mv lab f1 k1 k2 np an (nid a) P gt (sib_place P (nid a) gt) L WF HA eq_refl Fd M (proj1 Gp) Hnr Hta Hi).
      rewrite Ecp in MR. specialize (MR eq_refl eq_refl (Hw _) (fun _ => eq_refl)).
      destruct MR as [(db' & r & F' & R1 & R2 & R3 & R4 & R5 & R6)|MR]; [left|right; exact MR].
      exists db', r, F'. split; [exact R1|]. split; auto. split; auto. split; auto. split; auto.
      intros Hc. apply R6. eapply calm_in; [intros z; symmetry; apply LB|exact Hc].
    + right. left. auto.
    + right. right. split; auto. eapply letters_in; [exact LB|auto].
  - assert (HP : is_sib_pos P) by (destruct P; try discriminate; exact Logic.I).
    destruct (neighbours_sib cfg (lt_rows db) f qt pa m1 st a c m2 P (ndata an) gt L WF H Ep HP) as (n1 & n2 & Gp & Hw); [reflexivity|].
    assert (Eq : q = qt) by (unfold q; rewrite parent_snoc; auto). rewrite Eq in *.
    destruct (neighbours cfg (lt_rows db) _ P (ndata an)) as [b e] eqn:Eba. cbn [fst snd].
    assert (LB := labels_below_lay cfg _ _ _ _ _ _ _ L H).
    destruct (room cfg max2 db f qt pa _ n1 n2 b e L WF H Ep Gp) as [(db1 & lab & mv & f1 & k1 & k2 & E & Fd & Pk & M)|[[E Lg]|[E Lu]]];
      rewrite E; cbn [bind].
    + assert (MR := move_rest db f qt pa _ n1 n2 _ db1 mv lab f1 k1 k2 np an (nid a) P gt (sib_place P (nid a) gt) L WF H Ep Fd M (proj1 Gp) Hnr Hta Hi).
      rewrite Ecp in MR. specialize (MR Pa eq_refl Hw (fun _ => eq_refl)).
      destruct MR as [(db' & r & F' & R1 & R2 & R3 & R4 & R5 & R6)|MR]; [left|right; exact MR].
      exists db', r, F'. split; [exact R1|]. split; auto. split; auto. split; auto. split; auto.
      intros Hc. apply R6. eapply calm_in; [intros z; symmetry; apply LB|exact Hc].
    + right. left. auto.
    + right. right. split; auto. eapply letters_in; [exact LB|auto].
Qed.

End Move.
