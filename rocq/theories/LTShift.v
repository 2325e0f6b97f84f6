(** Appending a letter to the labels of a range of siblings (_move_subtree_right) keeps the
    table a forest, with the siblings possibly in another order. *)
From Coq Require Import List Arith Lia Bool Permutation Sorted.
From Verif Require Import Prelude Forest SpecFacts PathTab PathMove CommonModel LTModel LTLabel LTInv.
Import ListNotations.

(** ** Permuting the trees of a list *)
Inductive tperm {A} : forest A -> forest A -> Prop :=
| tp_nil : tperm Nil Nil
| tp_skip a k r r' : tperm r r' -> tperm (Cons a k r) (Cons a k r')
| tp_swap a k b m r : tperm (Cons a k (Cons b m r)) (Cons b m (Cons a k r))
| tp_trans x y z : tperm x y -> tperm y z -> tperm x z.

Lemma tp_refl {A} (l : forest A) : tperm l l.
Proof. induction l; [constructor|apply tp_skip; auto]. Qed.
Lemma tp_roots {A} (l l' : forest A) : tperm l l' -> Permutation (roots l) (roots l').
Proof. induction 1; cbn; auto. - constructor. - etransitivity; eauto. Qed.
Lemma tp_preorder {A} (l l' : forest A) : tperm l l' -> Permutation (preorder l) (preorder l').
Proof.
  induction 1; cbn; auto.
  - constructor. apply Permutation_app_head. auto.
  - rewrite !app_comm_cons, !app_assoc. apply Permutation_app_tail. apply (Permutation_app_comm (a :: preorder k)).
  - etransitivity; eauto.
Qed.
Lemma tp_fmap {A B} (g : A -> B) (l l' : forest A) : tperm l l' -> tperm (fmap g l) (fmap g l').
Proof. induction 1; cbn; try (constructor; auto; fail). eapply tp_trans; eauto. Qed.
Lemma tp_rows (l l' : kf) : tperm l l' -> Permutation (rows l) (rows l').
Proof.
  induction 1; cbn [rows]; auto.
  - constructor. apply Permutation_app_head. auto.
  - rewrite !app_comm_cons, !app_assoc. apply Permutation_app_tail.
    apply (Permutation_app_comm (a :: map (pre (fst a)) (rows k))).
  - etransitivity; eauto.
Qed.

(** ** Sorting by label *)
Fixpoint fins (a : lpath * node) (k l : kf) : kf :=
  match l with
  | Nil => Cons a k Nil
  | Cons b m r => if plt (fst a) (fst b) then Cons a k l else Cons b m (fins a k r)
  end.
Fixpoint fsort (l : kf) : kf := match l with Nil => Nil | Cons a k r => fins a k (fsort r) end.

Fixpoint levelwf (l : kf) : Prop :=
  match l with Nil => True | Cons sa k r => length (fst sa) = 1 /\ kpwf k /\ levelwf r end.

Lemma pwf_level l : kpwf l -> levelwf l.
Proof. induction l as [|a k _ r IH]; cbn; auto. intros (H1 & H2 & H3 & _). auto. Qed.

Lemma fins_perm a k l : tperm (Cons a k l) (fins a k l).
Proof.
  induction l as [|b m _ r IH]; cbn; [apply tp_refl|]. destruct (plt (fst a) (fst b)); [apply tp_refl|].
  eapply tp_trans; [apply tp_swap|]. apply tp_skip. auto.
Qed.
Lemma fsort_perm l : tperm l (fsort l).
Proof.
  induction l as [|a k _ r IH]; cbn; [constructor|]. eapply tp_trans; [apply tp_skip, IH|apply fins_perm].
Qed.

Lemma fins_wf a k l : length (fst a) = 1 -> kpwf k -> kpwf l -> ~ In (fst a) (map fst (roots l)) -> kpwf (fins a k l).
Proof.
  intros La Wk. induction l as [|b m _ r IH]; cbn; intros W N.
  - repeat split; auto.
  - destruct W as (W1 & W2 & W3 & W4). destruct (plt (fst a) (fst b)) eqn:E.
    + cbn. repeat split; auto. constructor; auto. eapply Forall_impl; [|exact W4]. cbn. intros x Hx. eapply plt_tr; eauto.
    + cbn. repeat split; auto.
      * apply IH; auto.
      * apply Forall_forall. intros x Hx.
        apply (Permutation_in _ (Permutation_sym (tp_roots _ _ (fins_perm a k r)))) in Hx. cbn in Hx. destruct Hx as [<-|Hx].
        { destruct (llt lblt (fst b) (fst a)) eqn:E2; auto. exfalso. apply N. left. apply llt_total with lblt; eauto with lt. }
        { rewrite Forall_forall in W4. auto. }
Qed.

Lemma fsort_wf l : levelwf l -> NoDup (map fst (roots l)) -> kpwf (fsort l).
Proof.
  induction l as [|a k _ r IH]; cbn; [constructor|]. intros (H1 & H2 & H3) N. apply NoDup_cons_iff in N. destruct N as [N1 N2].
  apply fins_wf; auto. intros Hin. apply N1.
  eapply Permutation_in; [|exact Hin]. apply Permutation_map, Permutation_sym, tp_roots, fsort_perm.
Qed.

Lemma fsort_id l : kpwf l -> fsort l = l.
Proof.
  induction l as [|a k _ r IH]; cbn; auto. intros (H1 & H2 & H3 & H4). rewrite IH by auto.
  destruct r as [|b m r']; auto. cbn. inversion H4; subst. replace (plt (fst a) (fst b)) with true; auto.
Qed.

(** ** Appending the letter *)
Definition relab (sb : label) (p : lpath) : lpath :=
  match p with [] => [] | s :: x => (if lblt s sb then s else s ++ [chA]) :: x end.
Fixpoint fshift (sb : label) (l : kf) : kf :=
  match l with Nil => Nil | Cons a k r => Cons (relab sb (fst a), snd a) k (fshift sb r) end.

Lemma fshift_fapp sb l1 l2 : fshift sb (fapp l1 l2) = fapp (fshift sb l1) (fshift sb l2).
Proof. induction l1 as [|a k _ r IH]; cbn; congruence. Qed.
Lemma fshift_roots sb l : roots (fshift sb l) = map (fun a => (relab sb (fst a), snd a)) (roots l).
Proof. induction l as [|a k _ r IH]; cbn; congruence. Qed.
Lemma fshift_nodes sb l : nodes (fshift sb l) = nodes l.
Proof. unfold nodes. rewrite fshift_roots, map_map. auto. Qed.
Lemma fshift_erase sb l : kerase (fshift sb l) = kerase l.
Proof. unfold kerase, erase. induction l as [|a k _ r IH]; auto. cbn [fshift fmap snd]. f_equal. auto. Qed.
Lemma fshift_level sb l : levelwf l -> levelwf (fshift sb l).
Proof.
  induction l as [|a k _ r IH]; cbn; auto. intros (H1 & H2 & H3). split; auto. destruct (fst a) as [|? [|]]; cbn in *; auto.
Qed.
Lemma fshift_rows sb l : levelwf l -> rows (fshift sb l) = map (fun r => (relab sb (fst r), snd r)) (rows l).
Proof.
  induction l as [|a k _ r IH]; cbn [fshift rows levelwf map]; auto. intros (H1 & H2 & H3). f_equal.
  rewrite map_app, IH by auto. f_equal. rewrite map_map. apply map_ext. intros [p n]. unfold pre. cbn.
  destruct (fst a) as [|? [|]]; try discriminate. auto.
Qed.

Lemma snoc_lt s x : lblt s (s ++ [x]) = true.
Proof. apply lblt_ext. discriminate. Qed.

Lemma relab_inj sb s s' : relab sb [s] = relab sb [s'] -> s = s'.
Proof.
  cbn. intros H. injection H as H. destruct (lblt s sb) eqn:E, (lblt s' sb) eqn:E'; auto.
  - subst s. exfalso. rewrite (lblt_tr _ _ _ (snoc_lt s' chA) E) in E'. discriminate.
  - subst s'. exfalso. rewrite (lblt_tr _ _ _ (snoc_lt s chA) E') in E. discriminate.
  - apply app_inj_tail in H. tauto.
Qed.

Lemma fshift_NoDup sb l : levelwf l -> NoDup (map fst (roots l)) -> NoDup (map fst (roots (fshift sb l))).
Proof.
  rewrite fshift_roots, map_map. cbn [fst]. induction l as [|a k _ r IH]; cbn; auto. intros (H1 & H2 & H3) N.
  apply NoDup_cons_iff in N. destruct N as [N1 N2]. constructor; auto. intros Hin. apply N1.
  apply in_map_iff in Hin. destruct Hin as (b & E & Hb). apply in_map_iff. exists b. split; auto.
  assert (Lb : length (fst b) = 1).
  { clear - H3 Hb. induction r as [|c m _ r IH]; cbn in *; [tauto|]. destruct H3 as (L & _ & H3). destruct Hb as [<-|Hb]; auto. }
  destruct (fst a) as [|s [|]]; try discriminate. destruct (fst b) as [|s' [|]]; try discriminate.
  apply relab_inj in E. congruence.
Qed.

Lemma pwf_roots_NoDup l : kpwf l -> NoDup (map fst (roots l)).
Proof.
  induction l as [|a k _ r IH]; cbn; [constructor|]. intros (H1 & H2 & H3 & H4). constructor; auto. intros Hin.
  apply in_map_iff in Hin. destruct Hin as (b & E & Hb). rewrite Forall_forall in H4. specialize (H4 _ Hb). cbn in H4.
  rewrite E in H4. change (plt (fst a) (fst a) = true) in H4. rewrite plt_irr in H4. discriminate.
Qed.

(** No label of the list extends another one by a digit. *)
Definition no_digit_ext (L : list label) : Prop :=
  forall x y d z, In x L -> In y L -> y = x ++ d :: z -> 10 <= d.

Lemma lblt_snoc_mono x : forall y, lblt x y = true -> (forall d z, y = x ++ d :: z -> 10 <= d) ->
  lblt (x ++ [chA]) (y ++ [chA]) = true.
Proof.
  unfold lblt. induction x as [|c x IH]; intros [|d y]; cbn [app llt]; try discriminate.
  - intros _ H. specialize (H d y eq_refl). unfold chA. destruct (Nat.ltb_spec 10 d); cbn [orb]; auto.
    assert (d = 10) by lia. subst d. cbn. destruct y; auto.
  - destruct (c <? d) eqn:E1; cbn [orb]; auto. destruct (d <? c) eqn:E2; cbn [negb andb]; [discriminate|].
    intros H Hd. apply IH; auto. intros d' z ->. apply (Hd d' z). cbn. f_equal. symmetry. apply nlt_tot; auto.
Qed.

Lemma fshift_wf sb l : kpwf l -> no_digit_ext (labels l) -> kpwf (fshift sb l).
Proof.
  induction l as [|a k _ r IH]; cbn [fshift]; auto. intros W C. assert (W' := W). destruct W as (H1 & H2 & H3 & H4).
  cbn. assert (Ca : no_digit_ext (labels r)).
  { intros x y d z Hx Hy. apply C; cbn; auto. }
  repeat split; auto.
  - destruct (fst a) as [|? [|]]; auto.
  - apply IH; auto.
  - rewrite fshift_roots. apply Forall_forall. intros x Hx. apply in_map_iff in Hx. destruct Hx as (b & <- & Hb). cbn [fst].
    rewrite Forall_forall in H4. assert (O := H4 _ Hb).
    destruct (seg_one _ a W' (or_introl eq_refl)) as (s & Es). destruct (seg_one _ b H3 Hb) as (s' & Es').
    assert (Hls : In s (labels (Cons a k r))) by (cbn; left; rewrite Es; auto).
    assert (Hls' : In s' (labels (Cons a k r))).
    { right. apply in_map_iff. exists b. rewrite Es'. auto. }
    rewrite Es, Es' in *. change (plt [s] [s'] = true) in O. rewrite plt_one in O. change (plt (relab sb [s]) (relab sb [s']) = true). cbn [relab].
    rewrite plt_one. destruct (lblt s sb) eqn:E, (lblt s' sb) eqn:E'; auto.
    + eapply lblt_tr; [exact O|apply snoc_lt].
    + rewrite (lblt_tr _ _ _ O E') in E. discriminate.
    + apply lblt_snoc_mono; auto. intros d z Ez. apply (C s s' d z); auto.
Qed.

(** ** The statements on the table *)
Section Shift.
Variable cfg : lt_cfg.
Notation lay := (lay cfg).
Notation kvalid := (kvalid cfg).

Definition shifted (q : lpath) (sb : label) (r : ltrow) : bool :=
  ppre q (l_path r) && negb (plt (l_path r) (q ++ [sb])) && (length q <? length (l_path r)).
Definition shiftrow (q : lpath) (sb : label) (r : ltrow) : ltrow :=
  if shifted q sb r then mkLT (l_pk r) (append_A (length q + 1) (l_path r)) (l_data r) else r.

Lemma append_A_app (q : lpath) s x : append_A (length q + 1) (q ++ s :: x) = q ++ (s ++ [chA]) :: x.
Proof.
  unfold append_A. replace (length q + 1 - 1) with (length q) by lia.
  rewrite firstn_app, firstn_all, Nat.sub_diag. cbn [firstn]. rewrite app_nil_r.
  rewrite app_nth2, Nat.sub_diag by lia. cbn [nth].
  rewrite skipn_app, skipn_all2 by lia. replace (length q + 1 - length q) with 1 by lia. cbn. auto.
Qed.

Lemma append_A_len d p : 1 <= d <= length p -> length (append_A d p) = length p.
Proof.
  intros H. unfold append_A. rewrite !app_length, firstn_length, skipn_length. cbn. lia.
Qed.

Lemma update_path_cases t c g :
  (update_path cfg t c g = Ok (map (fun r => if c r then mkLT (l_pk r) (g (l_path r)) (l_data r) else r) t) /\
   forall r, In r t -> c r = true -> fits_ltree cfg (g (l_path r)) = true) \/
  (update_path cfg t c g = Err DataError /\ exists r, In r t /\ c r = true /\ fits_ltree cfg (g (l_path r)) = false).
Proof.
  unfold update_path. destruct (forallb _ t) eqn:E.
  - left. split; auto. rewrite forallb_forall in E. intros r Hr Hc. specialize (E r Hr). rewrite Hc in E. auto.
  - right. split; auto. assert (X : exists r, In r t /\ (negb (c r) || fits_ltree cfg (g (l_path r))) = false).
    { clear - E. induction t as [|r t IH]; [discriminate|]. cbn [forallb] in E. apply andb_false_iff in E. destruct E as [E|E].
      - exists r. cbn; auto.
      - destruct (IH E) as (r' & H & E'). exists r'. cbn; auto. }
    destruct X as (r & Hr & X). exists r. apply orb_false_iff in X. destruct X as [X1 X2]. apply negb_false_iff in X1. auto.
Qed.

Lemma shift_cases db q sb start : l_path start = q ++ [sb] ->
  (move_subtree_right cfg db start =
     Ok (mkLTDB (map (shiftrow q sb) (lt_rows db)) (lt_sig db ++ [MovedRight (q ++ [sb])])) /\
   forall r, In r (lt_rows db) -> shifted q sb r = true -> fits_ltree cfg (append_A (length q + 1) (l_path r)) = true) \/
  (move_subtree_right cfg db start = Err DataError /\
   exists r, In r (lt_rows db) /\ shifted q sb r = true /\ fits_ltree cfg (append_A (length q + 1) (l_path r)) = false).
Proof.
  intros Es. unfold move_subtree_right. rewrite Es, parent_snoc, app_length. cbn [length]. cbn zeta.
  set (cond := fun r => ppre q (l_path r) && negb (plt (l_path r) (q ++ [sb]))).
  set (d := length q + 1).
  change (fun r => ppre q (l_path r) && negb (plt (l_path r) (q ++ [sb])) && (length (l_path r) =? d)) with (fun r => cond r && (length (l_path r) =? d)).
  change (fun r => ppre q (l_path r) && negb (plt (l_path r) (q ++ [sb])) && (d <? length (l_path r))) with (fun r => cond r && (d <? length (l_path r))).
  assert (Sh : forall r, shifted q sb r = cond r && (length (l_path r) =? d) || cond r && (d <? length (l_path r))).
  { intros r. unfold shifted. fold (cond r). rewrite <- andb_orb_distrib_r. f_equal.
    unfold d. destruct (Nat.ltb_spec (length q) (length (l_path r))), (Nat.eqb_spec (length (l_path r)) (length q + 1)),
      (Nat.ltb_spec (length q + 1) (length (l_path r))); auto; lia. }
  destruct (update_path_cases (lt_rows db) (fun r => cond r && (length (l_path r) =? d)) (append_A d)) as [[-> F1]|[-> (r & Hr & Hc & Hf)]].
  2: { right. split; auto. exists r. rewrite Sh, Hc. auto. }
  cbn [bind]. set (t1 := map _ _).
  destruct (update_path_cases t1 (fun r => cond r && (d <? length (l_path r))) (append_A d)) as [[-> F2]|[-> (r & Hr & Hc & Hf)]]; cbn [bind].
  - left. split.
    + do 2 f_equal. unfold t1. rewrite map_map. apply map_ext. intros r. unfold shiftrow. rewrite Sh.
      destruct (cond r && (length (l_path r) =? d)) eqn:E; cbn [orb l_path l_pk l_data]; auto.
      apply andb_true_iff in E. destruct E as [_ E]. apply Nat.eqb_eq in E.
      rewrite append_A_len by (unfold d in *; lia). rewrite E, Nat.ltb_irrefl, andb_false_r. auto.
    + intros r Hr Hs. rewrite Sh in Hs. apply orb_true_iff in Hs. destruct Hs as [Hs|Hs]; [apply F1; auto|].
      apply F2; auto. unfold t1. apply in_map_iff. exists r. split; auto.
      replace (cond r && (length (l_path r) =? d)) with false; auto. symmetry. apply andb_true_iff in Hs. destruct Hs as [_ Hs].
      apply Nat.ltb_lt in Hs. apply andb_false_iff. right. apply Nat.eqb_neq. lia.
  - right. split; auto. unfold t1 in Hr. apply in_map_iff in Hr. destruct Hr as (r0 & E & Hr0).
    destruct (cond r0 && (length (l_path r0) =? d)) eqn:E0.
    + exfalso. subst r. cbn [l_path] in Hc. apply andb_true_iff in E0. destruct E0 as [_ E0]. apply Nat.eqb_eq in E0.
      rewrite append_A_len in Hc by (unfold d in *; lia). rewrite E0, Nat.ltb_irrefl, andb_false_r in Hc. discriminate.
    + subst r0. exists r. rewrite Sh, Hc, orb_true_r. auto.
Qed.

(** Below [q] the first label is the one that decides. *)
Lemma shifted_at q sb s x k d : shifted q sb (mkLT k (q ++ s :: x) d) = negb (lblt s sb).
Proof.
  unfold shifted. cbn [l_path]. rewrite ppre_app, plt_pre, app_length. cbn [length]. 
  replace (length q <? length q + S (length x)) with true by (symmetry; apply Nat.ltb_lt; lia).
  rewrite andb_true_r. cbn [andb]. f_equal. unfold plt. cbn [llt]. destruct x; cbn [llt]; rewrite andb_false_r, orb_false_r; auto.
Qed.

Lemma shiftrow_at q sb (x : lpath * node) : fst x <> [] ->
  shiftrow q sb (mkrow (pre q x)) = mkrow (pre q (relab sb (fst x), snd x)).
Proof.
  destruct x as [[|s p] n]; cbn [fst]; [congruence|]. intros _. unfold shiftrow, mkrow, pre. cbn [fst snd].
  rewrite shifted_at. cbn [l_path l_pk l_data relab]. rewrite append_A_app. destruct (lblt s sb); auto.
Qed.

Lemma shiftrow_pks q sb t : map l_pk (map (shiftrow q sb) t) = map l_pk t.
Proof. rewrite map_map. apply map_ext. intros r. unfold shiftrow. destruct (shifted _ _ _); auto. Qed.

(** The forest after the shift. *)
Lemma shift_lay t f q pa l sb : lay t f -> At q pa l l f f -> pold pa = pnew pa ->
  (forall r, In r t -> shifted q sb r = true -> fits_ltree cfg (append_A (length q + 1) (l_path r)) = true) ->
  exists f1, At q pa l (fsort (fshift sb l)) f f1 /\ lay (map (shiftrow q sb) t) f1.
Proof.
  intros L H Ep Fits. assert (W : kpwf f) by apply L. assert (V : kvalid f) by apply L.
  assert (Wl := k_At_pwf_l _ _ _ _ _ _ H W). assert (Vl := kvalid_At_l cfg _ _ _ _ _ _ H V).
  destruct (At_repl H pa (fsort (fshift sb l))) as (f1 & H1); auto. exists f1. split; auto.
  assert (W1 : kpwf (fsort (fshift sb l))).
  { apply fsort_wf; [apply fshift_level, pwf_level; auto|]. apply fshift_NoDup; [apply pwf_level; auto|apply pwf_roots_NoDup; auto]. }
  split; [|split].
  - eapply k_At_pwf; eauto.
  - eapply kvalid_At; eauto. unfold LTInv.kvalid.
    rewrite <- (tp_preorder _ _ (fsort_perm (fshift sb l))).
    assert (Hr : forall x, In x (roots l) -> In x (roots l)) by auto. revert Hr Wl Vl. generalize l at 1 3 4 5. intros m.
    induction m as [|a k _ r IH]; intros Hr Wm Vm; cbn [fshift preorder]; [constructor|].
    apply kvalid_cons in Vm. destruct Vm as (V1 & V2 & V3).
    destruct (seg_one _ a Wm (or_introl eq_refl)) as (s & Es). destruct Wm as (Wa & Wb & Wc & Wd).
    constructor; [|apply Forall_app; split; auto].
    + cbn [fst]. rewrite Es in *. cbn [relab]. constructor; [|constructor]. inversion V1 as [|? ? [Vn [Va Vm]] _]; subst.
      destruct (lblt s sb) eqn:E; [split; auto|]. split; [destruct s; discriminate|]. split.
      * apply Forall_app. split; auto. constructor; auto. unfold chA. lia.
      * assert (Hin : In (mkrow (q ++ [s], snd a)) t).
        { eapply lay_in_rev; eauto. eapply k_root_in; eauto. rewrite <- Es. destruct a; apply Hr; cbn; auto. }
        assert (X := Fits _ Hin). unfold mkrow in X. cbn [fst snd l_path] in X. rewrite shifted_at, E in X. specialize (X eq_refl).
        rewrite append_A_app in X. unfold fits_ltree in X. rewrite forallb_app in X. cbn [forallb] in X.
        apply andb_true_iff in X. destruct X as [_ X]. apply andb_true_iff in X. destruct X as [X _]. apply Nat.leb_le in X. auto.
    + apply IH; auto. intros x Hx. apply Hr. cbn; auto.
  - destruct (k_At_rows _ _ _ _ _ _ H1) as (R & P1 & P2 & HR1 & HR2).
    destruct L as (_ & _ & P). rewrite (Permutation_map (shiftrow q sb) P), map_map.
    rewrite (Permutation_map (fun x => shiftrow q sb (mkrow x)) P1), P2, <- (tp_rows _ _ (fsort_perm (fshift sb l))).
    rewrite fshift_rows by (apply pwf_level; auto). rewrite !map_app, !map_map.
    apply Permutation_app; [|apply Permutation_app].
    + rewrite <- Ep. destruct (pold pa) as [a|] eqn:Epa; cbn; auto. unfold shiftrow, shifted, mkrow. cbn [l_path fst].
      rewrite Nat.ltb_irrefl, andb_false_r. auto.
    + assert (E : map (fun x => shiftrow q sb (mkrow x)) R = map mkrow R); [|rewrite E; auto].
      apply map_ext_in. intros r Hr. unfold shiftrow, shifted. destruct pa as [aa|].
      * cbn [l_path mkrow]. rewrite (HR2 W) by (auto; discriminate). auto.
      * rewrite (HR1 W eq_refl) in Hr. destruct Hr.
    + assert (E : map (fun x => shiftrow q sb (mkrow (pre q x))) (rows l) = map (fun x => mkrow (pre q (relab sb (fst x), snd x))) (rows l)); [|rewrite E; auto].
      apply map_ext_in. intros r Hr. apply shiftrow_at. intros E. assert (X := k_len _ _ Wl Hr). rewrite E in X. cbn in X. lia.
Qed.

End Shift.
