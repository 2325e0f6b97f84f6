(** Renaming branches and shifting siblings to the right. *)
From Coq Require Import List Arith Lia Bool Permutation Sorted.
From Verif Require Import Prelude Forest NumConv SpecFacts PathTab PathMove CommonModel MPModel MPStep MPInv.
Import ListNotations.

Section Shift.
Variable cfg : mp_cfg.
Hypothesis radix2 : 2 <= radix cfg.
Hypothesis step1 : 1 <= steplen cfg.
Notation R := (radix cfg).
Notation w := (steplen cfg).
Notation mkrow := (mkrow cfg).
Notation kpwf := (kpwf cfg).
Notation kvalid := (kvalid cfg).
Notation lay := (lay cfg).
Notation seg := (seg cfg).
Notation maxstep := (maxstep cfg).

Lemma set_row_ren old new x : 
  set_row cfg old new (mkrow x) = mkrow (ren Nat.ltb old new x).
Proof.
  unfold set_row, ren, mkrow, MPInv.mkrow. simpl. unfold ppre.
  destruct (prefixb Nat.ltb old (fst x)) eqn:E; auto. simpl.
  apply ppre_iff in E. destruct E as [y Ey].
  destruct (Nat.eqb_spec (length old) (length new)) as [El|El]; auto.
  do 2 f_equal. rewrite app_length, skipn_length, Ey, app_length. lia.
Qed.

Lemma set_newpath_ok db f q pa l1 s a c l2 f1 q' pb m1 s' m2 f2 :
  lay (db_rows db) f ->
  At q pa (fapp l1 (Cons (s, a) c l2)) (fapp l1 l2) f f1 -> pold pa = pnew pa ->
  At q' pb (fapp m1 m2) (fapp m1 (Cons (s', a) c m2)) f1 f2 -> pold pb = pnew pb ->
  kpwf f2 -> vseg cfg s' ->
  Permutation (map (ren Nat.ltb (q ++ s) (q' ++ s')) (rows f)) (rows f2) /\
  exists db', set_newpath cfg db (q ++ s) (q' ++ s') = Ok db' /\ lay (db_rows db') f2 /\
    db_sig db' = db_sig db ++ [(q ++ s, q' ++ s')].
Proof.
  intros (W & V & P) H1 E1 H2 E2 W2 Vs.
  assert (Pr : Permutation (map (ren Nat.ltb (q ++ s) (q' ++ s')) (rows f)) (rows f2)).
  { eapply ren_rows; eauto using irr, ltb_tr', ltb_tot'. }
  split; auto.
  assert (V2 : kvalid f2).
  { assert (Vl := kvalid_At_l cfg _ _ _ _ _ _ H1 V). apply kvalid_fapp in Vl.
    destruct Vl as [Vl1 Vl2]. apply kvalid_cons in Vl2.
    assert (V1 : kvalid f1).
    { eapply kvalid_At; eauto. apply kvalid_fapp; tauto. }
    assert (Vm := kvalid_At_l cfg _ _ _ _ _ _ H2 V1). apply kvalid_fapp in Vm.
    eapply kvalid_At; eauto. apply kvalid_fapp. rewrite kvalid_cons. tauto. }
  assert (Ex : existsb (fun r => ppre (q ++ s) (m_path r)) (db_rows db) = true).
  { apply existsb_exists. exists (mkrow (q ++ s, a)). split.
    - apply lay_in_rev with (f := f); [split; [|split]; auto|]. eapply k_root_in; eauto.
      rewrite roots_fapp, in_app_iff. simpl. auto.
    - simpl. rewrite <- (app_nil_r (q ++ s)) at 2. apply ppre_app. }
  unfold set_newpath. rewrite Ex.
  assert (Pt : Permutation (map (set_row cfg (q ++ s) (q' ++ s')) (db_rows db)) (map mkrow (rows f2))).
  { rewrite (Permutation_map _ P), map_map.
    rewrite <- (Permutation_map mkrow Pr), map_map.
    erewrite map_ext; [reflexivity|]. intros x. apply set_row_ren. }
  destruct (peq (q ++ s) (q' ++ s')) eqn:Eq.
  - apply peq_iff in Eq. eexists. split; [reflexivity|]. simpl. split; auto.
    split; [|split]; auto. rewrite <- Pt. rewrite <- (map_id (db_rows db)) at 1.
    erewrite map_ext_in; [reflexivity|]. intros r Hr.
    destruct (lay_in cfg (db_rows db) f r) as (x & Hx & ->); [split; [|split]; auto|auto|].
    rewrite set_row_ren. f_equal. rewrite <- Eq. unfold ren.
    destruct (prefixb Nat.ltb (q ++ s) (fst x)) eqn:Ep; auto.
    apply ppre_iff in Ep. destruct Ep as [y Ey]. destruct x as [p b]. simpl in *. subst p.
    rewrite skipn_app, skipn_all, Nat.sub_diag. auto.
  - apply peq_false in Eq.
    replace (paths_clash cfg (q ++ s) (q' ++ s') (db_rows db)) with false.
    + eexists. split; [reflexivity|]. simpl. split; auto. split; [|split]; auto.
    + symmetry. unfold paths_clash. apply existsb_false. intros r Hr.
      destruct (ppre (q ++ s) (m_path r)) eqn:Ep; auto. simpl.
      apply existsb_false. intros r' Hr'. apply peq_false. intros E.
      destruct (lay_in cfg (db_rows db) f r') as (x & Hx & ->); [split; [|split]; auto|auto|].
      assert (F : prefixb Nat.ltb (q' ++ s') (fst x) = false).
      { eapply ren_fresh with (f := f); eauto using irr, ltb_tr', ltb_tot'. }
      simpl in E. unfold set_row in E. rewrite Ep in E. simpl in E.
      assert (T := ppre_app (q' ++ s') (skipn (length (q ++ s)) (m_path r))).
      unfold ppre in T. rewrite E in T. congruence.
Qed.

Lemma pcomp_id (pa : option (payload * payload)) : pold pa = pnew pa -> pcomp pa pa = pa.
Proof. destruct pa as [[u v]|]; simpl; auto. Qed.

(** No row below a free step of a sibling list. *)
Lemma no_prefix q pa l l' f f' s : At q pa l l' f f' -> kpwf f -> length s = w ->
  ~ In s (map fst (roots l)) -> forall x, In x (rows f) -> ppre (q ++ s) (fst x) = false.
Proof.
  intros H W L N x Hx. destruct (ppre (q ++ s) (fst x)) eqn:E; auto. exfalso.
  apply ppre_iff in E. destruct E as [y Ey]. destruct (k_At_len cfg step1 _ _ _ _ _ _ H W) as [n En].
  assert (Hi : In (q ++ s) (map fst (rows f))).
  { destruct x as [p b]. simpl in Ey.
    eapply (@ancestors_stored _ Nat.ltb w _) with (n := n) (a := b) (p := p) (x := y); eauto.
    rewrite app_length. lia. }
  apply in_map_iff in Hi. destruct Hi as [z [Ez Hz]].
  assert (F := k_children cfg step1 _ _ _ _ _ _ H W).
  assert (Hz' : In z (map (pre q) (roots l))).
  { rewrite <- F. apply filter_In. split; auto. rewrite Ez, ppre_app, app_length, L, Nat.eqb_refl. auto. }
  apply in_map_iff in Hz'. destruct Hz' as [u [Eu Hu]]. apply N.
  apply in_map_iff. exists u. split; auto. rewrite <- Eu in Ez. simpl in Ez.
  apply app_inv_head in Ez. auto.
Qed.

Lemma set_newpath_none db f old new : lay (db_rows db) f ->
  (forall x, In x (rows f) -> ppre old (fst x) = false) ->
  set_newpath cfg db old new = Ok db.
Proof.
  intros L N. unfold set_newpath.
  assert (Nt : forall r, In r (db_rows db) -> ppre old (m_path r) = false).
  { intros r Hr. destruct (lay_in cfg _ _ _ L Hr) as (x & Hx & ->). apply N; auto. }
  assert (Ex : existsb (fun r => ppre old (m_path r)) (db_rows db) = false)
    by (apply existsb_false; auto).
  rewrite Ex, app_nil_r.
  assert (Ed : mkDB (db_rows db) (db_sig db) = db) by (destruct db; auto).
  destruct (peq old new); [congruence|].
  replace (paths_clash cfg old new (db_rows db)) with false.
  - assert (E : map (set_row cfg old new) (db_rows db) = db_rows db).
    { rewrite <- (map_id (db_rows db)) at 2. apply map_ext_in. intros r Hr.
      unfold set_row. rewrite Nt; auto. }
    rewrite E. congruence.
  - symmetry. apply existsb_false. intros r Hr. rewrite Nt; auto.
Qed.

(** ** Sibling lists by step number; [None] marks a step that was vacated *)
Notation ent := (nat * option (payload * kf))%type.

Fixpoint embed (es : list ent) : kf :=
  match es with
  | [] => Nil
  | (v, Some (a, c)) :: es => Cons (seg v, a) c (embed es)
  | (v, None) :: es => embed es
  end.

Fixpoint ents (l : kf) : list ent :=
  match l with Nil => [] | Cons (s, a) c r => (undigits R s, Some (a, c)) :: ents r end.

Fixpoint incr (lo : nat) (es : list ent) : Prop :=
  match es with [] => True | (v, _) :: es => lo <= v /\ incr (S v) es end.

(** The shifting stops at the first sibling that Python finds behind the step before. *)
Definition stops (q : path) (k v : nat) : bool := py_lt cfg (q ++ seg k) (q ++ seg v).

Fixpoint shiftE (q : path) (k : nat) (es : list ent) : list ent :=
  match es with
  | [] => []
  | (v, x) :: r => if stops q k v then es else (v + 1, x) :: shiftE q (v + 1) r
  end.

Fixpoint takeS (q : path) (k : nat) (es : list ent) : list ent :=
  match es with
  | [] => []
  | (v, x) :: r => if stops q k v then [] else (v, x) :: takeS q (v + 1) r
  end.

Lemma stops_lt q k v : k <= v -> stops q k v = true -> k < v.
Proof.
  intros H E. destruct (Nat.eq_dec k v) as [<-|N]; [|lia].
  unfold stops in E. rewrite py_irr in E. discriminate.
Qed.

Definition bounded (es : list ent) : Prop := Forall (fun e => fst e < maxstep) es.

Lemma incr_le lo lo' es : lo' <= lo -> incr lo es -> incr lo' es.
Proof. destruct es as [|[v x] es]; simpl; auto. intros ? [? ?]. split; auto. lia. Qed.

Lemma incr_all lo es e : incr lo es -> In e es -> lo <= fst e.
Proof.
  revert lo. induction es as [|[v x] es IH]; simpl; [tauto|].
  intros lo [H1 H2] [<-|H]; simpl; auto. specialize (IH _ H2 H). lia.
Qed.

Lemma incr_app lo es1 es2 : incr lo (es1 ++ es2) <->
  incr lo es1 /\ incr lo es2 /\ (forall e1 e2, In e1 es1 -> In e2 es2 -> fst e1 < fst e2).
Proof.
  revert lo. induction es1 as [|[v x] es1 IH]; simpl; intros lo.
  - intuition.
  - rewrite IH. split.
    + intros (H1 & H2 & H3 & H4). repeat split; auto.
      * apply incr_le with (S v); auto; lia.
      * intros e1 e2 [<-|H] He; simpl; auto. apply (incr_all _ _ _ H3) in He. lia.
    + intros ((H1 & H2) & H3 & H4). repeat split; auto.
      destruct es2 as [|[u y] es2]; simpl in *; auto. destruct H3.
      split; auto. specialize (H4 (v, x) (u, y) (or_introl eq_refl) (or_introl eq_refl)).
      simpl in H4. lia.
Qed.

Lemma shiftE_incr q es : forall k, incr k es -> incr (S k) (shiftE q k es).
Proof.
  induction es as [|[v x] es IH]; simpl; auto. intros k [H1 H2].
  destruct (stops q k v) eqn:E; simpl.
  - split; auto. apply (stops_lt q); auto.
  - split; [lia|]. apply IH. rewrite Nat.add_1_r. auto.
Qed.

Lemma shiftE_bound q es : forall k e', In e' (shiftE q k es) ->
  exists e, In e es /\ snd e = snd e' /\ (fst e' = fst e \/ (fst e' = fst e + 1 /\ In e (takeS q k es))).
Proof.
  induction es as [|[v x] es IH]; simpl; [tauto|]. intros k e' H.
  destruct (stops q k v).
  - exists e'. auto.
  - destruct H as [<-|H].
    + exists (v, x). simpl. auto 6.
    + destruct (IH _ _ H) as (e & He1 & He2 & He3). exists e. simpl. intuition.
Qed.

Lemma takeS_incl q k es e : In e (takeS q k es) -> In e es.
Proof.
  revert k. induction es as [|[v x] es IH]; simpl; auto. intros k.
  destruct (stops q k v); simpl; [tauto|]. intros [<-|H]; eauto.
Qed.

Lemma embed_app es1 es2 : embed (es1 ++ es2) = fapp (embed es1) (embed es2).
Proof. induction es1 as [|[v [[a c]|]] es1 IH]; simpl; congruence. Qed.

Lemma embed_roots es x : In x (roots (embed es)) ->
  exists v a c, In (v, Some (a, c)) es /\ x = (seg v, a).
Proof.
  induction es as [|[v [[a c]|]] es IH]; simpl; [tauto| |].
  - intros [<-|H]; [eauto 7|]. destruct (IH H) as (v' & a' & c' & H1 & H2). eauto 7.
  - intros H. destruct (IH H) as (v' & a' & c' & H1 & H2). eauto 7.
Qed.

Lemma embed_roots_in es v a c : In (v, Some (a, c)) es -> In (seg v, a) (roots (embed es)).
Proof.
  induction es as [|[v' [[a' c']|]] es IH]; simpl; [tauto| |].
  - intros [H|H]; auto. injection H as -> -> ->. auto.
  - intros [H|H]; auto. discriminate.
Qed.

Lemma embed_ents l : kvalid l -> embed (ents l) = l.
Proof.
  induction l as [|[s a] c _ r IH]; simpl; auto. intros V. apply kvalid_cons in V.
  simpl in V. rewrite seg_undigits by tauto. rewrite IH by tauto. auto.
Qed.

Lemma ents_fapp l1 l2 : ents (fapp l1 l2) = ents l1 ++ ents l2.
Proof. induction l1 as [|[s a] c _ r IH]; simpl; auto. rewrite IH. auto. Qed.

Lemma ents_bounded l : kvalid l -> bounded (ents l).
Proof.
  induction l as [|[s a] c _ r IH]; simpl; intros V; [constructor|]. apply kvalid_cons in V.
  constructor; [|apply IH; tauto]. apply vseg_bound; tauto.
Qed.

Lemma ents_in l s a : In (s, a) (roots l) -> exists c, In (undigits R s, Some (a, c)) (ents l).
Proof.
  induction l as [|[s' a'] c _ r IH]; simpl; [tauto|]. intros [H|H].
  - injection H as -> ->. eauto.
  - destruct (IH H) as [c' Hc]. eauto.
Qed.

Lemma ents_roots l e : In e (ents l) -> exists s a c, e = (undigits R s, Some (a, c)) /\ In (s, a) (roots l).
Proof.
  induction l as [|[s' a'] c _ r IH]; simpl; [tauto|]. intros [<-|H].
  - exists s', a', c. auto.
  - destruct (IH H) as (s & a & c' & -> & Hs). exists s, a, c'. auto.
Qed.

Lemma ents_incr l lo : kvalid l -> kpwf l -> (forall x, In x (roots l) -> lo <= undigits R (fst x)) ->
  incr lo (ents l).
Proof.
  revert lo. induction l as [|[s a] c _ r IH]; simpl; intros lo V W H; auto.
  apply kvalid_cons in V. unfold MPInv.kpwf in W. simpl in W.
  destruct W as (W1 & W2 & W3 & W4). split; [apply (H (s, a)); auto|].
  apply IH; try tauto. intros x Hx. rewrite Forall_forall in W4. specialize (W4 _ Hx).
  change (llt Nat.ltb s (fst x)) with (plt s (fst x)) in W4.
  rewrite (plt_vseg cfg) in W4; try tauto.
  - apply Nat.ltb_lt in W4. lia.
  - eapply kvalid_roots; eauto; tauto.
Qed.

Lemma embed_pwf es : forall lo, incr lo es -> bounded es ->
  (forall v a c, In (v, Some (a, c)) es -> kpwf c) -> kpwf (embed es).
Proof.
  induction es as [|[v x] es IH]; intros lo I B K; [constructor|].
  destruct I as [I1 I2]. inversion B; subst. simpl in H1.
  assert (IHe : kpwf (embed es)) by (eapply IH; eauto; intros; eapply K; right; eauto).
  destruct x as [[a c]|]; simpl; auto. repeat split; simpl; auto.
  - apply seg_len; auto.
  - apply (K v a c). left; auto.
  - apply Forall_forall. intros y Hy. apply embed_roots in Hy.
    destruct Hy as (u & b & d & Hu & ->). simpl.
    change (plt (seg v) (seg u) = true). rewrite plt_seg; auto.
    + apply Nat.ltb_lt. apply (incr_all _ _ _ I2) in Hu. simpl in Hu. lia.
    + unfold bounded in H2. rewrite Forall_forall in H2. apply (H2 _ Hu).
Qed.

Lemma ents_kids l v a c : In (v, Some (a, c)) (ents l) -> kpwf l -> kpwf c.
Proof.
  induction l as [|[s' a'] c' _ r IH]; simpl; [tauto|]. unfold MPInv.kpwf in *. simpl.
  intros [H|H] (W1 & W2 & W3 & W4); [|auto]. injection H as _ _ ->. auto.
Qed.

Definition shiftable (q : path) (k : nat) (es : list ent) : bool :=
  forallb (fun e => fst e + 1 <? maxstep) (takeS q k es).

Definition epath (q : path) (e : ent) : path := q ++ seg (fst e).

Lemma collect_spec q es : forall k rs, 1 <= k -> k < maxstep -> incr k es -> bounded es ->
  map m_path rs = map (epath q) es ->
  if shiftable q k es
  then exists ms, collect_movesiblings cfg (q ++ seg k) rs = Ok ms /\
       map m_path ms = map (epath q) (takeS q k es)
  else collect_movesiblings cfg (q ++ seg k) rs = Err PathOverflow.
Proof.
  unfold shiftable. induction es as [|[v x] es IH]; intros k rs K1 K2 I B E.
  - destruct rs; [|discriminate]. simpl. eexists; split; reflexivity.
  - destruct rs as [|r rs]; [discriminate|]. simpl in E. injection E as Er E.
    destruct I as [I1 I2]. inversion B; subst. simpl in H1.
    unfold epath in Er. simpl in Er.
    cbn [collect_movesiblings takeS]. rewrite Er.
    change (py_lt cfg (q ++ seg k) (q ++ seg v)) with (stops q k v).
    destruct (stops q k v).
    + simpl. eexists; split; reflexivity.
    + simpl.
      rewrite inc_path_ok by (auto; apply vseg_seg; auto; lia). rewrite seg_val by auto.
      destruct (Nat.ltb_spec (v + 1) maxstep); simpl; auto.
      specialize (IH (v + 1) rs). rewrite Nat.add_1_r in *.
      specialize (IH ltac:(lia) H I2 H2 E).
      destruct (forallb (fun e => fst e + 1 <? maxstep) (takeS q (S v) es)).
      * destruct IH as (ms & -> & Em). simpl. eexists; split; [reflexivity|]. simpl.
        rewrite Em. unfold epath at 2. simpl. congruence.
      * rewrite IH. auto.
Qed.

(** How the remembered path of the moved node follows a renamed sibling. *)
Lemma shift_path_ren q v p (a : payload) : v + 1 < maxstep ->
  (shift_path (q ++ seg v) (q ++ seg (v + 1)) p, a)
  = ren Nat.ltb (q ++ seg v) (q ++ seg (v + 1)) (p, a).
Proof.
  intros H. unfold shift_path, ren. simpl. unfold ppre.
  destruct (prefixb Nat.ltb (q ++ seg v) p) eqn:E; auto.
  rewrite !app_length, !(seg_len cfg) by lia. auto.
Qed.

Lemma shift_path_sib q v s : v + 1 < maxstep -> length s = w ->
  exists s', shift_path (q ++ seg v) (q ++ seg (v + 1)) (q ++ s) = q ++ s' /\ length s' = w.
Proof.
  intros H L. unfold shift_path. destruct (ppre (q ++ seg v) (q ++ s)) eqn:E.
  - exists (seg (v + 1)). rewrite skipn_all2.
    + rewrite app_nil_r. split; auto. apply seg_len; auto.
    + rewrite !app_length, seg_len by auto. lia.
  - eauto.
Qed.

Lemma shift_path_pre q v p : v + 1 < maxstep -> ppre p q = false ->
  ppre (shift_path (q ++ seg v) (q ++ seg (v + 1)) p) q = false.
Proof.
  intros H L. unfold shift_path. destruct (ppre (q ++ seg v) p) eqn:E; auto.
  destruct (ppre ((q ++ seg (v + 1)) ++ _) q) eqn:E2; auto. exfalso.
  apply ppre_iff in E2. destruct E2 as [x Ex]. apply (f_equal (@length _)) in Ex.
  rewrite !app_length, seg_len in Ex by auto. lia.
Qed.

Definition op_follows (q : path) (f f' : kf) (op op' : option path) : Prop :=
  match op, op' with
  | None, None => True
  | Some p, Some p' =>
      (forall a, In (p, a) (rows f) -> In (p', a) (rows f')) /\
      (forall s, p = q ++ s -> length s = w -> exists s', p' = q ++ s' /\ length s' = w) /\
      (ppre p q = false -> ppre p' q = false)
  | _, _ => False
  end.

(** Signals only grow. *)
Lemma move_siblings_spec q pa z es : forall k m1 db f op tp ms rest,
  1 <= k -> k < maxstep ->
  lay (db_rows db) f -> At q pa (fapp m1 (fapp (embed es) z)) (fapp m1 (fapp (embed es) z)) f f ->
  pold pa = pnew pa ->
  incr k es -> bounded es -> shiftable q k es = true ->
  (forall x, In x (roots m1) -> plt (fst x) (seg k) = true) ->
  (forall x, In x (roots z) -> exists vz, fst x = seg vz /\ vz < maxstep /\
     forall e, In e es -> fst e + 1 < vz) ->
  map m_path ms = map (epath q) (takeS q k es) ->
  exists db' f' op' tp',
    move_siblings cfg db op tp (rev ms ++ rest) = move_siblings cfg db' op' tp' rest /\
    lay (db_rows db') f' /\
    At q pa (fapp m1 (fapp (embed es) z)) (fapp m1 (fapp (embed (shiftE q k es)) z)) f f' /\
    op_follows q f f' op op'.
Proof.
  induction es as [|[v x] es IH]; intros k m1 db f op tp ms rest K1 K2 L H Ep I B Sh M1 Z Em.
  - simpl in Em. destruct ms; [|discriminate]. simpl.
    exists db, f, op, tp. split; [auto|]. split; [auto|]. split; [auto|].
    destruct op; simpl; eauto.
  - destruct I as [I1 I2]. inversion B; subst. simpl in H2. cbn [takeS shiftE] in *.
    unfold shiftable in Sh. cbn [takeS] in Sh.
    destruct (stops q k v) eqn:Hkv.
    { destruct ms; [|discriminate]. simpl.
      exists db, f, op, tp. split; [auto|]. split; [auto|]. split; [auto|].
    destruct op; simpl; eauto. }
    assert (M1' : forall x, In x (roots m1) -> plt (fst x) (seg v) = true).
    { intros y Hy. specialize (M1 _ Hy). destruct (Nat.eq_dec k v) as [<-|Nv]; auto.
      eapply llt_trans; eauto using irr, ltb_tr', ltb_tot'.
      change (plt (seg k) (seg v) = true). rewrite plt_seg by auto. apply Nat.ltb_lt. lia. }
    assert (K1' : 1 <= v) by lia. clear k K1 K2 I1 Hkv M1.
    rename v into k, K1' into K1, H2 into K2, M1' into M1.
    simpl in Sh. apply andb_true_iff in Sh. destruct Sh as [Sh1 Sh2]. apply Nat.ltb_lt in Sh1.
    destruct ms as [|r0 ms]; [discriminate|]. simpl in Em. injection Em as Er Em.
    simpl rev. rewrite <- app_assoc. simpl app.
    set (mid := embed [(k, x)]).
    assert (Emid : forall tl, embed ((k, x) :: tl) = fapp mid (embed tl)).
    { intros tl. unfold mid. destruct x as [[a c]|]; reflexivity. }
    rewrite Emid in *. rewrite fapp_assoc in H. rewrite <- fapp_assoc in H.
    destruct (IH (k + 1) (fapp m1 mid) db f op tp ms (r0 :: rest))
      as (db1 & f1 & op1 & tp1 & E1 & L1 & H1' & F1); clear IH; auto; try lia.
    { rewrite Nat.add_1_r. auto. }
    { intros y Hy. rewrite roots_fapp, in_app_iff in Hy. destruct Hy as [Hy|Hy].
      - specialize (M1 _ Hy). eapply llt_trans; eauto using irr, ltb_tr', ltb_tot'.
        change (plt (seg k) (seg (k + 1)) = true). rewrite plt_seg by auto. apply Nat.ltb_lt. lia.
      - unfold mid in Hy. apply embed_roots in Hy. destruct Hy as (u & a & c & [Hu|[]] & ->).
        injection Hu as <- _. simpl.
        rewrite plt_seg by auto. apply Nat.ltb_lt. lia. }
    { intros y Hy. destruct (Z _ Hy) as (vz & ? & ? & Hz). exists vz. repeat split; auto.
      intros e He. apply Hz. simpl; auto. }
    rewrite E1. cbn [move_siblings]. rewrite Er. unfold epath. cbn [fst].
    assert (VsK : vseg cfg (seg k)) by (apply vseg_seg; auto).
    rewrite inc_path_ok by auto. rewrite seg_val by auto.
    rewrite (proj2 (Nat.ltb_lt _ _) Sh1). cbn [bind].
    set (tail := fapp (embed (shiftE q (k + 1) es)) z).
    assert (Tail : forall y, In y (roots tail) -> plt (seg (k + 1)) (fst y) = true).
    { intros y Hy. unfold tail in Hy. rewrite roots_fapp, in_app_iff in Hy. destruct Hy as [Hy|Hy].
      - apply embed_roots in Hy. destruct Hy as (u & a & c & Hu & ->). simpl.
        assert (I3 : incr (S (k + 1)) (shiftE q (k + 1) es)).
        { apply shiftE_incr. rewrite Nat.add_1_r. auto. }
        assert (Iu := incr_all _ _ _ I3 Hu). simpl in Iu.
        assert (Bu : u < maxstep).
        { destruct (shiftE_bound _ _ _ _ Hu) as ([v' y'] & He1 & He2 & [He3|[He3 He4]]); simpl in He3.
          - unfold bounded in H3. rewrite Forall_forall in H3. specialize (H3 _ He1). simpl in H3. lia.
          - rewrite forallb_forall in Sh2. specialize (Sh2 _ He4). apply Nat.ltb_lt in Sh2. simpl in Sh2. lia. }
        rewrite plt_seg by auto. apply Nat.ltb_lt. lia.
      - destruct (Z _ Hy) as (vz & -> & Bz & Hz). rewrite plt_seg by auto.
        apply Nat.ltb_lt. specialize (Hz (k, x) (or_introl eq_refl)). simpl in Hz. lia. }
    assert (W1 : kpwf f1) by (destruct L1; auto).
    assert (Elist : fapp (fapp m1 mid) tail = fapp m1 (fapp mid tail)) by (rewrite fapp_assoc; auto).
    fold tail in H1'. rewrite Elist in H1'.
    (* the list in f1 *)
    assert (Hf1 : At q pa (fapp m1 (fapp mid tail)) (fapp m1 (fapp mid tail)) f1 f1).
    { assert (Hs := At_id (At_sym H1')). destruct pa as [[u u']|]; simpl in *; auto.
      injection Ep as ->. auto. }
    destruct x as [[a c]|].
    + (* a stored sibling *)
      unfold mid in *. simpl in Hf1, H1'.
      assert (Wl : kpwf (fapp m1 (Cons (seg k, a) c tail))) by (eapply k_At_pwf_l; eauto).
      assert (Wm := Wl). apply pwf_mid in Wm.
      destruct (@At_chain _ _ _ _ _ _ _ _ H1' pa (fapp m1 tail) Ep) as (g & Hg & Hfg).
      rewrite pcomp_id in Hfg by auto.
      destruct (@At_chain _ _ _ _ _ _ _ _ Hfg pa (fapp m1 (Cons (seg (k + 1), a) c tail)) Ep) as (f2 & Hg2 & Hff2).
      rewrite pcomp_id in Hff2 by auto.
      assert (W2 : kpwf f2).
      { apply (k_At_pwf cfg _ _ _ _ _ _ Hg2).
        - apply (k_At_pwf cfg _ _ _ _ _ _ Hg); auto. apply Wm.
        - apply pwf_insert; auto using irr; try apply Wm.
          + apply seg_len; auto.
          + intros y Hy. change (plt (fst y) (seg (k + 1)) = true).
            specialize (M1 _ Hy). eapply llt_trans; eauto using irr, ltb_tr', ltb_tot'.
            change (plt (seg k) (seg (k + 1)) = true). rewrite plt_seg by auto. apply Nat.ltb_lt. lia. }
      destruct (set_newpath_ok db1 f1 q pa m1 (seg k) a c tail g q pa m1 (seg (k + 1)) tail f2)
        as (Pr & db2 & E2 & L2 & _); auto.
      { apply vseg_seg; auto; lia. }
      rewrite E2. cbn [bind].
      exists db2, f2, (option_map (shift_path (q ++ seg k) (q ++ seg (k + 1))) op1),
        (match op1 with Some _ => shift_path (q ++ seg k) (q ++ seg (k + 1)) tp1 | None => tp1 end).
      split; [destruct op1; reflexivity|]. split; [auto|].
      rewrite !fapp_assoc in *. split; [auto|].
      unfold op_follows in *. destruct op as [p|], op1 as [p1|]; simpl; auto.
      destruct F1 as (F1 & F2 & F3). split; [|split; [|auto using shift_path_pre]].
      * intros b Hb. apply F1 in Hb. rewrite shift_path_ren by auto.
        eapply Permutation_in; [apply Pr|]. apply in_map. auto.
      * intros s Es Ls. destruct (F2 s Es Ls) as (s' & -> & Ls'). apply shift_path_sib; auto.
    + (* a vacated step *)
      unfold mid in *. simpl in Hf1, H1'.
      assert (Np : forall y, In y (rows f1) -> ppre (q ++ seg k) (fst y) = false).
      { eapply no_prefix; eauto.
        - apply seg_len; auto.
        - rewrite roots_fapp, map_app, in_app_iff. intros [Hi|Hi].
          + apply in_map_iff in Hi. destruct Hi as (y & Ey & Hy). specialize (M1 _ Hy).
            rewrite Ey, plt_seg, Nat.ltb_irrefl in M1 by auto. discriminate.
          + apply in_map_iff in Hi. destruct Hi as (y & Ey & Hy). specialize (Tail _ Hy).
            rewrite Ey, plt_seg in Tail by auto. apply Nat.ltb_lt in Tail. lia. }
      rewrite (set_newpath_none db1 f1) by auto. cbn [bind].
      exists db1, f1, (option_map (shift_path (q ++ seg k) (q ++ seg (k + 1))) op1),
        (match op1 with Some _ => shift_path (q ++ seg k) (q ++ seg (k + 1)) tp1 | None => tp1 end).
      split; [destruct op1; reflexivity|]. split; [auto|].
      rewrite !fapp_assoc in *. split; [auto|].
      unfold op_follows in *. destruct op as [p|], op1 as [p1|]; simpl; auto.
      destruct F1 as (F1 & F2 & F3). split; [|split; [|auto using shift_path_pre]].
      * intros b Hb. apply F1 in Hb. rewrite shift_path_ren by auto.
        unfold ren. specialize (Np _ Hb). unfold ppre in Np. simpl in *. rewrite Np. auto.
      * intros s Es Ls. destruct (F2 s Es Ls) as (s' & -> & Ls'). apply shift_path_sib; auto.
Qed.

(** Shifting does not change the nodes, nor the counts. *)
Lemma shiftE_erase q es : forall k, kerase (embed (shiftE q k es)) = kerase (embed es).
Proof.
  induction es as [|[v x] es IH]; simpl; auto. intros k. destruct (stops q k v); auto.
  destruct x as [[a c]|]; simpl; auto. unfold kerase, erase in *. simpl. f_equal. auto.
Qed.

Lemma shiftE_nc q es : forall k, nc_ok (embed es) -> nc_ok (embed (shiftE q k es)).
Proof.
  induction es as [|[v x] es IH]; simpl; auto. intros k. destruct (stops q k v); auto.
  destruct x as [[a c]|]; simpl; auto. intuition.
Qed.

Lemma shiftE_len q es : forall k, length (roots (embed (shiftE q k es))) = length (roots (embed es)).
Proof.
  induction es as [|[v x] es IH]; simpl; auto. intros k. destruct (stops q k v); auto.
  destruct x as [[a c]|]; simpl; auto.
Qed.

Lemma shiftE_payload q es : forall k, map snd (roots (embed (shiftE q k es))) = map snd (roots (embed es)).
Proof.
  induction es as [|[v x] es IH]; simpl; auto. intros k. destruct (stops q k v); auto.
  destruct x as [[a c]|]; simpl; auto. f_equal. auto.
Qed.

Lemma shiftE_above q es k : incr k es -> bounded es -> shiftable q k es = true ->
  k < maxstep -> forall x, In x (roots (embed (shiftE q k es))) -> plt (seg k) (fst x) = true.
Proof.
  intros I B Sh K x Hx. apply embed_roots in Hx. destruct Hx as (u & a & c & Hu & ->). simpl.
  assert (Iu := incr_all _ _ _ (shiftE_incr _ _ _ I) Hu). simpl in Iu.
  assert (u < maxstep).
  { destruct (shiftE_bound _ _ _ _ Hu) as ([v' y'] & He1 & He2 & [He3|[He3 He4]]); simpl in He3.
    - unfold bounded in B. rewrite Forall_forall in B. specialize (B _ He1). simpl in B. lia.
    - unfold shiftable in Sh. rewrite forallb_forall in Sh. specialize (Sh _ He4).
      apply Nat.ltb_lt in Sh. simpl in Sh. lia. }
  rewrite plt_seg by auto. apply Nat.ltb_lt. lia.
Qed.

Lemma shiftable_false q es k : bounded es -> shiftable q k es = false ->
  exists e, In e es /\ fst e = maxstep - 1.
Proof.
  unfold shiftable. intros B H.
  assert (Hx : ~ forall e, In e (takeS q k es) -> (fst e + 1 <? maxstep) = true).
  { intros Hx. apply forallb_forall in Hx. congruence. }
  destruct (existsb (fun e => negb (fst e + 1 <? maxstep)) (takeS q k es)) eqn:E.
  - apply existsb_exists in E. destruct E as (e & He & Hn). exists e.
    apply takeS_incl in He. split; auto. apply negb_true_iff, Nat.ltb_ge in Hn.
    unfold bounded in B. rewrite Forall_forall in B. specialize (B _ He). lia.
  - exfalso. apply Hx. intros e He. rewrite existsb_false in E. specialize (E _ He).
    apply negb_false_iff in E. auto.
Qed.

End Shift.
