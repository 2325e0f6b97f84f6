(** Making room for a node: [reorder] without a branch to move. *)
From Coq Require Import List Arith Lia Bool Permutation Sorted.
From Verif Require Import Prelude Forest NumConv SpecFacts PathTab PathMove CommonModel MPModel MPStep MPInv MPShift.
Import ListNotations.

Notation nodes l := (map (fun r : path * payload => fst (snd r)) (roots l)).

Lemma last_split (l : kf) : l <> Nil -> exists l1 s a c, l = fapp l1 (Cons (s, a) c Nil).
Proof.
  intros H. destruct (last_opt (roots l)) as [[s a]|] eqn:E.
  - apply last_opt_Some in E. destruct E as [L EL]. apply roots_snoc in EL.
    destruct EL as (l1 & k & -> & _). eauto.
  - apply last_opt_None in E. destruct l; [tauto|discriminate].
Qed.

Lemma map_snd_roots_nodes (l l' : kf) : map snd (roots l) = map snd (roots l') -> nodes l = nodes l'.
Proof. intros H. rewrite <- !(map_map snd fst). congruence. Qed.

Lemma kerase_roots (l : kf) : roots (kerase l) = nodes l.
Proof. apply erase_roots. Qed.

Lemma kerase_fapp (l1 l2 : kf) : kerase (fapp l1 l2) = fapp (kerase l1) (kerase l2).
Proof. apply erase_fapp. Qed.

Section Reorder.
Variable cfg : mp_cfg.
Hypothesis radix2 : 2 <= radix cfg.
Hypothesis step1 : 1 <= steplen cfg.
Notation R := (radix cfg).
Notation w := (steplen cfg).
Notation mkrow := (mkrow cfg).
Notation kpwf := (kpwf cfg).
Notation kvalid := (kvalid cfg).
Notation lay := (lay cfg).
Notation seg := (seg cfg).
Notation maxstep := (maxstep cfg).

(** [k] is a place in the sibling list [l]: everything in [l1] is before step [k],
    everything in [l2] at or after it. *)
Definition hole (l : kf) (k : nat) (l1 l2 : kf) : Prop :=
  l = fapp l1 l2 /\ 1 <= k /\ k < maxstep /\
  (forall x, In x (roots l1) -> plt (fst x) (seg k) = true) /\
  (forall x, In x (roots l2) -> plt (fst x) (seg k) = false).

Lemma hole_ents l k l1 l2 : kvalid l -> kpwf l -> hole l k l1 l2 ->
  incr k (ents cfg l2) /\ bounded cfg (ents cfg l2) /\ embed cfg (ents cfg l2) = l2.
Proof.
  intros V W (-> & K1 & K2 & H1 & H2). apply kvalid_fapp in V. apply pwf_fapp in W.
  repeat split.
  - apply ents_incr; auto; try tauto. intros x Hx. specialize (H2 _ Hx).
    rewrite (plt_vseg cfg) in H2; auto.
    + apply Nat.ltb_ge in H2. rewrite (seg_val cfg) in H2; auto.
    + apply kvalid_roots with (f := l2); tauto.
    + apply vseg_seg; auto.
  - apply ents_bounded; tauto.
  - apply embed_ents; tauto.
Qed.

Lemma sib_paths q l : kvalid l -> map m_path (sibrows cfg q l) = map (epath cfg q) (ents cfg l).
Proof.
  unfold sibrows. induction l as [|[s a] c _ r IH]; simpl; auto. intros V. apply kvalid_cons in V.
  rewrite IH by tauto. f_equal. unfold epath. simpl. rewrite seg_undigits by tauto. auto.
Qed.

Lemma sibrows_fapp q l1 l2 : sibrows cfg q (fapp l1 l2) = sibrows cfg q l1 ++ sibrows cfg q l2.
Proof. unfold sibrows. rewrite roots_fapp, map_app. auto. Qed.

Lemma filter_sib P q l1 l2 : (forall x, In x (roots l1) -> P (mkrow (pre q x)) = false) ->
  (forall x, In x (roots l2) -> P (mkrow (pre q x)) = true) ->
  filter P (sibrows cfg q (fapp l1 l2)) = sibrows cfg q l2.
Proof.
  intros H1 H2. rewrite sibrows_fapp, filter_app. rewrite filter_none, filter_all; auto.
  - intros x Hx. unfold sibrows in Hx. apply in_map_iff in Hx. destruct Hx as (y & <- & Hy). auto.
  - intros x Hx. unfold sibrows in Hx. apply in_map_iff in Hx. destruct Hx as (y & <- & Hy). auto.
Qed.

Lemma plt_pre_iff (q a b : path) : plt (q ++ a) (q ++ b) = plt a b.
Proof. apply llt_pre, irr. Qed.

Lemma plt_irr a : plt a a = false.
Proof. apply llt_irr, irr. Qed.

Lemma plt_asym a b : plt a b = true -> plt b a = false.
Proof. eapply llt_asym; eauto using irr, ltb_tr', ltb_tot'. Qed.

Lemma last_sib t f q pa l l1 s a c st at_ : lay t f -> At q pa l l f f -> In (st, at_) (roots l) ->
  l = fapp l1 (Cons (s, a) c Nil) ->
  get_last_sibling cfg t (mkrow (q ++ st, at_)) = Some (mkrow (q ++ s, a)).
Proof.
  intros L H Hs ->. unfold get_last_sibling.
  rewrite (get_siblings_lay cfg radix2 step1 t f q pa _ _ _ st at_ L H Hs).
  rewrite sibrows_fapp. unfold sibrows at 2. simpl. apply last_opt_app.
Qed.

(** The list of siblings of a context, one element singled out. *)
Lemma mid_order l1 s a c l2 : kpwf (fapp l1 (Cons (s, a) c l2)) ->
  (forall x, In x (roots l1) -> plt (fst x) s = true) /\
  (forall x, In x (roots l2) -> plt s (fst x) = true).
Proof.
  intros W. apply pwf_fapp in W. destruct W as (W1 & W2 & W3). split.
  - intros x Hx. apply (W3 x (s, a)); simpl; auto.
  - simpl in W2. destruct W2 as (_ & _ & _ & W4). rewrite Forall_forall in W4. apply W4.
Qed.

Lemma plt_succ s s' : vseg cfg s -> vseg cfg s' -> undigits R s + 1 < maxstep ->
  plt s s' = negb (plt s' (seg (undigits R s + 1))).
Proof.
  intros V V' B. rewrite !(plt_vseg cfg) by (auto; apply vseg_seg; auto; lia).
  rewrite seg_val by auto.
  destruct (Nat.ltb_spec (undigits R s) (undigits R s')), (Nat.ltb_spec (undigits R s') (undigits R s + 1));
    simpl; auto; lia.
Qed.

(** The three explicit positions. *)
Lemma reorder_pos_ok t f q pa l l1 st a c l2 p :
  lay t f -> At q pa l l f f -> l = fapp l1 (Cons (st, a) c l2) ->
  wf_ids (kerase f) -> pold pa = pnew pa ->
  goes_last cfg t p (mkrow (q ++ st, a)) = false ->
  p = Left \/ p = Right \/ p = FirstSibling ->
  exists k h1 h2, reorder_pos cfg t p (mkrow (q ++ st, a)) = Ok (k, sibrows cfg q h2) /\
    hole l k h1 h2 /\ h2 <> Nil /\
    match p with
    | Left => h1 = l1 /\ h2 = Cons (st, a) c l2
    | Right => h1 = fapp l1 (Cons (st, a) c Nil) /\ h2 = l2
    | _ => h1 = Nil /\ h2 = l
    end.
Proof.
  intros L H El WF Ep GL P.
  assert (W : kpwf f) by apply L. assert (V : kvalid f) by apply L.
  assert (Wl := k_At_pwf_l cfg _ _ _ _ _ _ H W).
  assert (Vl := kvalid_At_l cfg _ _ _ _ _ _ H V).
  assert (Hs : In (st, a) (roots l)) by (subst l; rewrite roots_fapp, in_app_iff; simpl; auto).
  assert (Vst : vseg cfg st) by apply (kvalid_roots cfg _ _ Vl Hs).
  assert (Sib := get_siblings_lay cfg radix2 step1 t f q pa l l f st a L H Hs).
  unfold reorder_pos. change (m_path (mkrow (q ++ st, a))) with (q ++ st).
  rewrite get_lastpos_ok by auto. cbn [bind]. rewrite Sib.
  assert (Ord : (forall x, In x (roots l1) -> plt (fst x) st = true) /\
                (forall x, In x (roots l2) -> plt st (fst x) = true)).
  { subst l. eapply mid_order; eauto. }
  destruct Ord as [O1 O2].
  destruct P as [->|[->| ->]].
  - exists (undigits R st), l1, (Cons (st, a) c l2). split; [|split; [|split]]; auto; try discriminate.
    + f_equal. f_equal. subst l. apply filter_sib.
      * intros x Hx. simpl. rewrite plt_pre_iff, O1; auto.
      * intros x [<-|Hx]; simpl; rewrite plt_pre_iff.
        { rewrite plt_irr. auto. }
        { rewrite (plt_asym st); auto. }
    + repeat split; auto.
      * apply Vst.
      * apply vseg_bound; auto.
      * rewrite seg_undigits by auto. auto.
      * rewrite seg_undigits by auto. intros x [<-|Hx]; simpl.
        { apply plt_irr. }
        { apply plt_asym. auto. }
  - assert (N2 : l2 <> Nil).
    { intros ->. unfold goes_last in GL.
      rewrite (last_sib t f q pa l l1 st a c st a L H Hs El) in GL. simpl in GL.
      rewrite Nat.eqb_refl in GL. discriminate. }
    assert (Bk : undigits R st + 1 < maxstep).
    { destruct l2 as [|[s2 a2] c2 r2]; [tauto|].
      assert (Hs2 : In (s2, a2) (roots l)).
      { subst l. rewrite roots_fapp, in_app_iff. simpl. auto. }
      assert (V2 : vseg cfg s2) by apply (kvalid_roots cfg _ _ Vl Hs2).
      assert (B2 := vseg_bound cfg _ V2).
      specialize (O2 (s2, a2) (or_introl eq_refl)). simpl in O2.
      rewrite (plt_vseg cfg) in O2 by auto. apply Nat.ltb_lt in O2. lia. }
    assert (Vx : forall x, In x (roots l) -> plt st (fst x) = negb (plt (fst x) (seg (undigits R st + 1)))).
    { intros x Hx. apply plt_succ; auto. apply (kvalid_roots cfg _ _ Vl Hx). }
    exists (undigits R st + 1), (fapp l1 (Cons (st, a) c Nil)), l2.
    assert (El' : l = fapp (fapp l1 (Cons (st, a) c Nil)) l2) by (rewrite El, fapp_assoc; auto).
    split; [|split; [|split]]; auto.
    + f_equal. f_equal. rewrite El'. apply filter_sib.
      * intros x Hx. rewrite roots_fapp, in_app_iff in Hx. simpl. rewrite plt_pre_iff.
        destruct Hx as [Hx|[<-|[]]]; [apply plt_asym; auto|apply plt_irr].
      * intros x Hx. simpl. rewrite plt_pre_iff. auto.
    + repeat split; auto; try lia.
      * intros x Hx. apply negb_false_iff. rewrite <- Vx.
        { rewrite roots_fapp, in_app_iff in Hx. 
          destruct Hx as [Hx|[<-|[]]]; [apply plt_asym; auto|apply plt_irr]. }
        { rewrite El', roots_fapp, in_app_iff. auto. }
      * intros x Hx. apply negb_true_iff. rewrite <- Vx; auto.
        rewrite El', roots_fapp, in_app_iff. auto.
  - exists 1, Nil, l. split; [|split; [|split]]; auto.
    + split; [|split; [|split; [|split]]]; simpl; auto; try tauto.
      * apply maxstep_gt1; auto.
      * intros x Hx. assert (Vx := kvalid_roots cfg _ _ Vl Hx).
        rewrite (plt_vseg cfg); auto.
        { rewrite seg_val by auto. apply Nat.ltb_ge. apply Vx. }
        { apply vseg_seg; auto. apply maxstep_gt1; auto. }
    + intros E. rewrite E in Hs. destruct Hs.
Qed.

(** ** Adding: result of [reorder] *)

(** The sibling list at [q] was spread so that step [k] is free between [m1] and [m2]. *)
Definition opened (q : path) pa (l : kf) (f : kf) (k : nat) (f' m1 m2 : kf) : Prop :=
  At q pa l (fapp m1 m2) f f' /\ 1 <= k /\ k < maxstep /\
  (forall x, In x (roots m1) -> plt (fst x) (seg k) = true) /\
  (forall x, In x (roots m2) -> plt (seg k) (fst x) = true) /\
  kerase (fapp m1 m2) = kerase l /\ (nc_ok l -> nc_ok (fapp m1 m2)) /\
  length (roots (fapp m1 m2)) = length (roots l).

(** Step [maxstep - 1] of the list is taken. *)
Definition is_full (l : kf) : Prop := exists x, In x (roots l) /\ undigits R (fst x) = maxstep - 1.

Lemma ents_full l e : In e (ents cfg l) -> fst e = maxstep - 1 -> is_full l.
Proof.
  intros H E. apply ents_roots in H. destruct H as (s & a & c & -> & Hs).
  exists (s, a). auto.
Qed.

(** Appending after the last sibling. *)
Lemma inc_last t f q pa l l1 s b c : lay t f ->
  At q pa l l f f -> l = fapp l1 (Cons (s, b) c Nil) ->
  (exists k, inc_path cfg (q ++ s) = Ok (q ++ seg k) /\ opened q pa l f k f l Nil) \/
  (inc_path cfg (q ++ s) = Err PathOverflow /\ is_full l).
Proof.
  intros L H El.
  assert (W : kpwf f) by apply L. assert (V : kvalid f) by apply L.
  assert (Vl := kvalid_At_l cfg _ _ _ _ _ _ H V).
  assert (Wl := k_At_pwf_l cfg _ _ _ _ _ _ H W).
  assert (Hb : In (s, b) (roots l)) by (subst l; rewrite roots_fapp, in_app_iff; simpl; auto).
  assert (Vs := kvalid_roots cfg _ _ Vl Hb). simpl in Vs.
  rewrite inc_path_ok by auto.
  destruct (Nat.ltb_spec (undigits R s + 1) maxstep) as [B|B].
  - left. exists (undigits R s + 1). split; auto. unfold opened. rewrite fapp_nil_r.
    split; [|split; [|split; [|split; [|split]]]]; auto; try lia.
    + intros x Hx. rewrite (plt_vseg cfg); auto.
      * rewrite seg_val by auto. apply Nat.ltb_lt.
        assert (plt s (fst x) = false).
        { subst l. destruct (mid_order _ _ _ _ _ Wl) as [O1 _].
          rewrite roots_fapp, in_app_iff in Hx. simpl in Hx. destruct Hx as [Hx|[<-|[]]].
          - apply plt_asym; auto.
          - apply plt_irr. }
        rewrite (plt_vseg cfg) in H0; auto.
        { apply Nat.ltb_ge in H0. lia. }
        { apply (kvalid_roots cfg _ _ Vl Hx). }
      * apply (kvalid_roots cfg _ _ Vl Hx).
      * apply vseg_seg; auto; lia.
  - right. split; auto. exists (s, b). split; auto. simpl.
    assert (Bs := vseg_bound cfg _ Vs). lia.
Qed.

Lemma reorder_add_last db f q pa l st a p newdepth sibs np : lay (db_rows db) f ->
  At q pa l l f f -> In (st, a) (roots l) -> goes_last cfg (db_rows db) p (mkrow (q ++ st, a)) = true ->
  (exists k, reorder cfg db p np newdepth (mkrow (q ++ st, a)) sibs None
             = Ok (db, None, q ++ seg k, q ++ st) /\ opened q pa l f k f l Nil) \/
  (reorder cfg db p np newdepth (mkrow (q ++ st, a)) sibs None = Err PathOverflow /\ is_full l).
Proof.
  intros L H Hs GL.
  destruct (last_split l) as (l1 & s & b & c & El).
  { intros ->. destruct Hs. }
  unfold reorder. rewrite GL. rewrite (last_sib _ f q pa l l1 s b c st a L H Hs El).
  cbn [opt_res bind]. change (m_path (mkrow (q ++ s, b))) with (q ++ s).
  destruct (inc_last _ _ _ _ _ _ _ _ _ L H El) as [(k & E & O)|[E Fu]]; rewrite E; cbn [bind].
  - left. exists k. auto.
  - right. auto.
Qed.

Lemma reorder_add_mid db f q pa l k l1 l2 target p newdepth newpos sibs :
  lay (db_rows db) f -> At q pa l l f f -> pold pa = pnew pa -> hole l k l1 l2 ->
  goes_last cfg (db_rows db) p target = false ->
  match newpos with Some n => Ok (n, sibs) | None => reorder_pos cfg (db_rows db) p target end
    = Ok (k, sibrows cfg q l2) ->
  get_path cfg (m_path target) newdepth k = q ++ seg k ->
  (exists db' f' m1 m2 tp, reorder cfg db p newpos newdepth target sibs None
             = Ok (db', None, q ++ seg k, tp) /\ lay (db_rows db') f' /\ opened q pa l f k f' m1 m2 /\
             map snd (roots m1) = map snd (roots l1) /\ map snd (roots m2) = map snd (roots l2)) \/
  (reorder cfg db p newpos newdepth target sibs None = Err PathOverflow /\ is_full l).
Proof.
  intros L H Ep Ho GL Epos Egp.
  assert (W : kpwf f) by apply L. assert (V : kvalid f) by apply L.
  assert (Vl := kvalid_At_l cfg _ _ _ _ _ _ H V).
  assert (Wl := k_At_pwf_l cfg _ _ _ _ _ _ H W).
  destruct (hole_ents _ _ _ _ Vl Wl Ho) as (I & B & Ee).
  destruct Ho as (El & K1 & K2 & O1 & O2).
  assert (V2 : kvalid l2) by (subst l; apply kvalid_fapp in Vl; tauto).
  unfold reorder. rewrite GL, Epos. cbn [bind]. rewrite Egp.
  assert (C := collect_spec cfg radix2 step1 q (ents cfg l2) k (sibrows cfg q l2) K1 K2 I B
                 (sib_paths q l2 V2)).
  destruct (shiftable cfg q k (ents cfg l2)) eqn:Sh.
  - destruct C as (ms & -> & Em). cbn [bind]. left.
    destruct (move_siblings_spec cfg radix2 step1 q pa Nil (ents cfg l2) k l1 db f None (m_path target) ms [])
      as (db' & f' & op' & tp' & E1 & L1 & H1 & F1); auto.
    + rewrite Ee, fapp_nil_r. subst l. auto.
    + simpl; tauto.
    + rewrite app_nil_r in E1. rewrite E1. cbn [move_siblings bind].
      destruct op' as [op'|]; [destruct F1|].
      rewrite !fapp_nil_r, Ee, <- El in H1.
      exists db', f', l1, (embed cfg (shiftE cfg q k (ents cfg l2))), tp'.
      split; auto. split; auto. split; [|split; auto].
      2:{ rewrite shiftE_payload, Ee. auto. }
      split; [|split; [|split; [|split; [|split; [|split; [|split]]]]]]; auto; try tauto.
      * apply shiftE_above; auto.
      * rewrite kerase_fapp, (shiftE_erase cfg q (ents cfg l2) k), Ee. subst l. rewrite kerase_fapp. auto.
      * subst l. rewrite !nc_fapp. intros [N1 N2]. split; auto. apply shiftE_nc. rewrite Ee. auto.
      * subst l. rewrite !roots_fapp, !app_length, shiftE_len, Ee. auto.
  - right. rewrite C. split; auto.
    assert (Fe := Sh). apply shiftable_false in Fe; auto. destruct Fe as (e & He & Ex).
    destruct (ents_full _ _ He Ex) as (x & Hx & Ex'). exists x. split; auto.
    subst l. rewrite roots_fapp, in_app_iff. auto.
Qed.

End Reorder.
