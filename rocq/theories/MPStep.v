(** Facts about the encoding of one step of a materialized path. *)
From Coq Require Import List Arith Lia Bool.
From Verif Require Import Prelude Forest NumConv PathTab CommonModel MPModel.
Import ListNotations.

Lemma ltb_tr' x y z : (x <? y) = true -> (y <? z) = true -> (x <? z) = true.
Proof. rewrite !Nat.ltb_lt. lia. Qed.
Lemma ltb_tot' x y : (x <? y) = false -> (y <? x) = false -> x = y.
Proof. rewrite !Nat.ltb_ge. lia. Qed.

Lemma peq_iff a b : peq a b = true <-> a = b.
Proof. apply leq_iff; eauto using ltb_tr', ltb_tot', Nat.ltb_irrefl. Qed.

Lemma peq_refl a : peq a a = true.
Proof. apply peq_iff; auto. Qed.

Lemma peq_false a b : peq a b = false <-> a <> b.
Proof. rewrite <- (peq_iff a b). destruct (peq a b); intuition congruence. Qed.

Lemma ppre_iff a b : ppre a b = true <-> exists x, b = a ++ x.
Proof. apply prefixb_iff; auto using ltb_tot', Nat.ltb_irrefl. Qed.

Lemma ppre_app a b : ppre a (a ++ b) = true.
Proof. apply ppre_iff; eauto. Qed.

Section Step.
Variable cfg : mp_cfg.
Hypothesis radix2 : 2 <= radix cfg.
Hypothesis step1 : 1 <= steplen cfg.
Notation R := (radix cfg).
Notation w := (steplen cfg).

(** The encoded step [k]. *)
Definition seg (k : nat) : path := pad cfg (digits R k).

(** A valid step: right width, characters of the alphabet, and not all zero. *)
Definition vseg (s : path) : Prop :=
  length s = w /\ Forall (fun d => d < R) s /\ 1 <= undigits R s.

Definition maxstep : nat := R ^ w.

Lemma maxstep_gt1 : 1 < maxstep.
Proof.
  unfold maxstep. destruct w as [|n]; [lia|]. simpl.
  assert (1 <= R ^ n) by (apply Nat.neq_0_lt_0, Nat.pow_nonzero; lia). nia.
Qed.

Lemma undigits_zeros n s : undigits R (repeat 0 n ++ s) = undigits R s.
Proof.
  induction n as [|n IH]; auto.
Qed.

Lemma seg_val k : undigits R (seg k) = k.
Proof.
  unfold seg, pad. rewrite undigits_zeros. apply digits_spec; auto.
Qed.

Lemma seg_digits k : Forall (fun d => d < R) (seg k).
Proof.
  unfold seg, pad. apply Forall_app. split.
  - apply Forall_forall. intros x Hx. apply repeat_spec in Hx. lia.
  - apply digits_spec; auto.
Qed.

Lemma seg_len k : k < maxstep -> length (seg k) = w.
Proof.
  intros H. unfold seg, pad. rewrite app_length, repeat_length.
  assert (length (digits R k) <= w) by (apply digits_length; auto). lia.
Qed.

Lemma vseg_seg k : 1 <= k -> k < maxstep -> vseg (seg k).
Proof.
  intros H1 H2. split; [|split].
  - apply seg_len; auto.
  - apply seg_digits.
  - rewrite seg_val; auto.
Qed.

Lemma vseg_bound s : vseg s -> undigits R s < maxstep.
Proof. intros (H1 & H2 & H3). unfold maxstep. rewrite <- H1. apply undigits_bound; auto. Qed.

Lemma seg_undigits s : vseg s -> seg (undigits R s) = s.
Proof.
  intros H. assert (B := vseg_bound _ H). destruct H as (H1 & H2 & H3).
  apply undigits_inj with R; auto.
  - rewrite seg_len; auto.
  - apply seg_digits.
  - apply seg_val.
Qed.

Lemma seg_inj j k : seg j = seg k -> j = k.
Proof. intros H. rewrite <- (seg_val j), <- (seg_val k), H. auto. Qed.

(** Equal-width digit strings compare like their values. *)
Lemma plt_undigits a : forall b, length a = length b ->
  Forall (fun d => d < R) a -> Forall (fun d => d < R) b ->
  plt a b = (undigits R a <? undigits R b).
Proof.
  unfold plt. induction a as [|x a IH]; intros [|y b] L Fa Fb; try discriminate; auto.
  simpl in L. injection L as L. inversion Fa; subst. inversion Fb; subst.
  assert (Ba := undigits_bound _ _ H2). assert (Bb := undigits_bound _ _ H4).
  rewrite !undigits_cons. simpl. rewrite (IH b) by auto. rewrite <- L in *.
  destruct (Nat.ltb_spec x y); simpl.
  - symmetry. apply Nat.ltb_lt. nia.
  - destruct (Nat.ltb_spec y x); simpl.
    + symmetry. apply Nat.ltb_ge. nia.
    + assert (x = y) by lia. subst. 
      destruct (Nat.ltb_spec (undigits R a) (undigits R b)); symmetry;
        [apply Nat.ltb_lt|apply Nat.ltb_ge]; lia.
Qed.

Lemma plt_vseg a b : vseg a -> vseg b -> plt a b = (undigits R a <? undigits R b).
Proof. intros (H1 & H2 & H3) (H4 & H5 & H6). apply plt_undigits; auto. congruence. Qed.

Lemma plt_seg j k : j < maxstep -> k < maxstep -> plt (seg j) (seg k) = (j <? k).
Proof.
  intros H1 H2. rewrite plt_undigits; try apply seg_digits.
  - rewrite !seg_val. auto.
  - rewrite !seg_len; auto.
Qed.

(** ** The path functions of the model on [q ++ s] *)

Lemma last_step_app q s : length s = w -> last_step cfg (q ++ s) = s.
Proof.
  intros H. unfold last_step. rewrite app_length, H.
  replace (length q + w - w) with (length q) by lia.
  rewrite skipn_app, skipn_all, Nat.sub_diag. auto.
Qed.

Lemma step_value_ok s : Forall (fun d => d < R) s -> step_value cfg s = Ok (undigits R s).
Proof.
  intros H. unfold step_value. rewrite (proj2 (forallb_forall _ _)); auto.
  intros x Hx. rewrite Forall_forall in H. apply Nat.ltb_lt; auto.
Qed.

Lemma get_lastpos_ok q s : vseg s -> get_lastpos cfg (q ++ s) = Ok (undigits R s).
Proof.
  intros (H1 & H2 & H3). unfold get_lastpos. rewrite last_step_app by auto.
  apply step_value_ok; auto.
Qed.

Lemma inc_path_ok q s : vseg s ->
  inc_path cfg (q ++ s) =
  if undigits R s + 1 <? maxstep then Ok (q ++ seg (undigits R s + 1)) else Err PathOverflow.
Proof.
  intros H. unfold inc_path. rewrite get_lastpos_ok by auto. simpl.
  destruct H as (H1 & H2 & H3).
  rewrite app_length, H1. replace (length q + w - w) with (length q) by lia.
  rewrite firstn_app, firstn_all, Nat.sub_diag. simpl. rewrite app_nil_r.
  assert (D := digits_length R (undigits R s + 1) w radix2 step1). fold maxstep in D.
  destruct (Nat.ltb_spec w (length (digits R (undigits R s + 1))));
    destruct (Nat.ltb_spec (undigits R s + 1) maxstep); auto; lia.
Qed.

Lemma get_basepath_app q s n : length q = n * w -> get_basepath cfg (q ++ s) n = q.
Proof.
  intros H. unfold get_basepath. rewrite <- H, firstn_app, firstn_all, Nat.sub_diag.
  simpl. apply app_nil_r.
Qed.

Lemma get_path_app q s n k : length q = n * w -> get_path cfg (q ++ s) (S n) k = q ++ seg k.
Proof.
  intros H. unfold get_path. rewrite Nat.sub_succ, Nat.sub_0_r.
  rewrite get_basepath_app; auto.
Qed.

Lemma get_parent_path_app q s : length s = w -> get_parent_path cfg (q ++ s) = q.
Proof.
  intros H. unfold get_parent_path. rewrite app_length, H.
  replace (length q + w - w) with (length q) by lia.
  rewrite firstn_app, firstn_all, Nat.sub_diag. simpl. apply app_nil_r.
Qed.

(** BETWEEN q||000 AND q||zzz on paths one step longer than [q] is the prefix test. *)
Lemma zeros_le s : length s = w -> plt s (repeat 0 w) = false.
Proof.
  unfold plt. intros H. rewrite <- H. clear H. induction s as [|x s IH]; simpl; auto.
  rewrite IH. rewrite andb_false_r. destruct x; auto.
Qed.

Lemma maxes_ge s : Forall (fun d => d < R) s -> length s = w -> plt (repeat (R - 1) w) s = false.
Proof.
  unfold plt. intros F H. rewrite <- H. clear H. induction F as [|x s Hx F IH]; simpl; auto.
  rewrite IH, andb_false_r, orb_false_r. apply Nat.ltb_ge. lia.
Qed.

Lemma in_range_prefix q p : Forall (fun d => d < R) p -> length p = length q + w ->
  in_range (children_interval cfg q) p = ppre q p.
Proof.
  intros F L. unfold in_range, children_interval. simpl.
  destruct (ppre q p) eqn:E.
  - apply prefixb_iff in E; auto using ltb_tot', Nat.ltb_irrefl.
    destruct E as [s ->]. apply Forall_app in F. rewrite app_length in L.
    unfold plt. rewrite !llt_pre by apply Nat.ltb_irrefl.
    change (negb (plt s (repeat 0 w)) && negb (plt (repeat (R - 1) w) s) = true).
    rewrite zeros_le, maxes_ge by (try tauto; lia). auto.
  - set (a := firstn (length q) p). set (s := skipn (length q) p).
    assert (Ep : p = a ++ s) by (symmetry; apply firstn_skipn).
    assert (La : length a = length q) by (unfold a; rewrite firstn_length; lia).
    assert (N : a <> q).
    { intros N. rewrite N in Ep. rewrite Ep in E. unfold ppre in E.
      rewrite prefixb_app in E by (auto using ltb_tot', Nat.ltb_irrefl). discriminate. }
    rewrite Ep.
    destruct (plt a q) eqn:E1.
    + unfold plt. rewrite (llt_fix Nat.ltb) by auto. auto.
    + assert (E2 : plt q a = true).
      { destruct (plt q a) eqn:E2; auto. exfalso. apply N.
        apply llt_total with Nat.ltb; eauto using ltb_tr', ltb_tot', Nat.ltb_irrefl. }
      unfold plt. rewrite (llt_fix Nat.ltb q a) by auto. rewrite andb_false_r. auto.
Qed.

End Step.
