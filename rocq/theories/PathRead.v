(** What a reader of the rows of a keyed forest sees: ancestors, descendants,
    levels. *)
From Coq Require Import List Arith Lia Bool Permutation.
From Verif Require Import Prelude Forest SpecFacts PathTab PathMove PathDel.
Import ListNotations.

Set Implicit Arguments.

Section PathRead.
Variable C : Type.
Variable ltb : C -> C -> bool.
Variable w : nat.
Variable A : Type.
Hypothesis ltb_irr : forall x, ltb x x = false.
Hypothesis ltb_tr : forall x y z, ltb x y = true -> ltb y z = true -> ltb x z = true.
Hypothesis ltb_tot : forall x y, ltb x y = false -> ltb y x = false -> x = y.
Hypothesis wpos : 0 < w.

Notation path := (list C).
Notation row := (list C * A)%type.
Notation kforest := (forest (list C * A)).
Notation isprefix := (prefixb ltb).
Notation pwf := (pwf ltb w).

Variable pn : A -> node.
Notation erase := (erase pn).

(** Strictly above. *)
Definition upper (p : path) (y : row) : bool :=
  isprefix (fst y) p && negb (leq ltb (fst y) p).

Lemma upper_pre s p y : upper (s ++ p) (pre s y) = upper p y.
Proof.
  unfold upper, pre. simpl. rewrite prefixb_pre by auto. f_equal. f_equal.
  apply eq_true_iff_eq. rewrite !leq_iff by auto. split; intros E.
  - apply app_inv_head in E. auto.
  - congruence.
Qed.

(** The ancestors of a node are the rows strictly above it, in the order of the rows. *)
Lemma ancestors_rows f p a : pwf f -> wf_ids (erase f) -> In (p, a) (rows f) ->
  ancestors_of (nid (pn a)) (erase f)
  = Some (map (fun y => pn (snd y)) (filter (upper p) (rows f))).
Proof.
  revert p. induction f as [|x k IHk r IHr]; intros p W I H; [inversion H|].
  assert (W0 := W). destruct W as (W1 & W2 & W3 & W4).
  assert (I0 := I). apply wf_cons_inv in I0. destruct I0 as (I1 & I2 & I3 & I4 & I5).
  cbn [rows] in *. rewrite app_comm_cons in H. apply in_app_iff in H.
  unfold PathTab.erase. cbn [fmap ancestors_of].
  change (fmap (fun x0 : row => pn (snd x0)) ?g) with (erase g) in *.
  rewrite app_comm_cons, filter_app.
  destruct H as [H|H].
  - assert (Er : filter (upper p) (rows r) = []).
    { apply filter_none. intros y Hy. unfold upper.
      destruct (@cross C ltb w A ltb_irr ltb_tot x k r (p, a) y W0 H Hy) as [_ E]. simpl in E.
      rewrite E. auto. }
    rewrite Er, app_nil_r. destruct H as [->|H].
    + simpl. rewrite Nat.eqb_refl. f_equal.
      assert (Ep : upper p (p, a) = false).
      { unfold upper. simpl. rewrite leq_refl by auto. apply andb_false_r. }
      rewrite Ep. rewrite filter_none; auto.
      intros y Hy. apply in_map_iff in Hy. destruct Hy as [z [<- Hz]]. unfold upper. simpl.
      rewrite (proj2 (@prefixb_false C ltb ltb_irr ltb_tot (p ++ fst z) p)); auto.
      intros v E. rewrite <- app_assoc in E. rewrite <- (app_nil_r p) in E at 1.
      apply app_inv_head in E. symmetry in E. apply app_eq_nil in E. destruct E as [E _].
      revert E. apply rows_nonempty with ltb w k; auto.
    + apply in_map_iff in H. destruct H as [[z b] [Ez Hz]]. unfold pre in Ez. simpl in Ez.
      injection Ez as <- ->.
      assert (Hid : In (nid (pn a)) (ids (erase k))).
      { rewrite erase_ids. apply in_map_iff. exists (z, a). auto. }
      destruct (Nat.eqb_spec (nid (pn (snd x))) (nid (pn a))) as [E|E]; [rewrite E in I1; tauto|].
      rewrite (IHk z) by auto. f_equal. cbn [filter].
      assert (Eu : upper (fst x ++ z) x = true).
      { unfold upper. rewrite prefixb_app by auto. simpl. apply negb_true_iff.
        destruct (leq ltb (fst x) (fst x ++ z)) eqn:El; auto.
        apply leq_iff in El; auto. rewrite <- (app_nil_r (fst x)) in El at 1.
        apply app_inv_head in El. symmetry in El. exfalso. revert El.
        apply (rows_nonempty ltb wpos k (z, a)); auto. }
      rewrite Eu. simpl. f_equal. rewrite filter_map, map_map.
      erewrite filter_ext_In; [reflexivity|]. intros y _. symmetry. apply upper_pre.
  - assert (Er : filter (upper p) (x :: map (pre (fst x)) (rows k)) = []).
    { apply filter_none. intros y Hy. unfold upper.
      destruct (@cross C ltb w A ltb_irr ltb_tot x k r y (p, a) W0 Hy H) as [E _]. simpl in E.
      rewrite E. auto. }
    rewrite Er. simpl app.
    assert (Hid : In (nid (pn a)) (ids (erase r))).
    { rewrite erase_ids. apply in_map_iff. exists (p, a). auto. }
    destruct (Nat.eqb_spec (nid (pn (snd x))) (nid (pn a))) as [E|E]; [rewrite E in I2; tauto|].
    rewrite ancestors_of_notin by (intros Hk; eauto). auto.
Qed.

(** The first levels. *)
Lemma prune_rows (f : kforest) : forall d, pwf f ->
  rows (prune d f) = filter (fun y => length (fst y) <=? d * w) (rows f).
Proof.
  induction f as [|x k IHk r IHr]; intros d W; [destruct d; auto|].
  destruct W as (W1 & W2 & W3 & W4).
  destruct d as [|d].
  - simpl prune. cbn [rows]. symmetry. apply filter_none. intros y Hy.
    assert (Hl : exists n, length (fst y) = S n * w).
    { apply (@rows_len C ltb w A wpos (Cons x k r) y); simpl; auto. }
    destruct Hl as [n ->]. apply Nat.leb_gt. simpl. lia.
  - cbn [prune rows filter]. rewrite W1.
    assert (Hw : (w <=? S d * w) = true) by (apply Nat.leb_le; simpl; lia).
    rewrite Hw. f_equal. rewrite filter_app. rewrite IHk, IHr by auto. f_equal.
    rewrite filter_map. f_equal. apply filter_ext_In. intros y _. unfold pre. simpl.
    rewrite app_length, W1. apply eq_true_iff_eq. rewrite !Nat.leb_le. lia.
Qed.

Lemma erase_prune d (f : kforest) : erase (prune d f) = prune d (erase f).
Proof.
  revert d. induction f as [|x k IHk r IHr]; intros [|d]; simpl; auto.
  unfold PathTab.erase in *. cbn [fmap prune]. rewrite IHk. f_equal. apply (IHr (S d)).
Qed.

(** The path of a node has one step more than it has ancestors. *)
Lemma depth_ancestors f p a : pwf f -> wf_ids (erase f) -> In (p, a) (rows f) ->
  exists l, ancestors_of (nid (pn a)) (erase f) = Some l /\ length p = S (length l) * w.
Proof.
  revert p. induction f as [|x k IHk r IHr]; intros p W I H; [inversion H|].
  destruct W as (W1 & W2 & W3 & W4).
  apply wf_cons_inv in I. destruct I as (I1 & I2 & I3 & I4 & I5).
  unfold PathTab.erase. cbn [fmap ancestors_of].
  change (fmap (fun x0 : row => pn (snd x0)) ?g) with (erase g) in *.
  cbn [rows] in H. destruct H as [->|H].
  - simpl. rewrite Nat.eqb_refl. exists []. simpl in *. split; auto. lia.
  - apply in_app_iff in H. destruct H as [H|H].
    + apply in_map_iff in H. destruct H as [[z b] [Ez Hz]]. unfold pre in Ez. simpl in Ez.
      injection Ez as <- ->.
      assert (Hid : In (nid (pn a)) (ids (erase k))).
      { rewrite erase_ids. apply in_map_iff. exists (z, a). auto. }
      destruct (Nat.eqb_spec (nid (pn (snd x))) (nid (pn a))) as [E|E]; [rewrite E in I1; tauto|].
      destruct (IHk z) as (l & -> & Hl); auto. eexists. split; [reflexivity|].
      rewrite app_length, W1, Hl. simpl. lia.
    + assert (Hid : In (nid (pn a)) (ids (erase r))).
      { rewrite erase_ids. apply in_map_iff. exists (p, a). auto. }
      destruct (Nat.eqb_spec (nid (pn (snd x))) (nid (pn a))) as [E|E]; [rewrite E in I2; tauto|].
      rewrite ancestors_of_notin by (intros Hk; eauto). apply IHr; auto.
Qed.

End PathRead.
