(** Removing a set of subtrees from a keyed forest, and what that means for the rows:
    the rows left are those with no selected row at or above them. *)
From Coq Require Import List Arith Lia Bool Permutation.
From Verif Require Import Prelude Forest SpecFacts PathTab PathMove.
Import ListNotations.

Set Implicit Arguments.

Section PathDel.
Variable C : Type.
Variable ltb : C -> C -> bool.
Variable w : nat.
Variable A : Type.
Hypothesis ltb_irr : forall x, ltb x x = false.
Hypothesis ltb_tr : forall x y z, ltb x y = true -> ltb y z = true -> ltb x z = true.
Hypothesis ltb_tot : forall x y, ltb x y = false -> ltb y x = false -> x = y.
Hypothesis wpos : 0 < w.

Notation path := (list C).
Notation row := (list C * A)%type.
Notation kforest := (forest (list C * A)).
Notation isprefix := (prefixb ltb).
Notation pwf := (pwf ltb w).

Variable S : A -> bool.

(** Drop the selected subtrees; [g] rewrites the payload of the node at a path that stays. *)
Fixpoint kdel (g : path -> A -> A) (p : path) (f : kforest) : kforest :=
  match f with
  | Nil => Nil
  | Cons x k r =>
      if S (snd x) then kdel g p r
      else Cons (fst x, g (p ++ fst x) (snd x)) (kdel g (p ++ fst x) k) (kdel g p r)
  end.

Definition hit (l : list row) (x : row) : bool :=
  existsb (fun y => S (snd y) && isprefix (fst y) (fst x)) l.

Lemma kdel_roots g p f :
  map fst (roots (kdel g p f)) = map fst (filter (fun x => negb (S (snd x))) (roots f)).
Proof.
  induction f as [|x k IHk r IHr]; simpl; auto.
  destruct (S (snd x)); simpl; auto. f_equal. auto.
Qed.

Lemma kdel_roots_len g p f :
  length (roots (kdel g p f)) = length (filter (fun x => negb (S (snd x))) (roots f)).
Proof.
  assert (E := f_equal (@length _) (kdel_roots g p f)). rewrite !map_length in E. auto.
Qed.

Lemma kdel_pwf g p f : pwf f -> pwf (kdel g p f).
Proof.
  revert p. induction f as [|x k IHk r IHr]; simpl; intros p W; auto.
  destruct W as (W1 & W2 & W3 & W4). destruct (S (snd x)); auto.
  simpl. repeat split; auto.
  apply Forall_forall. intros y Hy. simpl.
  assert (Hf : In (fst y) (map fst (roots (kdel g p r)))) by (apply in_map; auto).
  rewrite kdel_roots in Hf. apply in_map_iff in Hf. destruct Hf as [z [<- Hz]].
  apply filter_In in Hz. rewrite Forall_forall in W4. apply W4. tauto.
Qed.

(** Rows under different siblings are never above one another. *)
Lemma cross (x : row) (k r : kforest) (a b : row) : pwf (Cons x k r) ->
  In a (x :: map (pre (fst x)) (rows k)) -> In b (rows r) ->
  isprefix (fst a) (fst b) = false /\ isprefix (fst b) (fst a) = false.
Proof.
  intros (W1 & W2 & W3 & W4) Ha Hb.
  destruct (rows_top _ _ Hb) as (sb & Hsb & u & Eb).
  assert (Ea : exists v, fst a = fst x ++ v).
  { destruct Ha as [<-|Ha]; [exists []; rewrite app_nil_r; auto|].
    apply in_map_iff in Ha. destruct Ha as [y [<- _]]. simpl. eauto. }
  destruct Ea as [v Ea].
  assert (Lb : length (fst sb) = w) by (apply roots_len with ltb r; auto).
  assert (N : fst x <> fst sb).
  { intros E. rewrite Forall_forall in W4. specialize (W4 _ Hsb).
    rewrite E, llt_irr in W4; auto. discriminate. }
  split; apply prefixb_false; auto; intros z E; rewrite Ea, Eb, <- app_assoc in E;
    apply app_eq_len in E; try (destruct E; congruence); congruence.
Qed.

Lemma hit_app l1 l2 x : hit (l1 ++ l2) x = hit l1 x || hit l2 x.
Proof. apply existsb_app. Qed.

Lemma hit_none (l : list row) (x : row) : (forall y, In y l -> isprefix (fst y) (fst x) = false) -> hit l x = false.
Proof.
  intros H. apply existsb_false. intros y Hy. rewrite H by auto. apply andb_false_r.
Qed.

Lemma hit_pre s l x : hit (map (pre s) l) (pre s x) = hit l x.
Proof.
  unfold hit. induction l as [|y l IH]; auto. cbn [map existsb].
  rewrite IH. f_equal. f_equal. unfold pre. simpl. apply prefixb_pre; auto.
Qed.

Definition grow (g : path -> A -> A) (p : path) (x : row) : row := (fst x, g (p ++ fst x) (snd x)).

Lemma kdel_rows g p f : pwf f ->
  rows (kdel g p f) = map (grow g p) (filter (fun x => negb (hit (rows f) x)) (rows f)).
Proof.
  revert p. induction f as [|x k IHk r IHr]; intros p W; auto.
  assert (W0 := W). destruct W as (W1 & W2 & W3 & W4).
  cbn [rows]. rewrite app_comm_cons, filter_app, map_app.
  assert (E1 : filter (fun b => negb (hit ((x :: map (pre (fst x)) (rows k)) ++ rows r) b)) (rows r)
               = filter (fun b => negb (hit (rows r) b)) (rows r)).
  { apply filter_ext_In. intros b Hb. f_equal. rewrite hit_app.
    rewrite (hit_none (x :: _)); auto. intros y Hy. eapply (proj1 (@cross _ _ _ _ _ W0 Hy Hb)). }
  rewrite E1. rewrite <- IHr by auto.
  assert (E2 : filter (fun a => negb (hit ((x :: map (pre (fst x)) (rows k)) ++ rows r) a))
                 (x :: map (pre (fst x)) (rows k))
               = filter (fun a => negb (hit (x :: map (pre (fst x)) (rows k)) a))
                 (x :: map (pre (fst x)) (rows k))).
  { apply filter_ext_In. intros a Ha. f_equal. rewrite hit_app.
    rewrite (hit_none (rows r)), orb_false_r; auto. intros y Hy. eapply (proj2 (@cross _ _ _ _ _ W0 Ha Hy)). }
  rewrite E2. clear E1 E2.
  assert (Px : isprefix (fst x) (fst x) = true) by (apply prefixb_refl; auto).
  cbn [kdel]. destruct (S (snd x)) eqn:Sx.
  - rewrite filter_none; auto. intros a Ha. apply negb_false_iff.
    unfold hit. cbn [existsb]. rewrite Sx. cbn [andb].
    destruct Ha as [<-|Ha]; [rewrite Px; auto|].
    apply in_map_iff in Ha. destruct Ha as [y [<- Hy]]. simpl. rewrite prefixb_app; auto.
  - cbn [rows filter].
    assert (Nx : hit (map (pre (fst x)) (rows k)) x = false).
    { apply hit_none. intros y Hy. apply in_map_iff in Hy. destruct Hy as [z [<- Hz]]. simpl.
      apply prefixb_false; auto. intros v E. rewrite <- app_assoc in E.
      rewrite <- (app_nil_r (fst x)) in E at 1. apply app_inv_head in E. symmetry in E.
      apply app_eq_nil in E. destruct E as [E _]. revert E.
      apply rows_nonempty with ltb w k; auto. }
    assert (Hx : hit (x :: map (pre (fst x)) (rows k)) x = false).
    { unfold hit in *. cbn [existsb]. rewrite Sx, Nx. auto. }
    rewrite Hx. cbn [negb map].
    assert (E3 : filter (fun a => negb (hit (x :: map (pre (fst x)) (rows k)) a)) (map (pre (fst x)) (rows k))
                 = map (pre (fst x)) (filter (fun a => negb (hit (rows k) a)) (rows k))).
    { rewrite filter_map. f_equal. apply filter_ext_In. intros a Ha. f_equal.
      unfold hit at 1. cbn [existsb]. rewrite Sx. cbn [andb orb].
      apply (hit_pre (fst x) (rows k) a). }
    rewrite E3, IHk by auto. cbn [fst]. rewrite !map_map. rewrite <- app_comm_cons. f_equal. f_equal.
    apply map_ext. intros y. unfold grow, pre. simpl. rewrite app_assoc. auto.
Qed.

(** What holds at every surviving sibling list of the forest. *)
Variable Q : path -> kforest -> Prop.
Fixpoint everywhere (p : path) (f : kforest) : Prop :=
  match f with
  | Nil => True
  | Cons x k r => (S (snd x) = false -> Q (p ++ fst x) k /\ everywhere (p ++ fst x) k)
                  /\ everywhere p r
  end.

Lemma everywhere_At f : pwf f ->
  (forall q a l, At q (Some (a, a)) l l f f -> hit (rows f) (q, a) = false -> Q q l) ->
  everywhere [] f.
Proof.
  intros W H.
  assert (G : forall l2 l1 q pa, At q pa (fapp l1 l2) (fapp l1 l2) f f -> pold pa = pnew pa ->
            (forall a, pold pa = Some a -> hit (rows f) (q, a) = false) -> everywhere q l2).
  { induction l2 as [|x k IHk r IHr]; intros l1 q pa HA Ep Hh; simpl; auto.
    destruct x as [s a]. cbn [fst snd].
    assert (Wl := @At_pwf_l _ ltb w A _ _ _ _ _ _ HA W).
    split.
    - intros Sx.
      destruct (At_kid _ _ _ _ _ HA a k) as [f'' HK0].
      assert (HK := At_id HK0). simpl in HK. clear HK0 f''.
      assert (Ha := @At_in _ ltb w A ltb_irr ltb_tot wpos _ _ _ _ _ _ _ HK).
      assert (Hn : hit (rows f) (q ++ s, a) = false).
      { apply existsb_false. intros y Hy. simpl.
        destruct (S (snd y)) eqn:Sy; auto. cbn [andb].
        destruct (isprefix (fst y) (q ++ s)) eqn:Py; auto. exfalso.
        assert (Py' := Py). apply prefixb_iff in Py'; auto. destruct Py' as [z Ez].
        destruct (@rows_len _ ltb w A wpos _ _ W Hy) as [m Lm].
        destruct (@At_len _ ltb w A wpos _ _ _ _ _ _ HA W) as [n Ln].
        assert (Ls : length s = w) by (apply pwf_mid in Wl; tauto).
        assert (Lt := f_equal (@length _) Ez). rewrite !app_length in Lt.
        destruct (Nat.le_gt_cases (Datatypes.S n) m) as [G|G]; [nia|].
        destruct (Nat.eq_dec m n) as [E|E].
        - assert (y = (q ++ s, a)) as ->.
          { destruct y as [py b]. simpl in *.
            rewrite <- (app_nil_r (q ++ s)) in Ez. apply app_eq_len in Ez; [|rewrite app_length; nia].
            destruct Ez as [E2 _]. subst py. f_equal. apply (@rows_inj _ ltb w A ltb_irr wpos f (q ++ s) b a); auto. }
          simpl in Sy. congruence.
        - assert (Hq : isprefix (fst y) q = true).
          { apply prefixb_iff; auto. exists (skipn (length (fst y)) q).
            rewrite <- (firstn_skipn (length (fst y)) q) at 1. f_equal.
            assert (Ef := f_equal (firstn (length (fst y))) Ez).
            rewrite !firstn_app in Ef. replace (length (fst y) - length q) with 0 in Ef by nia.
            rewrite Nat.sub_diag, firstn_all in Ef. simpl in Ef. rewrite !app_nil_r in Ef. auto. }
          destruct pa as [[b b']|].
          + specialize (Hh b eq_refl). unfold hit in Hh.
            rewrite existsb_false in Hh. specialize (Hh y Hy). rewrite Sy in Hh. simpl in Hh. congruence.
          + assert (q = []) by (inversion HA; auto). subst q.
            simpl in Ln. assert (n = 0) by nia. lia. }
      split; [apply H with a; auto|]. apply IHk with Nil (Some (a, a)); auto; simpl; intros; congruence.
    - apply IHr with (fapp l1 (Cons (s, a) k Nil)) pa; auto.
      rewrite fapp_assoc. simpl. auto. }
  apply G with Nil None; simpl; auto; try discriminate. constructor.
Qed.

End PathDel.
