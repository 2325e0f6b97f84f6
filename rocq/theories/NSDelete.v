(** Deleting nodes of nested set trees. *)
From Coq Require Import String List Arith ZArith Lia Bool Permutation Sorted.
From Verif Require Import Prelude Forest SpecFacts CommonModel Order History NSModel NSInv NSReads NSUpd NSAdd NSCut NSMove.
Import ListNotations.
Local Open Scope Z_scope.

(** ** The ranges *)
Section Ranges.
Variable S : nat -> bool.

(** The ranges of the topmost nodes in [S]. *)
Fixpoint rngs (T b : Z) (f : forest node) : list (Z * Z * Z) :=
  match f with
  | Nil => []
  | Cons a k r =>
      let s := Z.of_nat (size k) in
      (if S (nid a) then [(T, b, b + 2 * s + 1)] else rngs T (b + 1) k) ++ rngs T (b + 2 * s + 2) r
  end.

Fixpoint rngs_all (ts : list Z) (F : forest node) : list (Z * Z * Z) :=
  match F, ts with
  | Cons a k r, T :: ts => rngs T 1 (Cons a k Nil) ++ rngs_all ts r
  | _, _ => []
  end.

Definition sel_rows (L : ns_table) : ns_table := filter (fun r => S (n_pk r)) L.

Definition clear (T b : Z) (last : option nsrow) : Prop :=
  match last with None => True | Some p => n_tree p <> T \/ n_rgt p < b end.

Lemma del_skip p L rest : (forall r, In r L -> n_tree r = n_tree p /\ n_lft p <= n_lft r /\ n_rgt r <= n_rgt p) ->
  delete_ranges (Some p) (L ++ rest) = delete_ranges (Some p) rest.
Proof.
  induction L as [|r L IH]; intros H; auto. cbn [app delete_ranges].
  destruct (H r) as (H1 & H2 & H3); [simpl; auto|].
  replace ((n_tree p =? n_tree r) && (n_lft p <=? n_lft r) && (n_rgt r <=? n_rgt p)) with true.
  - apply IH. intros; apply H; simpl; auto.
  - symmetry. rewrite !andb_true_iff, Z.eqb_eq, !Z.leb_le. auto.
Qed.

Lemma del_number T f : forall d b last rest, clear T b last -> exists last',
  (last' = last \/ exists p, last' = Some p /\ n_tree p = T /\ n_rgt p < b + 2 * Z.of_nat (size f)) /\
  delete_ranges last (sel_rows (number T d b f) ++ rest) = rngs T b f ++ delete_ranges last' rest.
Proof.
  induction f as [|a k IHk r IHr]; intros d b last rest Hc; cbn [number rngs].
  - exists last. auto.
  - unfold sel_rows in *. cbn [filter]. rewrite filter_app. cbn [n_pk]. cbn [size]. destruct (S (nid a)) eqn:Es.
    + set (x := mkNS (nid a) T b (b + 2 * Z.of_nat (size k) + 1) d (ndata a)). cbn [app delete_ranges].
      replace (match last with Some p => _ | None => false end) with false.
      2:{ destruct last as [p|]; auto. cbn [clear] in Hc. symmetry. rewrite !andb_false_iff, Z.eqb_neq, !Z.leb_gt.
          cbn [x n_tree n_lft n_rgt]. destruct Hc as [Hc|Hc]; [auto|right; lia]. }
      rewrite <- app_assoc, del_skip.
      * destruct (IHr d (b + 2 * Z.of_nat (size k) + 2) (Some x) rest) as (last' & Hl & E).
        { right. cbn [x n_rgt]. lia. }
        exists last'. split.
        -- right. destruct Hl as [->|(p & -> & H1 & H2)].
           ++ exists x. split; auto. split; auto. cbn [x n_rgt]. lia.
           ++ exists p. split; auto. split; auto. lia.
        -- rewrite E. auto.
      * intros y Hy. apply filter_In in Hy. destruct Hy as [Hy _].
        rewrite (number_tree _ _ _ _ _ Hy). apply number_bounds in Hy. cbn [x n_tree n_lft n_rgt]. lia.
    + rewrite <- app_assoc. destruct (IHk (d + 1) (b + 1) last (filter (fun r => S (n_pk r)) (number T d (b + 2 * Z.of_nat (size k) + 2) r) ++ rest)) as (l1 & H1 & E1).
      { destruct last as [p|]; auto. cbn [clear] in *. lia. }
      rewrite E1. destruct (IHr d (b + 2 * Z.of_nat (size k) + 2) l1 rest) as (l2 & H2 & E2).
      { destruct H1 as [->|(p & -> & P1 & P2)].
        - destruct last as [p|]; auto. cbn [clear] in *. lia.
        - cbn [clear]. right. lia. }
      rewrite E2. exists l2. split; [|rewrite <- app_assoc; auto].
      destruct H2 as [->|(p & -> & P1 & P2)]; [|right; exists p; split; auto; split; auto; lia].
      destruct H1 as [->|(p & -> & P1 & P2)]; [auto|]. right. exists p. split; auto. split; auto. lia.
Qed.

Lemma del_layout ts F : forall last, NoDup ts -> length ts = length (roots F) ->
  (forall p, last = Some p -> ~ In (n_tree p) ts) -> delete_ranges last (sel_rows (layout ts F)) = rngs_all ts F.
Proof.
  revert ts. induction F as [|a k _ r IH]; intros [|T ts] last ND E Hl; try discriminate; auto.
  cbn [layout rngs_all]. unfold sel_rows. rewrite filter_app. apply NoDup_cons_iff in ND. destruct ND as [N1 N2].
  destruct (del_number T (Cons a k Nil) 1 1 last (sel_rows (layout ts r))) as (l1 & H1 & E1).
  { destruct last as [p|]; cbn [clear]; auto. left. intros Ep. apply (Hl p eq_refl). simpl. auto. }
  unfold sel_rows in E1. rewrite E1. f_equal. apply IH; auto.
  intros p ->. destruct H1 as [E0|(q & E0 & Q1 & Q2)].
  - specialize (Hl p (eq_sym E0)). simpl in Hl. tauto.
  - injection E0 as ->. rewrite Q1. auto.
Qed.

(** Their order. *)
Definition tr_lt (x y : Z * Z * Z) : Prop := triple_lt x y = true.

Lemma tr_lt_iff x y : tr_lt x y <-> fst (fst x) < fst (fst y) \/ (fst (fst x) = fst (fst y) /\
  (snd (fst x) < snd (fst y) \/ (snd (fst x) = snd (fst y) /\ snd x < snd y))).
Proof.
  unfold tr_lt, triple_lt, pair_lt. rewrite !orb_true_iff, !andb_true_iff, !Z.ltb_lt, !Z.eqb_eq. tauto.
Qed.

Lemma rngs_in T f : forall b x, In x (rngs T b f) ->
  fst (fst x) = T /\ b <= snd (fst x) /\ snd (fst x) < snd x /\ snd x < b + 2 * Z.of_nat (size f).
Proof.
  induction f as [|a k IHk r IHr]; intros b x; cbn [rngs size]; [intros []|]. rewrite in_app_iff. intros [H|H].
  - destruct (S (nid a)).
    + destruct H as [<-|[]]. cbn [fst snd]. lia.
    + apply IHk in H. lia.
  - apply IHr in H. lia.
Qed.

Lemma SS_app {X} (R : X -> X -> Prop) A B : StronglySorted R A -> StronglySorted R B ->
  (forall x y, In x A -> In y B -> R x y) -> StronglySorted R (A ++ B).
Proof.
  induction A as [|a A IH]; intros SA SB H; cbn [app]; auto. inversion SA; subst. constructor.
  - apply IH; auto. intros; apply H; simpl; auto.
  - apply Forall_app. split; auto. apply Forall_forall. intros; apply H; simpl; auto.
Qed.

Lemma SS_rev {X} (R : X -> X -> Prop) A : StronglySorted R A -> StronglySorted (fun x y => R y x) (rev A).
Proof.
  induction 1 as [|a A H IH HA]; cbn [rev]; [constructor|]. apply SS_app; auto; [repeat constructor|].
  intros x y Hx [<-|[]]. rewrite Forall_forall in HA. apply HA, in_rev. auto.
Qed.

Lemma rngs_sorted T f : forall b, StronglySorted tr_lt (rngs T b f).
Proof.
  induction f as [|a k IHk r IHr]; intros b; cbn [rngs]; [constructor|]. apply SS_app; auto.
  - destruct (S (nid a)); auto. repeat constructor.
  - intros x y Hx Hy. apply rngs_in in Hy. apply tr_lt_iff. destruct (S (nid a)).
    + destruct Hx as [<-|[]]. cbn [fst snd]. lia.
    + apply rngs_in in Hx. lia.
Qed.

Lemma rngs_all_tree ts F x : In x (rngs_all ts F) -> In (fst (fst x)) ts.
Proof.
  revert ts. induction F as [|a k _ r IH]; intros [|T ts]; cbn [rngs_all]; try (intros []; fail).
  rewrite in_app_iff. intros [H|H]; [apply rngs_in in H; simpl; left; symmetry; tauto|right; auto].
Qed.

Lemma rngs_all_sorted ts F : StronglySorted Z.lt ts -> StronglySorted tr_lt (rngs_all ts F).
Proof.
  revert ts. induction F as [|a k _ r IH]; intros [|T ts] ST; cbn [rngs_all]; try constructor.
  inversion ST; subst. apply SS_app; auto; [apply rngs_sorted|].
  intros x y Hx Hy. apply rngs_in in Hx. apply rngs_all_tree in Hy. rewrite Forall_forall in H2. apply H2 in Hy.
  apply tr_lt_iff. lia.
Qed.

Lemma sort_rev l : StronglySorted tr_lt l -> sort_ranges l = rev l.
Proof.
  intros H. unfold sort_ranges.
  apply isort_unique with (key := fun x : Z * Z * Z => x) (ltb := fun x y => triple_lt y x) (lt := fun x y => tr_lt y x).
  - intros x y. unfold tr_lt. tauto.
  - intros x Hx. apply tr_lt_iff in Hx. lia.
  - intros x y z H1 H2. apply tr_lt_iff in H1, H2. apply tr_lt_iff. lia.
  - apply SS_rev. auto.
  - apply Permutation_rev.
Qed.

(** ** The rows in the ranges *)
Lemma in_rngs T f r : forall d b, wf_ids f -> In r (number T d b f) ->
  (existsb (in_del_range r) (rngs T b f) = true <-> In (n_pk r) (under S f)).
Proof.
  induction f as [|a k IHk s IHs]; intros d b W; cbn [number]; [intros []|].
  apply wf_cons_inv in W. destruct W as (W1 & W2 & W3 & W4 & W5).
  assert (Out : forall f' b' y, (b' + 2 * Z.of_nat (size f') <= n_lft y \/ n_lft y < b') ->
            existsb (in_del_range y) (rngs T b' f') = false).
  { intros f' b' y Hy. apply existsb_false. intros [[T0 l] g] Hx. apply rngs_in in Hx. cbn [fst snd] in Hx.
    unfold in_del_range. rewrite !andb_false_iff, !Z.leb_gt. left. lia. }
  cbn [rngs under In]. rewrite in_app_iff, existsb_app, orb_true_iff. intros [<-|[H|H]].
  - cbn [n_pk]. rewrite (Out s) by (cbn [n_lft]; lia). destruct (S (nid a)).
    + cbn [existsb]. unfold in_del_range. cbn [n_lft n_tree]. rewrite !Z.eqb_refl, Z.leb_refl.
      replace (b <=? b + 2 * Z.of_nat (size k) + 1) with true by (symmetry; apply Z.leb_le; lia). simpl. tauto.
    + rewrite (Out k) by (cbn [n_lft]; lia). split; [intros [?|?]; discriminate|].
      intros Hu. apply in_app_iff in Hu. destruct Hu as [Hu|Hu]; apply under_ids in Hu; tauto.
  - assert (Hp : In (n_pk r) (ids k)) by (rewrite <- (number_pks T (d + 1) (b + 1) k); apply in_map; auto).
    assert (Nb := number_bounds _ _ _ _ _ H). rewrite (Out s) by lia. destruct (S (nid a)).
    + cbn [existsb]. unfold in_del_range. rewrite (number_tree _ _ _ _ _ H), Z.eqb_refl.
      replace (b <=? n_lft r) with true by (symmetry; apply Z.leb_le; lia).
      replace (n_lft r <=? b + 2 * Z.of_nat (size k) + 1) with true by (symmetry; apply Z.leb_le; lia).
      cbn [In]. rewrite in_app_iff. simpl. tauto.
    + rewrite (IHk (d + 1) (b + 1) W3 H), in_app_iff. split; [intros [?|?]; [auto|discriminate]|].
      intros [?|Hu]; auto. apply under_ids in Hu. destruct (W5 (n_pk r)); auto.
  - assert (Hp : In (n_pk r) (ids s)) by (rewrite <- (number_pks T d (b + 2 * Z.of_nat (size k) + 2) s); apply in_map; auto).
    assert (Nb := number_bounds _ _ _ _ _ H). rewrite (IHs d (b + 2 * Z.of_nat (size k) + 2) W4 H). destruct (S (nid a)).
    + cbn [existsb]. unfold in_del_range at 1.
      replace (n_lft r <=? b + 2 * Z.of_nat (size k) + 1) with false by (symmetry; apply Z.leb_gt; lia).
      rewrite andb_false_r. cbn [In]. rewrite in_app_iff. split; [intros [?|?]; [discriminate|auto]|].
      intros [E|[E|E]]; auto; exfalso; [apply W2; congruence|destruct (W5 (n_pk r)); auto].
    + rewrite (Out k) by lia. rewrite in_app_iff. split; [intros [?|?]; [discriminate|auto]|].
      intros [Hu|?]; auto. apply under_ids in Hu. destruct (W5 (n_pk r)); auto.
Qed.

Lemma in_rngs_all r F : forall ts, wf_ids F -> NoDup ts -> length ts = length (roots F) -> In r (layout ts F) ->
  (existsb (in_del_range r) (rngs_all ts F) = true <-> In (n_pk r) (under S F)).
Proof.
  induction F as [|a k _ s IH]; intros [|T ts] W ND Len; cbn [layout]; try (intros []; fail).
  cbn [roots length] in Len. injection Len as Len. change (Cons a k s) with (fapp (Cons a k Nil) s) in *. assert (W' := W). apply wf_fapp_inv in W'. destruct W' as (W1 & W2 & W3).
  apply NoDup_cons_iff in ND. destruct ND as [N1 N2]. rewrite under_fapp, in_app_iff. cbn [fapp rngs_all].
  rewrite existsb_app, orb_true_iff, in_app_iff. intros [H|H].
  - assert (Ht := number_tree _ _ _ _ _ H).
    replace (existsb (in_del_range r) (rngs_all ts s)) with false.
    + rewrite (in_rngs T (Cons a k Nil) r 1 1 W1 H). split; [intros [?|?]; [auto|discriminate]|].
      intros [?|Hu]; auto. apply under_ids in Hu. exfalso. apply (W3 (n_pk r)); auto.
      rewrite <- (number_pks T 1 1 (Cons a k Nil)). apply in_map. auto.
    + symmetry. apply existsb_false. intros [[T0 l] g] Hx. apply rngs_all_tree in Hx. cbn [fst] in Hx.
      unfold in_del_range. rewrite !andb_false_iff, Z.eqb_neq. right. congruence.
  - assert (Ht := layout_tree _ _ _ H).
    replace (existsb (in_del_range r) (rngs T 1 (Cons a k Nil))) with false.
    + rewrite (IH ts W2 N2 Len H). split; [intros [?|?]; [discriminate|auto]|].
      intros [Hu|?]; auto. apply under_ids in Hu. exfalso. apply (W3 (n_pk r)); auto.
      rewrite <- (layout_pks ts s) by auto. apply in_map. auto.
    + symmetry. apply existsb_false. intros [[T0 l] g] Hx. apply rngs_in in Hx. cbn [fst] in Hx.
      unfold in_del_range. rewrite !andb_false_iff, Z.eqb_neq. right. intros E. apply N1. destruct Hx as [<- _]. congruence.
Qed.

(** ** Blanking the removed brackets *)
Variable D : nat -> bool.

Definition bl (c : cell) : cell := if keep D c then c else None.

Lemma bl_seg (X : list tok) : (forall x, In x X -> D (tok_id x) = true) -> map bl (map Some X) = holes (length X).
Proof.
  induction X as [|x X IH]; intros H; auto. cbn [map length repeat]. unfold bl at 1. cbn [keep].
  rewrite H by (simpl; auto). cbn [negb]. f_equal. apply IH. intros; apply H; simpl; auto.
Qed.

Lemma bl_bal f : wf_ids f -> trace S D f -> bal (map bl (cells f)) = 0.
Proof.
  induction f as [|a k IHk r IHr]; intros W T; auto. assert (W' := wf_cons_inv W). destruct W' as (W1 & W2 & W3 & W4 & W5).
  destruct (S (nid a)) eqn:Es.
  - destruct (trace_cut S D a k r W T Es) as (T1 & T2).
    change (Cons a k r) with (fapp (Cons a k Nil) r). rewrite toks_fapp, !map_app, bal_app, IHr by auto.
    rewrite bl_seg, bal_holes; auto. intros x Hx. apply T1, toks_id; auto.
  - destruct (trace_kept S D a k r W T Es) as (T0 & T1 & T2).
    cbn [toks map]. rewrite !map_app. cbn [map]. unfold bl at 1 3. cbn [keep tok_id]. rewrite T0. cbn [negb bal].
    rewrite bal_app. cbn [bal]. rewrite IHk, IHr by auto. lia.
Qed.

Lemma bl_prefix f : wf_ids f -> trace S D f -> forall i x, nth_error (cells f) i = Some (Some x) -> D (tok_id x) = false ->
  bal (firstn i (map bl (cells f))) = bal (firstn i (cells f)).
Proof.
  induction f as [|a k IHk r IHr]; intros W T i x Hn Hd; [destruct i; discriminate|].
  assert (W' := wf_cons_inv W). destruct W' as (W1 & W2 & W3 & W4 & W5).
  destruct (S (nid a)) eqn:Es.
  - destruct (trace_cut S D a k r W T Es) as (T1 & T2).
    change (Cons a k r) with (fapp (Cons a k Nil) r) in *. rewrite toks_fapp, !map_app in *.
    assert (Hi : (length (cells (Cons a k Nil)) <= i)%nat).
    { destruct (le_lt_dec (length (cells (Cons a k Nil))) i); auto. exfalso. rewrite nth_error_app1 in Hn by auto.
      apply nth_error_In in Hn. apply in_map_iff in Hn. destruct Hn as (y & E & Hy). injection E as ->.
      apply toks_id, T1 in Hy. congruence. }
    rewrite nth_error_app2 in Hn by auto. rewrite !firstn_app, !bal_app, (firstn_all2 (map bl _)), (firstn_all2 (map Some _)) by (rewrite ?map_length in *; lia).
    rewrite map_length. rewrite (IHr W4 T2 _ _ Hn Hd). rewrite bl_seg, bal_holes, bal_toks; auto.
    intros y Hy. apply T1, toks_id; auto.
  - destruct (trace_kept S D a k r W T Es) as (T0 & T1 & T2).
    cbn [toks map] in *. rewrite !map_app in *. cbn [map] in *. destruct i as [|i]; auto. cbn [nth_error] in Hn.
    assert (B1 : bl (Some (TO a)) = Some (TO a)) by (unfold bl; cbn [keep tok_id]; rewrite T0; auto).
    assert (B2 : bl (Some (TC (nid a))) = Some (TC (nid a))) by (unfold bl; cbn [keep tok_id]; rewrite T0; auto).
    rewrite B1, B2. cbn [firstn bal]. f_equal.
    destruct (lt_dec i (length (cells k))) as [L|L].
    + rewrite nth_error_app1 in Hn by auto. rewrite !firstn_app, !map_length in *.
      replace (i - length (toks k))%nat with 0%nat by lia. cbn [firstn]. rewrite !app_nil_r. eapply IHk; eauto.
    + rewrite nth_error_app2 in Hn by lia. rewrite !firstn_app, !bal_app, (firstn_all2 (map bl _)), (firstn_all2 (map Some _)) by (rewrite ?map_length in *; lia).
      rewrite bl_bal, bal_toks by auto. f_equal. rewrite !map_length in *.
      destruct (i - length (toks k))%nat as [|j]; auto. cbn [firstn bal nth_error] in *. f_equal. eapply IHr; eauto.
Qed.

Lemma bl_row f r : wf_ids f -> trace S D f -> ok_row (cells f) r -> D (n_pk r) = false -> ok_row (map bl (cells f)) r.
Proof.
  intros W T (i & j & L & R & Lt & O & C & Dp) Hd. exists i, j. split; auto. split; auto. split; auto.
  split; [|split].
  - rewrite nth_error_map, O. cbn [option_map]. unfold bl. cbn [keep tok_id nid]. rewrite Hd. auto.
  - rewrite nth_error_map, C. cbn [option_map]. unfold bl. cbn [keep tok_id]. rewrite Hd. auto.
  - rewrite (bl_prefix f W T i _ O); auto.
Qed.

Lemma bl_spread F U r : forall ts, wf_ids F -> trace S D F -> ok_row (spread ts F U) r -> D (n_pk r) = false ->
  ok_row (map bl (spread ts F U)) r.
Proof.
  induction F as [|a k _ s IH]; intros [|T ts] W Tr H Hd; auto.
  change (Cons a k s) with (fapp (Cons a k Nil) s) in W, Tr. destruct (trace_fapp S D _ _ W Tr) as [Tr1 Tr2].
  apply wf_fapp_inv in W. destruct W as (W1 & W2 & W3). cbn [spread] in *. destruct (U =? T); auto. apply bl_row; auto.
Qed.

(** ** Closing the gaps *)
Definition close1 (d : ns_db) (x : Z * Z * Z) : ns_db := let '(tree, lft, rgt) := x in close_gap d lft rgt tree.

Lemma close_step db Xs T A B g : laid (ns_rows db) Xs -> Xs T = A ++ holes g ++ B -> forall l,
  l = len A + 1 -> laid (ns_rows (close_gap db l (len A + Z.of_nat g) T)) (upd Xs T (A ++ B)).
Proof.
  intros La E l ->. unfold close_gap. replace (- (len A + Z.of_nat g - (len A + 1) + 1)) with (- Z.of_nat g) by lia.
  apply close_laid; auto.
Qed.

Lemma close_number T f : wf_ids f -> trace S D f -> forall db Xs A B, laid (ns_rows db) Xs -> Xs T = A ++ map bl (cells f) ++ B ->
  laid (ns_rows (fold_left close1 (rev (rngs T (len A + 1) f)) db)) (upd Xs T (A ++ filter (keep D) (cells f) ++ B)).
Proof.
  induction f as [|a k IHk r IHr]; intros W Tr db Xs A B La E.
  - cbn [rngs rev fold_left toks map filter app] in *. eapply laid_ext; [|exact La]. intros U. unfold upd.
    destruct (Z.eqb_spec U T) as [->|]; auto.
  - assert (W' := wf_cons_inv W). destruct W' as (W1 & W2 & W3 & W4 & W5). cbn [rngs]. rewrite rev_app_distr, fold_left_app.
    destruct (S (nid a)) eqn:Es.
    + destruct (trace_cut S D a k r W Tr Es) as (T1 & T2).
      set (s := Cons a k Nil). change (Cons a k r) with (fapp s r) in *. rewrite toks_fapp, !map_app in *.
      assert (Hb : map bl (cells s) = holes (length (toks s))) by (apply bl_seg; intros x Hx; apply T1, toks_id; auto).
      assert (Hk : filter (keep D) (cells s) = []) by (apply filter_keep_none; intros x Hx; apply T1, toks_id; auto).
      rewrite Hb in E. assert (Lh : len (A ++ holes (length (toks s))) = len A + Z.of_nat (length (toks s))) by (rewrite app_length, repeat_length; lia).
      assert (Ls : Z.of_nat (length (toks s)) = 2 * Z.of_nat (size k) + 2) by (rewrite toks_len; unfold s; cbn [size]; lia).
      assert (G := IHr W4 T2 db Xs (A ++ holes (length (toks s))) B La ltac:(rewrite E, <- !app_assoc; auto)).
      rewrite Lh in G. replace (len A + Z.of_nat (length (toks s)) + 1) with (len A + 1 + 2 * Z.of_nat (size k) + 2) in G by lia.
      set (db1 := fold_left close1 (rev (rngs T (len A + 1 + 2 * Z.of_nat (size k) + 2) r)) db) in *.
      cbn [rev app fold_left close1].
      assert (G2 := close_step db1 _ T A (filter (keep D) (cells r) ++ B) (length (toks s)) G
                 ltac:(rewrite upd_same, <- !app_assoc; auto) _ eq_refl).
      replace (len A + 1 + 2 * Z.of_nat (size k) + 1) with (len A + Z.of_nat (length (toks s))) by lia.
      eapply laid_ext; [|exact G2]. intros U. unfold upd. destruct (U =? T); auto.
      rewrite filter_app, Hk. auto.
    + destruct (trace_kept S D a k r W Tr Es) as (T0 & T1 & T2).
      assert (B1 : bl (Some (TO a)) = Some (TO a)) by (unfold bl; cbn [keep tok_id]; rewrite T0; auto).
      assert (B2 : bl (Some (TC (nid a))) = Some (TC (nid a))) by (unfold bl; cbn [keep tok_id]; rewrite T0; auto).
      cbn [toks map] in *. rewrite !map_app in *. cbn [map] in *. rewrite B1, B2 in E.
      set (A1 := A ++ Some (TO a) :: map bl (cells k) ++ [Some (TC (nid a))]).
      assert (E1 : Xs T = A1 ++ map bl (cells r) ++ B).
      { rewrite E. unfold A1. rewrite <- !app_assoc. cbn [app]. rewrite <- !app_assoc. auto. }
      assert (L1 : len A1 + 1 = len A + 1 + 2 * Z.of_nat (size k) + 2).
      { unfold A1. rewrite app_length. cbn [length]. rewrite app_length, !map_length, toks_len. cbn [length]. lia. }
      assert (G := IHr W4 T2 db Xs A1 B La E1). rewrite L1 in G.
      set (db1 := fold_left close1 (rev (rngs T (len A + 1 + 2 * Z.of_nat (size k) + 2) r)) db) in *.
      set (A2 := A ++ [Some (TO a)]).
      assert (L2 : len A2 + 1 = len A + 1 + 1) by (unfold A2; rewrite app_length; cbn [length]; lia).
      assert (G2 := IHk W3 T1 db1 _ A2 (Some (TC (nid a)) :: filter (keep D) (cells r) ++ B) G
         ltac:(rewrite upd_same; unfold A1, A2; rewrite <- !app_assoc; cbn [app]; rewrite <- !app_assoc; auto)).
      rewrite L2 in G2. eapply laid_ext; [|exact G2]. intros U. unfold upd. destruct (U =? T); auto.
      cbn [filter keep tok_id]. rewrite T0. cbn [negb]. rewrite filter_app. cbn [filter keep tok_id]. rewrite T0. cbn [negb].
      unfold A2. rewrite <- !app_assoc. cbn [app]. rewrite <- !app_assoc. auto.
Qed.

Lemma close_layout F : wf_ids F -> trace S D F -> forall ts db Xs, NoDup ts -> length ts = length (roots F) ->
  laid (ns_rows db) Xs -> (forall U, In U ts -> Xs U = map bl (spread ts F U)) ->
  laid (ns_rows (fold_left close1 (rev (rngs_all ts F)) db))
       (fun U => if in_dec Z.eq_dec U ts then filter (keep D) (spread ts F U) else Xs U).
Proof.
  induction F as [|a k _ r IH]; intros W Tr [|T ts] db Xs ND E La Hx; try discriminate.
  - cbn [rngs_all rev fold_left]. auto.
  - change (Cons a k r) with (fapp (Cons a k Nil) r) in W, Tr. destruct (trace_fapp S D _ _ W Tr) as [Tr1 Tr2].
    apply wf_fapp_inv in W. destruct W as (W1 & W2 & W3). apply NoDup_cons_iff in ND. destruct ND as [N1 N2].
    cbn [rngs_all]. rewrite rev_app_distr, fold_left_app.
    assert (G := IH W2 Tr2 ts db Xs N2 ltac:(injection E; auto) La).
    assert (HX : forall U, In U ts -> Xs U = map bl (spread ts r U)).
    { intros U HU. rewrite Hx by (simpl; auto). cbn [spread]. destruct (Z.eqb_spec U T) as [->|]; [tauto|auto]. }
    specialize (G HX). set (db1 := fold_left close1 (rev (rngs_all ts r)) db) in *.
    assert (G2 := close_number T (Cons a k Nil) W1 Tr1 db1 _ [] [] G). cbn [app length] in G2.
    assert (ET : (fun U : Z => if in_dec Z.eq_dec U ts then filter (keep D) (spread ts r U) else Xs U) T
                 = map bl (cells (Cons a k Nil)) ++ []).
    { cbn beta. destruct (in_dec Z.eq_dec T ts); [tauto|]. rewrite app_nil_r, Hx by (simpl; auto).
      cbn [spread]. rewrite Z.eqb_refl. auto. }
    specialize (G2 ET). change (Z.of_nat 0 + 1) with 1 in G2.
    eapply laid_ext; [|exact G2]. intros U. unfold upd. destruct (Z.eqb_spec U T) as [->|N].
    + destruct (in_dec Z.eq_dec T (T :: ts)) as [_|Nn]; [|destruct Nn; simpl; auto].
      cbn [spread]. rewrite Z.eqb_refl, app_nil_r. auto.
    + cbn [spread]. destruct (Z.eqb_spec U T); [tauto|].
      destruct (in_dec Z.eq_dec U ts) as [H|H], (in_dec Z.eq_dec U (T :: ts)) as [H'|H']; auto.
      * destruct H'. simpl. auto.
      * destruct H' as [H'|H']; [congruence|tauto].
Qed.

Lemma remove_all_ids f : wf_ids f -> trace S D f -> ids (remove_all S f) = filter (fun i => negb (D i)) (ids f).
Proof.
  induction f as [|a k IHk r IHr]; intros W T; auto. assert (W' := wf_cons_inv W). destruct W' as (W1 & W2 & W3 & W4 & W5).
  rewrite ids_cons. cbn [remove_all filter]. rewrite filter_app. destruct (S (nid a)) eqn:Es.
  - destruct (trace_cut S D a k r W T Es) as (T1 & T2). rewrite ids_cons, app_nil_r in T1.
    rewrite T1 by (simpl; auto). cbn [negb]. rewrite (filter_none _ (ids k)); [apply IHr; auto|].
    intros x Hx. rewrite T1; simpl; auto.
  - destruct (trace_kept S D a k r W T Es) as (T0 & T1 & T2). rewrite T0. cbn [negb]. rewrite ids_cons, IHk, IHr by auto. auto.
Qed.
End Ranges.

(** ** The theorems *)
Lemma close_pks l : forall db, map n_pk (ns_rows (fold_left close1 l db)) = map n_pk (ns_rows db).
Proof.
  induction l as [|[[T a] b] l IH]; intros db; auto. cbn [fold_left close1]. rewrite IH. unfold close_gap. apply alter_gap_pks.
Qed.

Theorem delete_queryset_ok db F sel : stores (ns_rows db) F ->
  stores (ns_rows (delete_queryset db sel))
         (remove_all (fun i => existsb (fun r => (n_pk r =? i)%nat && sel r) (ns_rows db)) F).
Proof.
  intros St. assert (St' := St). destruct St' as (W & ts & I & P). set (t := ns_rows db) in *.
  set (S := fun i => existsb (fun r => (n_pk r =? i)%nat && sel r) t).
  assert (Pk := pks _ F ts I P). assert (ND : NoDup ts) by (apply sorted_NoDup, I).
  assert (Hsel : forall r, In r t -> sel r = S (n_pk r)).
  { intros r Hr. unfold S. apply eq_true_iff_eq. rewrite existsb_exists. split.
    - intros E. exists r. rewrite Nat.eqb_refl, E. auto.
    - intros (x & Hx & E). apply andb_true_iff in E. destruct E as [E1 E2]. apply Nat.eqb_eq in E1.
      assert (x = r) by (apply (row_eq t F ts W I P); auto). subst. auto. }
  assert (Er : delete_ranges None (order_rows (filter sel t)) = rngs_all S ts F).
  { rewrite (filter_ext_In sel (fun r => S (n_pk r)) t Hsel), (query t F ts I P).
    apply (del_layout S ts F None ND (proj1 I)). discriminate. }
  set (D := fun i => existsb (Nat.eqb i) (under S F)).
  assert (Tr : trace S D F) by (apply trace_self; auto).
  set (t' := filter (fun r => negb (D (n_pk r))) t).
  assert (Ek : filter (fun r => negb (existsb (in_del_range r) (rngs_all S ts F))) t = t').
  { apply filter_ext_In. intros r Hr. f_equal. apply eq_true_iff_eq.
    assert (Hl := Hr). apply (in_t t F ts P) in Hl. rewrite (in_rngs_all S r F ts W ND (proj1 I) Hl).
    symmetry. apply Tr. apply (Permutation_in _ Pk), in_map. auto. }
  assert (Rows : exists db0, ns_rows db0 = t' /\ ns_rows (delete_queryset db sel) = ns_rows (fold_left close1 (rev (rngs_all S ts F)) db0)).
  { unfold delete_queryset. fold t. rewrite Er. destruct (rngs_all S ts F) as [|x l] eqn:El.
    - exists db. split; auto. rewrite <- Ek. cbn [existsb negb]. symmetry. apply filter_all. auto.
    - eexists. split; [|rewrite <- (sort_rev (x :: l)) by (rewrite <- El; apply rngs_all_sorted, I); reflexivity].
      cbn [ns_rows]. exact Ek. }
  destruct Rows as (db0 & E0 & ->). apply stores_iff. split; [apply remove_all_wf; auto|].
  exists (ts_rem S ts F). split; [apply ts_rem_ok; auto|].
  assert (La : laid t (spread ts F)) by (apply layout_iff in P; auto; apply P).
  assert (La' : laid t' (fun U => map (bl D) (spread ts F U))).
  { intros r Hr. apply filter_In in Hr. destruct Hr as [Hr Hd]. apply negb_true_iff in Hd.
    apply bl_spread with (S := S); auto. }
  split.
  - assert (G := close_layout S D F W Tr ts db0 _ ND (proj1 I) ltac:(rewrite E0; exact La') ltac:(auto)).
    eapply laid_ext; [|exact G]. intros U. cbn beta. rewrite (keep_spread S D F W Tr ts ND (proj1 I)).
    destruct (in_dec Z.eq_dec U ts) as [H|H]; auto. rewrite spread_notin; auto.
  - rewrite close_pks, E0, (remove_all_ids S D F W Tr). unfold t'.
    rewrite <- (filter_map n_pk (fun i => negb (D i))). apply Permutation_filter. auto.
Qed.

Theorem delete_node_ok db F n : stores (ns_rows db) F -> In n (ns_rows db) ->
  stores (ns_rows (delete_node db n)) (remove (n_pk n) F).
Proof.
  intros H Hn. unfold delete_node. rewrite <- remove_all_one by apply H.
  replace (remove_all (fun i => (i =? n_pk n)%nat) F)
    with (remove_all (fun i => existsb (fun r => (n_pk r =? i)%nat && (n_pk r =? n_pk n)%nat) (ns_rows db)) F).
  - apply delete_queryset_ok. auto.
  - apply remove_all_ext. intros i _. apply eq_true_iff_eq. rewrite existsb_exists. split.
    + intros (r & _ & E). apply andb_true_iff in E. destruct E as [E1 E2].
      apply Nat.eqb_eq in E1. apply Nat.eqb_eq in E2. apply Nat.eqb_eq. congruence.
    + intros E. apply Nat.eqb_eq in E. subst. exists n. rewrite Nat.eqb_refl. auto.
Qed.
