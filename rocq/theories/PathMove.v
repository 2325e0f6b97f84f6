(** Inserting and moving subtrees in path tables (proof infrastructure shared by
    materialized path and ltree; models no treebeard code). *)
From Coq Require Import List Arith Lia Bool Permutation Sorted.
From Verif Require Import Prelude Forest SpecFacts PathTab.
Import ListNotations.
Set Implicit Arguments.

Section PathMove.
Variable C : Type.
Variable ltb : C -> C -> bool.
Variable w : nat.
Variable A : Type.
Hypothesis ltb_irr : forall x, ltb x x = false.
Hypothesis ltb_tr : forall x y z, ltb x y = true -> ltb y z = true -> ltb x z = true.
Hypothesis ltb_tot : forall x y, ltb x y = false -> ltb y x = false -> x = y.
Hypothesis wpos : 0 < w.
Variable pn : A -> node.

Notation path := (list C).
Notation row := (list C * A)%type.
Notation kforest := (forest (list C * A)).
Notation lt := (llt ltb).
Notation isprefix := (prefixb ltb).
Notation pwf := (pwf ltb w).

Lemma split_at (l : kforest) s : pwf l -> ~ In s (map fst (roots l)) ->
  exists l1 l2, l = fapp l1 l2 /\
    (forall x, In x (roots l1) -> lt (fst x) s = true) /\
    (forall x, In x (roots l2) -> lt s (fst x) = true).
Proof.
  induction l as [|a k _ r IH]; simpl; intros W H.
  - exists Nil, Nil. simpl. tauto.
  - destruct W as (W1 & W2 & W3 & W4).
    destruct (lt (fst a) s) eqn:E.
    + destruct (IH W3) as (l1 & l2 & -> & H1 & H2); [tauto|].
      exists (Cons a k l1), l2. simpl. repeat split; auto.
      intros x [<-|Hx]; auto.
    + assert (E2 : lt s (fst a) = true).
      { destruct (lt s (fst a)) eqn:E2; auto. exfalso. apply H. left.
        apply llt_total with ltb; auto. }
      exists Nil, (Cons a k r). simpl. repeat split; auto; try tauto.
      intros x [<-|Hx]; auto. rewrite Forall_forall in W4.
      eapply llt_trans; eauto.
Qed.

Lemma pwf_insert (l1 l2 : kforest) s a c : pwf (fapp l1 l2) -> pwf c -> length s = w ->
  (forall x, In x (roots l1) -> lt (fst x) s = true) ->
  (forall x, In x (roots l2) -> lt s (fst x) = true) ->
  pwf (fapp l1 (Cons (s, a) c l2)).
Proof.
  rewrite !pwf_fapp. intros (W1 & W2 & W3) Wc L H1 H2. repeat split; simpl; auto.
  - apply Forall_forall. auto.
  - intros x y Hx [<-|Hy]; simpl; auto.
Qed.

Definition pcomp (pa pb : option (A * A)) : option (A * A) :=
  match pa, pb with Some (a, _), Some (_, c) => Some (a, c) | _, _ => None end.

Lemma At_chain q pa (l l' f f' : kforest) : At q pa l l' f f' -> forall pb l'', pold pb = pnew pa ->
  exists f'', At q pb l' l'' f' f'' /\ At q (pcomp pa pb) l l'' f f''.
Proof.
  induction 1; intros pb l'' E.
  - destruct pb as [[? ?]|]; [discriminate|]. exists l''. split; constructor.
  - destruct pb as [[b b']|]; [|discriminate]. injection E as ->.
    eexists. split; constructor.
  - destruct (IHAt pb l'' E) as (f'' & H1 & H2).
    destruct pb as [[b b']|]; [|discriminate]. destruct aa as [a a'].
    eexists. split; constructor; eauto.
  - destruct (IHAt pb l'' E) as (f'' & H1 & H2).
    destruct pb as [[b b']|]; [|discriminate]. destruct aa as [a a'].
    eexists. split; constructor; eauto.
Qed.

Lemma At_sym q pa (l l' f f' : kforest) : At q pa l l' f f' ->
  At q (option_map (fun x => (snd x, fst x)) pa) l' l f' f.
Proof. induction 1; simpl; constructor; auto. Qed.

Lemma At_id q (l l' f f' : kforest) pa : At q pa l l' f f' ->
  At q (option_map (fun x => (fst x, fst x)) pa) l l f f.
Proof. induction 1; simpl; constructor; auto. Qed.

(** A list of children in a context can be replaced. *)
Lemma At_repl q pa (l l' f f' : kforest) : At q pa l l' f f' -> forall pb l'', pold pb = pold pa ->
  exists f'', At q pb l l'' f f''.
Proof.
  intros H pb l'' E. destruct (At_chain (At_id H) pb l'') as (f'' & H1 & _); eauto.
  rewrite E. destruct pa as [[? ?]|]; auto.
Qed.

Lemma At_in q a a' (l l' f f' : kforest) : At q (Some (a, a')) l l' f f' -> In (q, a) (rows f).
Proof.
  intros H. destruct (@At_rows _ ltb w A ltb_irr ltb_tot wpos _ _ _ _ _ _ H) as (R & H1 & _).
  eapply Permutation_in; [symmetry; apply H1|]. simpl; auto.
Qed.

Lemma At_root_in q pa s a (l l' f f' : kforest) : At q pa l l' f f' -> In (s, a) (roots l) ->
  In (q ++ s, a) (rows f).
Proof.
  intros H Hs. destruct (@At_rows _ ltb w A ltb_irr ltb_tot wpos _ _ _ _ _ _ H) as (R & H1 & _).
  eapply Permutation_in; [symmetry; apply H1|]. rewrite !in_app_iff. right. right.
  apply in_map_iff. exists (s, a). split; auto.
  clear - Hs. induction l as [|b k _ r IH]; simpl in *; [tauto|].
  destruct Hs as [->|Hs]; auto. rewrite in_app_iff. auto.
Qed.

(** The sibling list at [q] after a subtree elsewhere (or in it) was removed. *)
Lemma other_list qn pan x sn (a : A) c y f f0 q pa (l : kforest) :
  At qn pan (fapp x (Cons (sn, a) c y)) (fapp x y) f f0 -> pold pan = pnew pan -> pwf f ->
  At q pa l l f f -> pold pa = pnew pa -> (pa <> None -> isprefix (qn ++ sn) q = false) ->
  exists l0, At q pa l0 l0 f0 f0 /\
    roots l0 = filter (fun r => negb (leq ltb (q ++ fst r) (qn ++ sn))) (roots l).
Proof.
  intros H E W Hq Eq N.
  assert (P := @At_remove_rows _ ltb w A ltb_irr ltb_tot wpos _ _ _ _ _ _ _ _ _ H E).
  assert (W0 : pwf f0).
  { assert (Wl := @At_pwf_l _ ltb w _ _ _ _ _ _ _ H W). apply pwf_mid in Wl.
    eapply At_pwf; eauto; tauto. }
  assert (Wc : pwf c).
  { assert (Wl := @At_pwf_l _ ltb w _ _ _ _ _ _ _ H W). apply pwf_mid in Wl. tauto. }
  assert (exists l0, At q pa l0 l0 f0 f0) as [l0 H0].
  { destruct pa as [[b b']|].
    - simpl in Eq. injection Eq as <-.
      assert (Hb := At_in Hq). apply (Permutation_in _ P) in Hb. apply in_app_iff in Hb.
      destruct Hb as [Hb|Hb].
      + destruct (row_kids _ _ _ Hb) as [l0 H0]. destruct (H0 b l0) as [f1 H1].
        exists l0. apply At_id in H1. auto.
      + exfalso. assert (Hp : isprefix (qn ++ sn) q = true).
        { simpl in Hb. destruct Hb as [Hb|Hb].
          - injection Hb as -> _. apply prefixb_refl; auto.
          - apply in_map_iff in Hb. destruct Hb as [z [Ez _]]. unfold pre in Ez.
            injection Ez as <- _. apply prefixb_app; auto. }
        rewrite N in Hp; discriminate.
    - assert (q = []) by (inversion Hq; auto). subst. exists f0. constructor. }
  exists l0. split; auto.
  set (child := fun r : row => isprefix q (fst r) && (length (fst r) =? length q + w)).
  set (other := fun r : row => negb (leq ltb (fst r) (qn ++ sn))).
  assert (F1 := @At_filter_children _ ltb w A ltb_irr ltb_tr ltb_tot wpos _ _ _ _ _ _ Hq W).
  assert (F2 := @At_filter_children _ ltb w A ltb_irr ltb_tr ltb_tot wpos _ _ _ _ _ _ H0 W0).
  fold child in F1, F2.
  assert (Es : filter other (filter child (rows f)) = filter child (rows f0)).
  { apply psorted_eq with ltb; auto.
    - apply ssorted_filter. apply ssorted_filter. eapply rows_sorted; eauto.
    - apply ssorted_filter. eapply rows_sorted; eauto.
    - rewrite (Permutation_filter other (Permutation_filter child P)), !filter_app.
      rewrite (filter_none other (filter child (subrows (qn ++ sn) a c))).
      + rewrite app_nil_r. rewrite filter_all; auto.
        intros r Hr. apply filter_In in Hr. destruct Hr as [Hr _].
        assert (Fr := @removed_no_prefix _ ltb w A ltb_irr ltb_tr ltb_tot wpos _ _ _ _ _ _ _ _ _ H E W _ Hr).
        unfold other. destruct (leq ltb (fst r) (qn ++ sn)) eqn:El; auto.
        apply leq_iff in El; auto. rewrite El, prefixb_refl in Fr; auto.
      + intros r Hr. apply filter_In in Hr. destruct Hr as [Hr Hc].
        unfold other. apply negb_false_iff, leq_iff; auto.
        simpl in Hr. destruct Hr as [<-|Hr]; auto. exfalso.
        apply in_map_iff in Hr. destruct Hr as [z [<- Hz]].
        destruct (rows_len ltb wpos _ _ Wc Hz) as [n Ln].
        unfold child in Hc. apply andb_true_iff in Hc. destruct Hc as [Hc Hl].
        apply Nat.eqb_eq in Hl. apply prefixb_iff in Hc; auto. destruct Hc as [u Eu].
        simpl in Eu, Hl. rewrite app_length in Hl.
        assert (Lq : length (qn ++ sn) <= length q) by lia.
        destruct pa as [pa|].
        * assert (isprefix (qn ++ sn) q = true); [|rewrite N in *; discriminate].
          apply prefixb_iff; auto. exists (skipn (length (qn ++ sn)) q).
          assert (Ef : firstn (length (qn ++ sn)) ((qn ++ sn) ++ fst z)
                     = firstn (length (qn ++ sn)) (q ++ u)) by congruence.
          rewrite firstn_app, firstn_all, Nat.sub_diag in Ef. simpl in Ef. rewrite app_nil_r in Ef.
          rewrite firstn_app in Ef.
          replace (length (qn ++ sn) - length q) with 0 in Ef by lia. simpl in Ef.
          rewrite app_nil_r in Ef. rewrite Ef at 1. symmetry. apply firstn_skipn.
        * assert (q = []) by (inversion Hq; auto). subst q.
          assert (Wl := @At_pwf_l _ ltb w _ _ _ _ _ _ _ H W). apply pwf_mid in Wl.
          rewrite app_length in Lq. simpl in Lq. lia. }
  rewrite F1, F2, filter_map in Es.
  assert (Einj : forall L1 L2, map (pre q) L1 = map (pre q) L2 -> L1 = L2 :> list row).
  { clear. induction L1 as [|[p1 a1] L1 IH]; intros [|[p2 a2] L2] E; try discriminate; auto.
    simpl in E. unfold pre in E at 1 3. simpl in E. injection E as E1 E2 E3.
    apply app_inv_head in E1. subst. f_equal. auto. }
  apply Einj in Es. rewrite <- Es. reflexivity.
Qed.

(** Moving the subtree at path [np] to the free segment [s'] of the sibling list at [q]. *)
Lemma move_general (f : kforest) np a q pa (l : kforest) s' :
  pwf f -> In (np, a) (rows f) -> At q pa l l f f -> pold pa = pnew pa ->
  (pa <> None -> isprefix np q = false) -> length s' = w -> ~ In s' (map fst (roots l)) ->
  exists qn sn pan x c y f0 m1 m2 f2,
    np = qn ++ sn /\ length sn = w /\ pold pan = pnew pan /\
    At qn pan (fapp x (Cons (sn, a) c y)) (fapp x y) f f0 /\
    At q pa (fapp m1 m2) (fapp m1 (Cons (s', a) c m2)) f0 f2 /\
    pwf f0 /\ pwf f2 /\
    roots (fapp m1 m2) = filter (fun r => negb (leq ltb (q ++ fst r) np)) (roots l) /\
    (forall r, In r (roots m1) -> lt (fst r) s' = true) /\
    (forall r, In r (roots m2) -> lt s' (fst r) = true).
Proof.
  intros W Hn Hq Eq N Ls Hs.
  destruct (row_siblings _ _ _ Hn) as (qn & sn & up & ln & -> & Hsn & Hc).
  destruct (roots_split _ _ Hsn) as (x & c & y & ->).
  destruct (Hc (fapp x y) up) as [f0 H]; [tauto|].
  set (pan := match up with Some u => Some (u, u) | None => None end).
  assert (Hpan : At qn pan (fapp x (Cons (sn, a) c y)) (fapp x y) f f0) by (destruct up; auto).
  assert (En : pold pan = pnew pan) by (destruct up; auto).
  assert (W0 : pwf f0).
  { assert (Wl := @At_pwf_l _ ltb w _ _ _ _ _ _ _ Hpan W). apply pwf_mid in Wl.
    eapply At_pwf; eauto; tauto. }
  assert (Wc : pwf c /\ length sn = w).
  { assert (Wl := @At_pwf_l _ ltb w _ _ _ _ _ _ _ Hpan W). apply pwf_mid in Wl. tauto. }
  destruct (other_list _ _ _ _ _ Hpan En W Hq Eq N) as (l0 & H0 & Er).
  assert (Wl0 : pwf l0) by (eapply At_pwf_l; eauto).
  destruct (@split_at l0 s' Wl0) as (m1 & m2 & -> & B1 & B2).
  { rewrite Er. intros Hi. apply Hs. apply in_map_iff in Hi. destruct Hi as [r [E Hi]].
    apply filter_In in Hi. apply in_map_iff. exists r. tauto. }
  destruct (@At_repl _ _ _ _ _ _ H0 pa (fapp m1 (Cons (s', a) c m2)) eq_refl) as [f2 H2].
  exists qn, sn, pan, x, c, y, f0, m1, m2, f2. repeat split; try tauto; auto.
  eapply At_pwf; eauto. apply pwf_insert; tauto.
Qed.

Lemma erase_fapp (l1 l2 : kforest) : erase pn (fapp l1 l2) = fapp (erase pn l1) (erase pn l2).
Proof. apply fmap_fapp. Qed.

Lemma erase_roots (l : kforest) : roots (erase pn l) = map (fun r => pn (snd r)) (roots l).
Proof. apply roots_fmap. Qed.

(** The forest of users nodes changes as the specification says. *)
Lemma move_spec qn pan x sn a c y (f f0 : kforest) q pa m1 s' m2 (f2 : kforest) wh up :
  At qn pan (fapp x (Cons (sn, a) c y)) (fapp x y) f f0 ->
  (forall a a', pan = Some (a, a') -> pn a = pn a') ->
  At q pa (fapp m1 m2) (fapp m1 (Cons (s', a) c m2)) f0 f2 ->
  (forall a a', pa = Some (a, a') -> pn a = pn a') ->
  wf_ids (erase pn f) -> up = option_map (fun z => nid (pn (fst z))) pa ->
  ins_split wh (map (fun r => pn (snd r)) (roots m1)) (map (fun r => pn (snd r)) (roots m2)) ->
  erase pn f2 = at_kids up (ins wh (subtree (nid (pn a)) (erase pn f))) (remove (nid (pn a)) (erase pn f)).
Proof.
  intros H1 E1 H2 E2 W -> Hw.
  assert (C1 := At_Ctx pn H1 E1). assert (C2 := At_Ctx pn H2 E2).
  rewrite !erase_fapp in C1.
  change (erase pn (Cons (sn, a) c y)) with (Cons (pn a) (erase pn c) (erase pn y)) in C1.
  assert (Wr : wf_ids (erase pn f0)).
  { eapply Ctx_wf; [exact C1|auto| |].
    - assert (Wl := Ctx_wf_l C1 W). unfold wf_ids in *. rewrite ids_fapp, ids_cons in *.
      apply NoDup_app_iff in Wl. destruct Wl as (Wa & Wb & Wc). inversion Wb; subst.
      apply NoDup_app_iff in H4. apply NoDup_app_iff. repeat split; try tauto.
      intros z Hz1 Hz2. apply (Wc z); auto. simpl. rewrite in_app_iff. auto.
    - intros z Hz. left. rewrite ids_fapp, ids_cons in *. rewrite in_app_iff in *. simpl.
      rewrite in_app_iff. tauto. }
  rewrite (@Ctx_subtree _ _ _ _ _ _ _ _ C1 W). rewrite (@Ctx_remove _ _ _ _ _ _ _ C1 W).
  symmetry. eapply Ctx_at_kids; [exact C2|auto|].
  rewrite !erase_fapp. rewrite ins_split_ok by (rewrite !erase_roots; auto). reflexivity.
Qed.

(** Inserting a new leaf. *)
Lemma insert_spec q pa m1 s' a m2 (f f2 : kforest) wh up :
  At q pa (fapp m1 m2) (fapp m1 (Cons (s', a) Nil m2)) f f2 ->
  (forall a a', pa = Some (a, a') -> pn a = pn a') ->
  wf_ids (erase pn f) -> up = option_map (fun z => nid (pn (fst z))) pa ->
  ins_split wh (map (fun r => pn (snd r)) (roots m1)) (map (fun r => pn (snd r)) (roots m2)) ->
  erase pn f2 = at_kids up (ins wh (leaf (pn a))) (erase pn f).
Proof.
  intros H2 E2 W -> Hw.
  assert (C2 := At_Ctx pn H2 E2).
  symmetry. eapply Ctx_at_kids; [exact C2|auto|].
  rewrite !erase_fapp. rewrite ins_split_ok by (rewrite !erase_roots; auto). reflexivity.
Qed.

End PathMove.
