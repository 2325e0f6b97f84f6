(** When an ltree table stores a forest, in terms of its rows only; the forest is unique. *)
From Coq Require Import List Arith Lia Bool Permutation Sorted.
From Verif Require Import Prelude Forest SpecFacts PathTab PathMove CommonModel LTModel LTLabel LTInv.
Import ListNotations.

Section Check.
Variable cfg : lt_cfg.
Notation lay := (lay cfg).
Notation stores := (stores cfg).

(** The paths are those of a forest: at least one label, labels that the generator may
    give and the database accepts, unique, and parents are present. *)
Record paths_ok (t : lt_table) : Prop := {
  po_labels : forall r, In r t -> l_path r <> [] /\
    Forall (fun l => l <> [] /\ Forall (fun c => c < 36) l /\ length l <= label_max cfg) (l_path r);
  po_uniq : NoDup (map l_path t);
  po_par : forall r, In r t -> length (l_path r) = 1 \/
             exists r' s, In r' t /\ l_path r = l_path r' ++ [s] }.

Lemma max_row (t : lt_table) : t <> [] -> exists r, In r t /\ forall x, In x t -> plt (l_path r) (l_path x) = false.
Proof.
  induction t as [|a t IH]; [congruence|]. intros _. destruct t as [|b t].
  - exists a. split; simpl; auto. intros x [<-|[]]. apply plt_irr.
  - destruct IH as (r & Hr & H); [congruence|].
    destruct (plt (l_path r) (l_path a)) eqn:E.
    + exists a. split; [left; auto|]. intros x [<-|Hx]; [apply plt_irr|].
      destruct (plt (l_path a) (l_path x)) eqn:E2; auto.
      rewrite <- (H x Hx). symmetry. eapply plt_tr; eauto.
    + exists r. split; [right; auto|]. intros x [<-|Hx]; auto.
Qed.

Definition of_row (r : ltrow) : lpath * node := (l_path r, mkNode (l_pk r) (l_data r)).

Lemma of_row_mk r : mkrow (of_row r) = r.
Proof. destruct r; auto. Qed.
Lemma mk_of_row x : of_row (mkrow x) = x.
Proof. destruct x as [p [i d]]; auto. Qed.

Lemma build t : paths_ok t -> exists f, lay t f.
Proof.
  remember (length t) as n eqn:En. revert t En. induction n as [|n IH]; intros t En P.
  - destruct t; [|discriminate]. exists Nil. repeat split; constructor.
  - destruct (max_row t) as (r & Hr & Mx); [destruct t; [discriminate|congruence]|].
    apply in_split in Hr. destruct Hr as (t1 & t2 & ->).
    set (t' := t1 ++ t2) in *.
    assert (Sub : forall x, In x t' -> In x (t1 ++ r :: t2)).
    { intros x Hx. unfold t' in Hx. rewrite in_app_iff in *. simpl. tauto. }
    assert (Hrin : In r (t1 ++ r :: t2)) by (rewrite in_app_iff; simpl; auto).
    assert (Un : NoDup (map l_path t') /\ ~ In (l_path r) (map l_path t')).
    { assert (U := po_uniq _ P). rewrite map_app in U. simpl in U.
      unfold t'. rewrite map_app. split; [eapply NoDup_remove_1|eapply NoDup_remove_2]; eauto. }
    assert (Lt : forall x, In x t' -> plt (l_path x) (l_path r) = true).
    { intros x Hx. destruct (plt (l_path x) (l_path r)) eqn:E; auto.
      exfalso. apply (proj2 Un). apply in_map_iff. exists x. split; auto.
      apply (@llt_total _ lblt lblt_irr lblt_tot); auto. }
    assert (P' : paths_ok t').
    { constructor.
      - intros x Hx. apply (po_labels _ P); auto.
      - apply Un.
      - intros x Hx. destruct (po_par _ P x (Sub x Hx)) as [E|(y & s & Hy & E)]; auto.
        right. exists y, s. split; auto. rewrite in_app_iff in Hy. simpl in Hy.
        unfold t'. rewrite in_app_iff. destruct Hy as [Hy|[<-|Hy]]; auto. exfalso.
        assert (X : plt (l_path r) (l_path x) = true).
        { rewrite E. apply llt_self_app; [apply lblt_irr|discriminate]. }
        rewrite (Mx x) in X; [discriminate|auto]. }
    destruct (IH t') as [f L]; auto.
    { rewrite app_length in En. unfold t'. rewrite app_length. simpl in En. lia. }
    destruct (po_labels _ P r Hrin) as [Hne Vr].
    destruct (exists_last Hne) as (q & s & E1).
    assert (Vs : valid_label cfg s).
    { rewrite E1, Forall_app in Vr. destruct Vr as [_ Vr]. inversion Vr; auto. }
    assert (Hin : exists pa l f', At q pa l (fapp l (Cons ([s], snd (of_row r)) Nil Nil)) f f' /\ pold pa = pnew pa).
    { destruct (po_par _ P r Hrin) as [E|(y & s' & Hy & E)].
      - exists None, f, (fapp f (Cons ([s], snd (of_row r)) Nil Nil)).
        replace q with (@nil label); [split; [apply At_top|auto]|].
        symmetry. apply length_zero_iff_nil. rewrite E1, app_length in E. cbn in E. lia.
      - rewrite E1 in E. apply app_inj_tail in E. destruct E as [E _].
        assert (Hy' : In y t').
        { rewrite in_app_iff in Hy. simpl in Hy. unfold t'. rewrite in_app_iff.
          destruct Hy as [Hy|[<-|Hy]]; auto. exfalso.
          apply (f_equal (@length _)) in E1. rewrite app_length, E in E1. cbn in E1. lia. }
        destruct (lay_in cfg _ _ _ L Hy') as ([p a] & Hx & ->).
        cbn [l_path mkrow fst] in E. subst p.
        destruct (@row_kids _ _ _ _ _ Hx) as [l Hl].
        destruct (Hl a (fapp l (Cons ([s], snd (of_row r)) Nil Nil))) as [f' HA].
        exists (Some (a, a)), l, f'. auto. }
    destruct Hin as (pa & l & f' & HA & Ep). exists f'.
    assert (W : kpwf f) by apply L.
    assert (Wl := k_At_pwf_l _ _ _ _ _ _ HA W).
    assert (W' : kpwf (fapp l (Cons ([s], snd (of_row r)) Nil Nil))).
    { apply pwf_fapp. split; auto. split; [simpl; repeat split; auto|].
      intros [s1 b] y Hx [<-|[]]. simpl.
      assert (X : plt (q ++ s1) (l_path r) = true).
      { change (q ++ s1) with (l_path (mkrow (q ++ s1, b))). apply Lt.
        eapply lay_in_rev; eauto. eapply k_root_in; eauto. }
      rewrite E1, plt_pre in X. exact X. }
    split; [eapply k_At_pwf; eauto|]. split.
    { eapply kvalid_At; [eassumption|apply L|]. apply kvalid_fapp. split.
      - eapply kvalid_At_l; [eassumption|apply L].
      - apply kvalid_cons. split; [constructor; auto|]. split; constructor. }
    assert (Pm : Permutation (rows f') (rows f ++ [of_row r])).
    { replace l with (fapp l Nil) in HA at 1 by apply fapp_nil_r.
      assert (X : Permutation (rows f') (rows f ++ subrows (q ++ [s]) (snd (of_row r)) Nil)) by (eapply At_insert_rows; eauto with lt).
      rewrite X. unfold subrows. simpl. rewrite <- E1. reflexivity. }
    rewrite Pm, map_app. cbn [map]. rewrite of_row_mk.
    destruct L as (_ & _ & PL). rewrite <- PL. unfold t'.
    rewrite <- Permutation_cons_append. symmetry. apply Permutation_middle.
Qed.

Lemma lay_paths t f : lay t f -> paths_ok t.
Proof.
  intros L. assert (W : kpwf f) by apply L. assert (V : kvalid cfg f) by apply L. constructor.
  - intros r Hr. destruct (lay_in cfg _ _ _ L Hr) as (x & Hx & ->). split.
    + intros E. assert (X := k_len _ _ W Hx). cbn in E. rewrite E in X. cbn in X. lia.
    + apply (kvalid_path cfg _ _ V Hx).
  - destruct L as (_ & _ & P). rewrite (Permutation_map l_path P), map_map. apply (k_NoDup _ W).
  - intros r Hr. destruct (locate cfg _ _ _ L Hr) as (q & s & pa & l1 & a & c & l2 & -> & Ep & H & Eq).
    cbn [l_path mkrow fst]. destruct pa as [[b b']|].
    + right. exists (mkrow (q, b)), s. split; auto. eapply lay_in_rev; eauto. eapply k_At_in; eauto.
    + left. rewrite (proj1 Eq eq_refl). auto.
Qed.

(** The exact meaning of [stores] (up to the forest) in terms of rows. *)
Theorem stores_iff t : (exists F, stores t F) <-> paths_ok t /\ NoDup (map l_pk t).
Proof.
  split.
  - intros (F & f & L & <- & I). split; [eapply lay_paths; eauto|]. rewrite (lay_pks cfg _ _ L). auto.
  - intros (P & U). destruct (build t P) as [f L]. exists (kerase f), f. split; auto. split; auto.
    unfold wf_ids. rewrite <- (lay_pks cfg _ _ L). auto.
Qed.

(** *** A table determines the forest it stores *)
Lemma rows_split_filter s (a : node) (k r : kf) : kpwf (Cons (s, a) k r) ->
  filter (fun x => ppre s (fst x)) (map (pre s) (rows k) ++ rows r) = map (pre s) (rows k) /\
  filter (fun x => negb (ppre s (fst x))) (map (pre s) (rows k) ++ rows r) = rows r.
Proof.
  intros (H1 & H2 & H3 & H4). simpl in *.
  assert (A : forall x, In x (map (pre s) (rows k)) -> ppre s (fst x) = true).
  { intros x Hx. apply in_map_iff in Hx. destruct Hx as (y & <- & _). simpl. apply ppre_app. }
  assert (B : forall x, In x (rows r) -> ppre s (fst x) = false).
  { intros x Hx. destruct (ppre s (fst x)) eqn:E; auto. exfalso.
    apply ppre_iff in E. destruct E as [y E]. destruct (rows_top _ _ Hx) as (sa & Hsa & z & Ez).
    rewrite Ez in E. apply app_eq_len in E.
    - destruct E as [E _]. rewrite Forall_forall in H4. assert (X := H4 _ Hsa). rewrite E in X.
      rewrite llt_irr in X by apply lblt_irr. discriminate.
    - rewrite H1. apply (roots_len lblt 1 _ _ H3 Hsa). }
  rewrite !filter_app. split.
  - rewrite (filter_all _ _ A), (filter_none _ _ B), app_nil_r. auto.
  - rewrite filter_none, filter_all; auto.
    + intros x Hx. rewrite B; auto.
    + intros x Hx. rewrite A; auto.
Qed.

Lemma pre_inj (s : lpath) (l l' : list (lpath * node)) : map (pre s) l = map (pre s) l' -> l = l'.
Proof.
  revert l'. induction l as [|[p a] l IH]; intros [|[p' a'] l']; simpl; try discriminate; auto.
  unfold pre at 1 3. simpl. intros E. injection E as E1 -> E2. apply app_inv_head in E1. subst. f_equal; auto.
Qed.

Lemma rows_determine (f f' : kf) : kpwf f -> kpwf f' -> rows f = rows f' -> f = f'.
Proof.
  revert f'. induction f as [|[s a] k IHk r IHr]; intros [|[s' a'] k' r'] W W' E; simpl in E; try discriminate; auto.
  injection E as <- <- E.
  destruct (rows_split_filter s a k r W) as [A B]. destruct (rows_split_filter s a k' r' W') as [A' B'].
  rewrite E in A, B. rewrite A' in A. rewrite B' in B. apply pre_inj in A.
  destruct W as (_ & W1 & W2 & _), W' as (_ & W1' & W2' & _).
  rewrite (IHk k'), (IHr r'); auto.
Qed.

Theorem stores_functional t F F' : stores t F -> stores t F' -> F = F'.
Proof.
  intros (f & (W & V & P) & <- & _) (f' & (W' & V' & P') & <- & _).
  f_equal. apply rows_determine; auto.
  assert (Pm : Permutation (map mkrow (rows f)) (map mkrow (rows f'))) by (rewrite <- P, <- P'; auto).
  apply (Permutation_map of_row) in Pm. rewrite !map_map in Pm.
  rewrite (map_ext _ (fun x => x) mk_of_row), (map_ext _ (fun x => x) mk_of_row), !map_id in Pm.
  eapply (@psorted_eq _ lblt); eauto with lt; apply k_sorted; auto.
Qed.
End Check.
