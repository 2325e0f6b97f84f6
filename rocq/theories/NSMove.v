(** Moving nodes in nested set trees. *)
From Coq Require Import String List Arith ZArith Lia Bool Permutation Sorted.
From Verif Require Import Prelude Forest SpecFacts CommonModel Order History NSModel NSInv NSReads NSUpd NSAdd NSCut.
Import ListNotations.
Local Open Scope Z_scope.

(** ** Cut and paste in bracket lists *)
Lemma hole_out A g B r : ok_row (A ++ holes g ++ B) r -> outside (length A) g r.
Proof.
  intros (i & j & L & R & Lt & O & C & D).
  assert (Q : forall k x, nth_error (A ++ holes g ++ B) k = Some (Some x) -> (k < length A \/ length A + g <= k)%nat).
  { intros k x H. destruct (lt_dec k (length A)); [auto|]. right. destruct (le_dec (length A + g) k); auto. exfalso.
    rewrite nth_error_app2 in H by lia. rewrite nth_error_app1 in H by (rewrite repeat_length; lia).
    apply nth_error_In, repeat_spec in H. discriminate. }
  apply Q in O, C. split; lia.
Qed.

Lemma fill_row A B s r : ok_row (A ++ holes (length (toks s)) ++ B) r -> ok_row (A ++ cells s ++ B) r.
Proof.
  intros H. apply swap_row with (S := holes (length (toks s))); auto.
  - rewrite repeat_length, map_length. auto.
  - rewrite bal_holes, bal_toks. auto.
  - rewrite repeat_length. apply hole_out with (B := B). auto.
Qed.

Lemma jump_laid db Xs T T' A1 s B1 A2 B2 nd :
  laid (ns_rows db) Xs -> Xs T = A1 ++ cells s ++ B1 -> proper (Xs T) ->
  let Ys := upd Xs T (A1 ++ holes (length (toks s)) ++ B1) in
  Ys T' = A2 ++ holes (length (toks s)) ++ B2 ->
  n_tree nd = T -> n_lft nd = len A1 + 1 -> n_rgt nd = len A1 + len (toks s) ->
  laid (ns_rows (jump_rows db nd T' (len A2 - len A1) (bal A2 - bal A1))) (upd Ys T' (A2 ++ cells s ++ B2)).
Proof.
  intros La E Pr Ys E2 N1 N2 N3 r Hr. unfold jump_rows in Hr. cbn [ns_rows] in Hr. apply in_map_iff in Hr.
  destruct Hr as (r0 & Er & Hr). apply La in Hr.
  assert (Fin : ok_row (Ys (n_tree r0)) r0 -> ok_row (upd Ys T' (A2 ++ cells s ++ B2) (n_tree r0)) r0).
  { unfold upd at 1. destruct (Z.eqb_spec (n_tree r0) T') as [->|]; auto. rewrite E2. apply fill_row. }
  assert (Sel : jump_sel nd r0 = true <-> n_tree r0 = T /\ len A1 + 1 <= n_lft r0 <= len A1 + len (toks s)).
  { unfold jump_sel. rewrite !andb_true_iff, Z.eqb_eq, !Z.leb_le. lia. }
  destruct (Z.eq_dec (n_tree r0) T) as [ET|NT].
  - rewrite ET, E in Hr. rewrite E in Pr. destruct (nested A1 s B1 r0 Pr Hr) as [[Hw Hi]|[Ho Hi]].
    + assert (Hs : jump_sel nd r0 = true).
      { apply Sel. split; auto. destruct Hr as (i & j & L & R & Lt & _). unfold within in Hw. lia. }
      rewrite Hs in Er. subst r. cbn [jump_row n_tree]. rewrite upd_same.
      apply shift_row with (A := A1) (B := B1); auto. rewrite map_length. auto.
    + assert (Hs : jump_sel nd r0 = false).
      { apply not_true_is_false. intros Es. apply Sel in Es. unfold outside in Ho. lia. }
      rewrite Hs in Er. subst r. apply Fin. unfold Ys. rewrite ET, upd_same.
      apply swap_row with (S := cells s); auto.
      * rewrite repeat_length, map_length. auto.
      * rewrite bal_holes, bal_toks. auto.
      * rewrite map_length. auto.
  - assert (Hs : jump_sel nd r0 = false).
    { apply not_true_is_false. intros Es. apply Sel in Es. tauto. }
    rewrite Hs in Er. subst r. apply Fin. unfold Ys. rewrite upd_other by auto. auto.
Qed.

(** The UPDATE and the closing of the gap, as in the second half of move. *)
Definition jump_close (db : ns_db) (nd : nsrow) (tree newpos depthdiff : Z) : ns_db :=
  close_gap (jump_rows db nd tree (newpos - n_lft nd) depthdiff) (n_lft nd) (n_rgt nd) (n_tree nd).

Lemma jump_close_pks db nd T np dd : map n_pk (ns_rows (jump_close db nd T np dd)) = map n_pk (ns_rows db).
Proof.
  unfold jump_close, close_gap. rewrite alter_gap_pks. unfold jump_rows. cbn [ns_rows]. apply map_pks.
  intros r. destruct (jump_sel nd r); auto.
Qed.

Section Core.
Variable db : ns_db.
Variable Xs : Z -> list cell.
Variable T : Z.
Variable s : forest node.
Variable nd : nsrow.
Hypothesis La : laid (ns_rows db) Xs.
Hypothesis Pr : proper (Xs T).
Hypothesis ET : n_tree nd = T.
Notation g := (length (toks s)).

Lemma core T' A1 B1 A B A1' B1' np dd :
  Xs T = A1 ++ cells s ++ B1 -> upd Xs T (A1 ++ holes g ++ B1) T' = A ++ holes g ++ B ->
  n_lft nd = len A1 + 1 -> n_rgt nd = len A1 + len (toks s) -> np = len A + 1 -> dd = bal A - bal A1 ->
  upd (upd Xs T (A1 ++ holes g ++ B1)) T' (A ++ cells s ++ B) T = A1' ++ holes g ++ B1' -> length A1' = length A1 ->
  laid (ns_rows (jump_close db nd T' np dd))
       (upd (upd (upd Xs T (A1 ++ holes g ++ B1)) T' (A ++ cells s ++ B)) T (A1' ++ B1')).
Proof.
  intros E E2 N1 N2 -> -> E3 EL.
  assert (J := jump_laid db Xs T T' A1 s B1 A B nd La E Pr E2 ET N1 N2).
  unfold jump_close, close_gap. rewrite ET, N1, N2.
  replace (len A + 1 - (len A1 + 1)) with (len A - len A1) by lia.
  replace (- (len A1 + len (toks s) - (len A1 + 1) + 1)) with (- Z.of_nat g) by lia.
  rewrite <- EL. apply close_laid; auto. rewrite EL. auto.
Qed.

Lemma core_other T' A1 B1 A B np dd : T <> T' ->
  Xs T = A1 ++ cells s ++ B1 -> Xs T' = A ++ holes g ++ B ->
  n_lft nd = len A1 + 1 -> n_rgt nd = len A1 + len (toks s) -> np = len A + 1 -> dd = bal A - bal A1 ->
  laid (ns_rows (jump_close db nd T' np dd)) (upd (upd Xs T (A1 ++ B1)) T' (A ++ cells s ++ B)).
Proof.
  intros N E E2 N1 N2 E3 E4. eapply laid_ext; [|apply (core T' A1 B1 A B A1 B1); auto].
  - intros U. unfold upd. destruct (Z.eqb_spec U T) as [->|]; auto. destruct (Z.eqb_spec T T'); tauto.
  - rewrite upd_other by auto. auto.
  - rewrite upd_other by auto. rewrite upd_same. auto.
Qed.

Lemma core_before A C B1 np dd :
  Xs T = A ++ holes g ++ C ++ cells s ++ B1 ->
  n_lft nd = len A + len (toks s) + len C + 1 -> n_rgt nd = len A + len (toks s) + len C + len (toks s) ->
  np = len A + 1 -> dd = bal A - bal (A ++ C) ->
  laid (ns_rows (jump_close db nd T np dd)) (upd Xs T (A ++ cells s ++ C ++ B1)).
Proof.
  intros E N1 N2 E3 E4. set (A1 := A ++ holes g ++ C).
  assert (LA : len A1 = len A + len (toks s) + len C).
  { unfold A1. rewrite !app_length, repeat_length. lia. }
  eapply laid_ext; [|apply (core T A1 B1 A (C ++ holes g ++ B1) (A ++ cells s ++ C) B1); auto].
  - intros U. unfold upd. destruct (U =? T); auto. rewrite <- !app_assoc. auto.
  - rewrite E. unfold A1. rewrite <- !app_assoc. auto.
  - rewrite upd_same. unfold A1. rewrite <- !app_assoc. auto.
  - lia.
  - lia.
  - rewrite E4. unfold A1. rewrite !bal_app, bal_holes. lia.
  - rewrite upd_same. rewrite <- !app_assoc. auto.
  - unfold A1. rewrite !app_length, repeat_length, map_length. auto.
Qed.

Lemma core_after A1 C B np dd :
  Xs T = A1 ++ cells s ++ C ++ holes g ++ B ->
  n_lft nd = len A1 + 1 -> n_rgt nd = len A1 + len (toks s) ->
  np = len A1 + len (toks s) + len C + 1 -> dd = bal (A1 ++ C) - bal A1 ->
  laid (ns_rows (jump_close db nd T np dd)) (upd Xs T (A1 ++ C ++ cells s ++ B)).
Proof.
  intros E N1 N2 E3 E4. set (A := A1 ++ holes g ++ C).
  eapply laid_ext; [|apply (core T A1 (C ++ holes g ++ B) A B A1 (C ++ cells s ++ B)); auto].
  - intros U. unfold upd. destruct (U =? T); auto.
  - rewrite upd_same. unfold A. rewrite <- !app_assoc. auto.
  - rewrite E3. unfold A. rewrite !app_length, repeat_length. lia.
  - rewrite E4. unfold A. rewrite !bal_app, bal_holes. lia.
  - rewrite upd_same. unfold A. rewrite <- !app_assoc. auto.
Qed.
End Core.

(** ** In terms of the removed ids *)
Lemma keep_none D X : (forall x, In (Some x) X -> D (tok_id x) = false) -> filter (keep D) X = X.
Proof.
  intros H. apply filter_all. intros [x|] Hx; auto. cbn [keep]. rewrite H; auto.
Qed.

Lemma keep_seg D s X Y : proper (X ++ cells s ++ Y) -> (forall i, D i = true <-> In i (ids s)) ->
  filter (keep D) X = X /\ filter (keep D) (cells s) = [] /\ filter (keep D) Y = Y.
Proof.
  intros Pr HD.
  assert (Q : forall x, D (tok_id x) = true -> exists y, In y (toks s) /\ tkey y = tkey x).
  { intros x Hx. apply HD in Hx. destruct x as [b|i]; cbn [tok_id] in Hx.
    - unfold ids in Hx. apply in_map_iff in Hx. destruct Hx as (b' & E & Hb). exists (TO b').
      rewrite toks_open. split; auto. cbn [tkey]. congruence.
    - exists (TC i). rewrite toks_close. auto. }
  unfold proper in Pr. rewrite !solid_app, solid_some, !map_app in Pr.
  apply NoDup_app_iff in Pr. destruct Pr as (_ & Pr & Pd). apply NoDup_app_iff in Pr. destruct Pr as (_ & _ & Pe).
  split; [|split].
  - apply keep_none. intros x Hx. destruct (D (tok_id x)) eqn:E; auto. destruct (Q x E) as (y & Hy & Ey). exfalso.
    apply (Pd (tkey x)); [apply in_map, solid_in; auto|]. apply in_app_iff. left. rewrite <- Ey. apply in_map. auto.
  - apply filter_keep_none. intros x Hx. apply HD, toks_id. auto.
  - apply keep_none. intros x Hx. destruct (D (tok_id x)) eqn:E; auto. destruct (Q x E) as (y & Hy & Ey). exfalso.
    apply (Pe (tkey x)); [rewrite <- Ey; apply in_map; auto|]. apply in_map, solid_in. auto.
Qed.

Lemma proper_holes A g B : proper (A ++ B) -> proper (A ++ holes g ++ B).
Proof. unfold proper. rewrite !solid_app, solid_holes. auto. Qed.

Definition seg_at (s : forest node) (X : list cell) : Prop := exists P Q, X = P ++ cells s ++ Q.

Lemma move_core db Xs0 Xs1 T T' a c A0 B0 nd D np dd :
  let s := Cons a c Nil in
  laid (ns_rows db) Xs1 -> (forall U, proper (Xs0 U)) ->
  (forall U, U <> T' -> Xs1 U = Xs0 U) -> Xs0 T' = A0 ++ B0 -> Xs1 T' = A0 ++ holes (length (toks s)) ++ B0 ->
  (forall i, D i = true <-> In i (ids s)) ->
  (forall U x, In (Some x) (Xs0 U) -> D (tok_id x) = true -> U = T) ->
  (T <> T' /\ seg_at s (Xs0 T) \/ T = T' /\ (seg_at s A0 \/ seg_at s B0)) ->
  In nd (ns_rows db) -> n_pk nd = nid a ->
  np = len A0 + 1 -> dd = 1 + bal A0 - n_depth nd ->
  laid (ns_rows (jump_close db nd T' np dd))
       (fun U => if U =? T' then filter (keep D) A0 ++ cells s ++ filter (keep D) B0 else filter (keep D) (Xs0 U)).
Proof.
  intros s La Pr0 Eo E0 E1 HD Un Seg Hnd En Enp Edd.
  assert (Pr1 : forall U, proper (Xs1 U)).
  { intros U. destruct (Z.eq_dec U T') as [->|N].
    - rewrite E1. apply proper_holes. rewrite <- E0. auto.
    - rewrite Eo; auto. }
  assert (Dn : D (nid a) = true) by (apply HD; unfold s; rewrite ids_cons; simpl; auto).
  (* the moved row is in tree T *)
  assert (ETn : n_tree nd = T).
  { apply La in Hnd. destruct Hnd as (i & j & _ & _ & _ & O & _). apply nth_error_In in O.
    apply Un with (TO (mkNode (n_pk nd) (n_data nd))); [|cbn [tok_id nid]; rewrite En; auto].
    destruct (Z.eq_dec (n_tree nd) T') as [Et|N].
    - rewrite Et in *. rewrite E1 in O. rewrite E0. rewrite !in_app_iff in *. destruct O as [O|[O|O]]; auto.
      apply repeat_spec in O. discriminate.
    - rewrite <- Eo; auto. }
  assert (Row : forall P Q, Xs1 T = P ++ cells s ++ Q ->
            n_lft nd = len P + 1 /\ n_rgt nd = len P + len (toks s) /\ n_depth nd = 1 + bal P).
  { intros P Q E. assert (Hr := La _ Hnd). rewrite ETn, E in Hr. assert (Pp := Pr1 T). rewrite E in Pp.
    destruct (row_at P a c Nil Q nd Pp Hr En) as (R1 & R2 & R3 & R4). split; auto. split; auto.
    rewrite R2. unfold s. rewrite toks_len. cbn [size]. lia. }
  assert (Other : forall U, U <> T -> filter (keep D) (Xs0 U) = Xs0 U).
  { intros U NU. apply keep_none. intros x Hx. destruct (D (tok_id x)) eqn:E; auto. destruct NU. eapply Un; eauto. }
  destruct Seg as [[N (P & Q & E)]|[ET [(P & Q & E)|(P & Q & E)]]].
  - assert (E' : Xs1 T = P ++ cells s ++ Q) by (rewrite Eo; auto).
    destruct (Row _ _ E') as (R1 & R2 & R3).
    eapply laid_ext; [|apply (core_other db Xs1 T s nd La (Pr1 T) ETn T' P Q A0 B0); auto; lia].
    intros U. unfold upd. destruct (Z.eqb_spec U T') as [->|NU].
    + assert (K := Other T' ltac:(auto)). rewrite E0, filter_app in K.
      destruct (keep_seg D s P Q) as (K1 & K2 & K3); [rewrite <- E; auto|auto|].
      assert (Ka : filter (keep D) A0 = A0 /\ filter (keep D) B0 = B0).
      { split; apply keep_none; intros x Hx; destruct (D (tok_id x)) eqn:Ex; auto; exfalso;
          (assert (T' = T); [|congruence]); apply (Un T' x); auto; rewrite E0; apply in_app_iff; auto. }
      destruct Ka as [-> ->]. auto.
    + destruct (Z.eqb_spec U T) as [->|NU2].
      * rewrite E, !filter_app. destruct (keep_seg D s P Q) as (K1 & K2 & K3); [rewrite <- E; auto|auto|].
        rewrite K1, K2, K3. auto.
      * rewrite Other by auto. apply Eo. auto.
  - (* the branch is in front of the hole *)
    assert (E' : Xs1 T = P ++ cells s ++ Q ++ holes (length (toks s)) ++ B0).
    { rewrite ET, E1, E, <- !app_assoc. auto. }
    destruct (Row _ _ E') as (R1 & R2 & R3).
    assert (Bal : bal A0 = bal P + bal Q) by (rewrite E, !bal_app, bal_toks; lia).
    assert (LA : len A0 = len P + len (toks s) + len Q) by (rewrite E, !app_length, map_length; lia).
    rewrite <- ET.
    eapply laid_ext; [|apply (core_after db Xs1 T s nd La (Pr1 T) ETn P Q B0); auto; try (rewrite bal_app; lia); lia].
    intros U. unfold upd. destruct (Z.eqb_spec U T) as [->|NU].
    + rewrite E, !filter_app.
      assert (Pp := Pr0 T'). rewrite E0, E, <- !app_assoc in Pp.
      destruct (keep_seg D s P (Q ++ B0)) as (K1 & K2 & K3); auto.
      rewrite filter_app in K3. rewrite K1, K2. cbn [app].
      assert (KQ : filter (keep D) Q = Q /\ filter (keep D) B0 = B0).
      { assert (Hq : forall Z, (forall x, In x Z -> In x (Q ++ B0)) -> filter (keep D) Z = Z).
        { intros Z HZ. apply filter_all. intros x Hx. apply HZ in Hx.
          assert (In x (filter (keep D) (Q ++ B0))) by (rewrite filter_app, K3; auto). apply filter_In in H. tauto. }
        split; apply Hq; intros x Hx; apply in_app_iff; auto. }
      destruct KQ as [-> ->]. rewrite <- !app_assoc. auto.
    + rewrite Other by auto. apply Eo. congruence.
  - assert (E' : Xs1 T = A0 ++ holes (length (toks s)) ++ P ++ cells s ++ Q).
    { rewrite ET, E1, E. auto. }
    assert (E'' : Xs1 T = (A0 ++ holes (length (toks s)) ++ P) ++ cells s ++ Q).
    { rewrite E', <- !app_assoc. auto. }
    destruct (Row _ _ E'') as (R1 & R2 & R3).
    rewrite !app_length, repeat_length in R1, R2. rewrite !bal_app, bal_holes in R3.
    rewrite <- ET.
    eapply laid_ext; [|apply (core_before db Xs1 T s nd La (Pr1 T) ETn A0 P Q); auto; try (rewrite bal_app; lia); lia].
    intros U. unfold upd. destruct (Z.eqb_spec U T) as [->|NU].
    + rewrite E, !filter_app.
      assert (Pp := Pr0 T'). rewrite E0, E, app_assoc in Pp.
      destruct (keep_seg D s (A0 ++ P) Q) as (K1 & K2 & K3); auto.
      rewrite filter_app in K1. rewrite K2, K3. cbn [app].
      assert (KQ : filter (keep D) A0 = A0 /\ filter (keep D) P = P).
      { assert (Hq : forall Z, (forall x, In x Z -> In x (A0 ++ P)) -> filter (keep D) Z = Z).
        { intros Z HZ. apply filter_all. intros x Hx. apply HZ in Hx.
          assert (In x (filter (keep D) (A0 ++ P))) by (rewrite filter_app, K1; auto). apply filter_In in H. tauto. }
        split; apply Hq; intros x Hx; apply in_app_iff; auto. }
      destruct KQ as [-> ->]. auto.
    + rewrite Other by auto. apply Eo. congruence.
Qed.

(** ** In terms of forests *)
Lemma remove_perm n F : wf_ids F -> In n (ids F) -> Permutation (ids F) (ids (subtree n F) ++ ids (remove n F)).
Proof.
  intros W H. destruct (node_ctx n F H) as (up & l & Hl & C).
  destruct (root_split n l Hl) as (l1 & a & k & l2 & <- & ->). destruct (C (fapp l1 l2)) as [F' C'].
  rewrite (Ctx_subtree _ _ _ _ C' W), (Ctx_remove _ _ _ _ C' W). destruct (Ctx_ids C') as (R & P1 & P2). rewrite P1, P2.
  rewrite !ids_fapp, !ids_cons. change (ids Nil) with (@nil nat). rewrite app_nil_r. cbn [app].
  rewrite <- (Permutation_middle (ids l1)), <- (Permutation_middle R). apply perm_skip.
  rewrite !app_assoc. apply Permutation_app_tail. rewrite <- !app_assoc.
  rewrite (Permutation_app_swap_app (ids k) R). apply Permutation_app_head. apply Permutation_app_comm.
Qed.

Lemma subtree_fapp_l n f g : wf_ids f -> In n (ids f) -> subtree n (fapp f g) = subtree n f.
Proof.
  induction f as [|a k _ r IH]; intros W H; [destruct H|]. assert (W' := wf_cons_inv W).
  destruct W' as (W1 & W2 & W3 & W4 & W5). cbn [fapp subtree].
  destruct (Nat.eqb_spec (nid a) n) as [E|E]; auto.
  rewrite ids_cons in H. cbn [app In] in H. rewrite in_app_iff in H. destruct H as [H|[H|H]]; [tauto| |].
  - destruct (node_seg n k W3 H) as (X & Y & b & c & -> & _). auto.
  - rewrite (subtree_notin n k) by (intros Hk; destruct (W5 n); auto). auto.
Qed.

Lemma subtree_fapp_r n f g : ~ In n (ids f) -> subtree n (fapp f g) = subtree n g.
Proof.
  induction f as [|a k _ r IH]; intros H; auto. rewrite ids_cons in H. cbn [app In] in H. rewrite in_app_iff in H.
  cbn [fapp subtree]. destruct (Nat.eqb_spec (nid a) n); [tauto|]. rewrite subtree_notin by tauto. apply IH. tauto.
Qed.

Lemma wf_fapp_inv f g : wf_ids (fapp f g) -> wf_ids f /\ wf_ids g /\ (forall x, In x (ids f) -> In x (ids g) -> False).
Proof. unfold wf_ids. rewrite ids_fapp. intros W. apply NoDup_app_iff in W. tauto. Qed.

(** The tree of a node. *)
Lemma node_tree n F ts : wf_ids F -> In n (ids F) -> length ts = length (roots F) -> NoDup ts ->
  exists T P Q, In T ts /\ spread ts F T = P ++ cells (subtree n F) ++ Q.
Proof.
  revert ts. induction F as [|a k _ r IH]; intros [|T ts] W H E ND; try discriminate; try (destruct H; fail).
  change (Cons a k r) with (fapp (Cons a k Nil) r) in *. assert (W' := wf_fapp_inv _ _ W). destruct W' as (W1 & W2 & W3).
  rewrite ids_fapp, in_app_iff in H. apply NoDup_cons_iff in ND. destruct ND as [N1 N2]. destruct H as [H|H].
  - rewrite subtree_fapp_l by auto. destruct (node_seg n (Cons a k Nil) W1 H) as (X & Y & b & c & E1 & E2 & E3).
    exists T, (map Some X), (map Some Y). split; [simpl; auto|]. rewrite E1. cbn [fapp spread]. rewrite Z.eqb_refl, E3.
    rewrite !map_app. auto.
  - rewrite subtree_fapp_r by (intros Ha; destruct (W3 n); auto).
    destruct (IH ts W2 H ltac:(injection E; auto) N2) as (T1 & P & Q & HT & E1). exists T1, P, Q.
    split; [simpl; auto|]. cbn [fapp spread]. destruct (Z.eqb_spec T1 T) as [->|_]; [tauto|auto].
Qed.

Lemma spread_at ts1 T ts2 f1 a k f2 : length ts1 = length (roots f1) -> NoDup (ts1 ++ T :: ts2) ->
  spread (ts1 ++ T :: ts2) (fapp f1 (Cons a k f2)) T = cells (Cons a k Nil).
Proof.
  intros E ND. rewrite spread_fapp by auto. destruct (in_dec Z.eq_dec T ts1) as [H|_].
  - apply NoDup_remove_2 in ND. destruct ND. apply in_app_iff. auto.
  - cbn [spread]. rewrite Z.eqb_refl. auto.
Qed.

Lemma tree_split (ts : list Z) f1 (a : node) k f2 : length ts = length (roots (fapp f1 (Cons a k f2))) ->
  exists ts1 T ts2, ts = ts1 ++ T :: ts2 /\ length ts1 = length (roots f1).
Proof.
  intros I1. rewrite roots_fapp, app_length in I1. cbn [roots length] in I1.
  exists (firstn (length (roots f1)) ts). destruct (skipn (length (roots f1)) ts) as [|T ts2] eqn:E.
  - apply (f_equal (@length Z)) in E. rewrite skipn_length in E. simpl in E. lia.
  - exists T, ts2. rewrite <- E, firstn_skipn. split; auto. rewrite firstn_length. lia.
Qed.

Lemma split_unique {X} (A A' : list X) x B B' : NoDup (A ++ x :: B) -> A ++ x :: B = A' ++ x :: B' -> A = A' /\ B = B'.
Proof.
  revert A'. induction A as [|y A IH]; intros [|y' A'] ND E; cbn [app] in *.
  - injection E; auto.
  - injection E as <- E. exfalso. apply NoDup_cons_iff in ND. apply (proj1 ND). rewrite E. apply in_app_iff. simpl. auto.
  - injection E as -> E. exfalso. apply NoDup_cons_iff in ND. apply (proj1 ND). apply in_app_iff. simpl. auto.
  - injection E as <- E. apply NoDup_cons_iff in ND. destruct (IH A' (proj2 ND) E). split; congruence.
Qed.

Definition is_n (n : nat) : nat -> bool := fun i => (i =? n)%nat.
Definition in_ids_of (s : forest node) : nat -> bool := fun i => existsb (Nat.eqb i) (ids s).

Lemma in_ids_of_spec s i : in_ids_of s i = true <-> In i (ids s).
Proof.
  unfold in_ids_of. rewrite existsb_exists. split.
  - intros (y & Hy & E). apply Nat.eqb_eq in E. subst; auto.
  - intros Hx. exists i. rewrite Nat.eqb_refl. auto.
Qed.

Lemma trace_one n F : wf_ids F -> trace (is_n n) (in_ids_of (subtree n F)) F.
Proof. intros W x Hx. rewrite in_ids_of_spec. symmetry. apply under_one. auto. Qed.

Lemma removed_once n F ts T P Q s : wf_ids F -> subtree n F = s -> spread ts F T = P ++ cells s ++ Q ->
  forall U x, In (Some x) (spread ts F U) -> in_ids_of s (tok_id x) = true -> U = T.
Proof.
  intros W Es E U x Hx Hd. apply in_ids_of_spec in Hd.
  apply (spread_same_tree ts F U T x (TC (tok_id x)) W Hx); auto.
  rewrite E. apply in_app_iff. right. apply in_app_iff. left. apply in_map, toks_close. auto.
Qed.

Lemma seg_in_at s A : seg_in s A -> seg_at s (map Some A).
Proof. intros (X & Y & ->). exists (map Some X), (map Some Y). rewrite !map_app. auto. Qed.

Lemma seg_at_l s A B : seg_at s A -> seg_at s (A ++ B).
Proof. intros (X & Y & ->). exists X, (Y ++ B). rewrite <- !app_assoc. auto. Qed.
Lemma seg_at_r s A B : seg_at s B -> seg_at s (A ++ B).
Proof. intros (X & Y & ->). exists (A ++ X), Y. rewrite <- !app_assoc. auto. Qed.

Lemma moved_perm n F a c F0 up l0 l2 F2 m1 m2 : wf_ids F -> In n (ids F) -> subtree n F = Cons a c Nil ->
  F0 = remove n F -> l0 = fapp m1 m2 -> l2 = fapp m1 (Cons a c m2) -> Ctx up l0 l2 F0 F2 ->
  Permutation (ids F2) (ids F) /\ wf_ids F2.
Proof.
  intros W Hn Es -> -> -> C.
  assert (P : Permutation (ids F2) (ids F)).
  { rewrite (remove_perm n F W Hn), Es. destruct (Ctx_ids C) as (R & -> & ->).
    change (Cons a c m2) with (fapp (Cons a c Nil) m2). rewrite !ids_fapp.
    rewrite (Permutation_app_swap_app (ids m1)), (Permutation_app_swap_app R). auto. }
  split; auto. unfold wf_ids in *. rewrite P. auto.
Qed.

Lemma move_below db F n a c p m1 m2 xr np nd1 dd :
  stores (ns_rows db) F -> subtree n F = Cons a c Nil -> nid a = n -> In n (ids F) ->
  (forall l', exists F', Ctx (Some p) (fapp m1 m2) l' F F') -> ~ In p (ids (subtree n F)) ->
  In xr (ns_rows db) -> n_pk xr = p -> np = n_lft xr + 1 + 2 * Z.of_nat (size m1) ->
  let db1 := alter_gap db (n_tree xr) np (2 * Z.of_nat (size (Cons a c Nil))) in
  In nd1 (ns_rows db1) -> n_pk nd1 = n -> dd = n_depth xr + 1 - n_depth nd1 ->
  exists F2, Ctx (Some p) (fapp (remove n m1) (remove n m2)) (fapp (remove n m1) (Cons a c (remove n m2))) (remove n F) F2 /\
    stores (ns_rows (jump_close db1 nd1 (n_tree xr) np dd)) F2.
Proof.
  intros St Es Ea Hn C Np Hx Ex Enp db1 Hn1 En1 Edd. apply stores_iff in St. destruct St as (W & ts & I & La & Pk).
  assert (ND : NoDup ts) by (apply sorted_NoDup, I). assert (I1 := proj1 I).
  set (s := Cons a c Nil) in *. set (S := is_n n). set (D := in_ids_of s).
  assert (TF : trace S D F) by (unfold D; rewrite <- Es; apply trace_one; auto).
  assert (Nu : ~ In p (under S F)) by (unfold S, is_n; rewrite under_one; auto).
  destruct (C Nil) as [F1 C1].
  assert (Wl := Ctx_wf_l C1 W). destruct (wf_fapp_inv _ _ Wl) as (Wm1 & Wm2 & Wm3).
  assert (Tl := trace_ctx S D _ _ _ _ _ C1 W TF Nu). destruct (trace_fapp S D _ _ Wl Tl) as [Tm1 Tm2].
  destruct (Ctx_one_tree _ _ _ _ _ C1) as (f1 & a0 & k0 & k0' & f2 & EF & _ & C0).
  rewrite EF in I1. destruct (tree_split _ _ _ _ _ I1) as (ts1 & T' & ts2 & Et & Lt).
  assert (ST : spread ts F T' = cells (Cons a0 k0 Nil)).
  { rewrite Et, EF. apply spread_at; auto. rewrite <- Et. auto. }
  rewrite <- EF in I1.
  destruct (node_tree n F ts W Hn I1 ND) as (T & P & Q & HT & ETs). rewrite Es in ETs.
  (* the place, and the branch relative to it *)
  assert (Pl : exists A b B, nid b = p /\ toks (Cons a0 k0 Nil) = A ++ TO b :: toks (fapp m1 m2) ++ TC p :: B /\
     (T <> T' \/ T = T' /\ (seg_in s A \/ In n (ids (fapp m1 m2)) /\ subtree n (fapp m1 m2) = s \/ seg_in s B))).
  { destruct (Z.eq_dec T T') as [ET|NT].
    - assert (W0 : wf_ids (Cons a0 k0 Nil)).
      { rewrite EF in W. apply wf_fapp_inv in W. destruct W as (_ & W & _).
        change (Cons a0 k0 f2) with (fapp (Cons a0 k0 Nil) f2) in W. apply wf_fapp_inv in W. tauto. }
      assert (H0 : In n (ids (Cons a0 k0 Nil))).
      { assert (Hin : In (Some (TO a)) (spread ts F T)).
        { rewrite ETs. apply in_app_iff. right. apply in_app_iff. left. apply in_map. unfold s. cbn [toks In]. auto. }
        rewrite ET, ST in Hin. apply in_map_iff in Hin. destruct Hin as (x & E & Hin). injection E as ->.
        apply toks_id in Hin. cbn [tok_id] in Hin. rewrite <- Ea. auto. }
      assert (Es0 : subtree n (Cons a0 k0 Nil) = s).
      { rewrite <- Es, EF. assert (W' := W). rewrite EF in W'. apply wf_fapp_inv in W'. destruct W' as (_ & _ & Wd).
        change (Cons a0 k0 f2) with (fapp (Cons a0 k0 Nil) f2) in *.
        rewrite subtree_fapp_r; [symmetry; apply subtree_fapp_l; auto|].
        intros H1. apply (Wd n H1). rewrite ids_fapp. apply in_app_iff. auto. }
      destruct (toks_seg n _ _ _ _ _ C0 W0 H0) as (A & b & B & E1 & E2 & E3 & E4); [rewrite Es0, <- Es; auto|].
      rewrite Es0 in E4. exists A, b, B. split; auto. split; auto. right. split; auto.
      destruct E4 as [E4|[[E4 E5]|E4]]; auto.
    - destruct (toks_ctx _ _ _ _ _ C0) as (A & b & B & E1 & E2 & E3). exists A, b, B. auto. }
  destruct Pl as (A & b & B & Eb & E2 & Seg).
  assert (E2s : spread ts F T' = map Some A ++ Some (TO b) :: cells (fapp m1 m2) ++ Some (TC p) :: map Some B).
  { rewrite ST, E2, map_app. cbn [map]. rewrite map_app. auto. }
  subst p. rewrite <- Eb in *.
  destruct (place_par _ F ts W La xr T' (map Some A) b _ (map Some B) Hx ltac:(auto) E2s) as (X1 & X2 & X3 & X4 & X5).
  rewrite map_length in X2, X3. subst db1. rewrite X1 in *. set (db1 := alter_gap db T' np (2 * Z.of_nat (size s))) in *.
  set (A0 := map Some A ++ Some (TO b) :: cells m1). set (B0 := cells m2 ++ Some (TC (nid b)) :: map Some B).
  assert (E0 : spread ts F T' = A0 ++ B0).
  { rewrite E2s, toks_fapp, map_app. unfold A0, B0. rewrite <- !app_assoc. cbn [app]. rewrite <- ?app_assoc. auto. }
  assert (LA : len A0 + 1 = np).
  { unfold A0. rewrite app_length. cbn [length]. rewrite !map_length, toks_len. lia. }
  assert (BA : bal A0 = n_depth xr).
  { unfold A0. rewrite bal_app. cbn [bal]. rewrite bal_toks. lia. }
  assert (Pr : forall U, proper (spread ts F U)) by (intros; apply proper_spread; auto).
  assert (G1 := open_laid db _ T' A0 B0 (length (toks s)) La E0). rewrite LA in G1.
  replace (Z.of_nat (length (toks s))) with (2 * Z.of_nat (size s)) in G1 by (rewrite toks_len; lia).
  assert (SegC : T <> T' /\ seg_at s (spread ts F T) \/ T = T' /\ (seg_at s A0 \/ seg_at s B0)).
  { destruct Seg as [Nt|[ET Seg]]; [left; split; auto; exists P, Q; auto|]. right. split; auto.
    destruct Seg as [Sg|[[Hl Sl]|Sg]].
    - left. unfold A0. apply seg_at_l, seg_in_at. auto.
    - rewrite ids_fapp, in_app_iff in Hl. destruct Hl as [Hl|Hl].
      + rewrite subtree_fapp_l in Sl by auto. destruct (node_seg n m1 Wm1 Hl) as (X & Y & a' & c' & Y1 & Y2 & Y3).
        rewrite Sl in Y1. left. unfold A0. apply seg_at_r. change (Some (TO b) :: cells m1) with ([Some (TO b)] ++ cells m1).
        apply seg_at_r, seg_in_at. exists X, Y. rewrite Y3, Y1. auto.
      + rewrite subtree_fapp_r in Sl by (intros H1; destruct (Wm3 n); auto).
        destruct (node_seg n m2 Wm2 Hl) as (X & Y & a' & c' & Y1 & Y2 & Y3).
        rewrite Sl in Y1. right. unfold B0. apply seg_at_l, seg_in_at. exists X, Y. rewrite Y3, Y1. auto.
    - right. unfold B0. apply seg_at_r. change (Some (TC (nid b)) :: map Some B) with ([Some (TC (nid b))] ++ map Some B).
      apply seg_at_r, seg_in_at. auto. }
  assert (G3 := move_core db1 (spread ts F) (upd (spread ts F) T' (A0 ++ holes (length (toks s)) ++ B0)) T T' a c A0 B0 nd1 D np dd
    G1 Pr ltac:(intros; apply upd_other; auto) E0 ltac:(apply upd_same) (in_ids_of_spec s)
    (removed_once n F ts T P Q s W Es ETs) SegC Hn1 ltac:(congruence) ltac:(lia) ltac:(lia)).
  (* the forest *)
  destruct (Ctx_remove_all S _ _ _ _ _ C1 Nu (fapp (remove n m1) (Cons a c (remove n m2)))) as [F2 C2].
  rewrite remove_all_fapp in C2.
  assert (R1 : remove_all S F = remove n F) by (apply remove_all_one; auto).
  assert (R2 : remove_all S m1 = remove n m1) by (apply remove_all_one; auto).
  assert (R3 : remove_all S m2 = remove n m2) by (apply remove_all_one; auto).
  rewrite R1, R2, R3 in C2. exists F2. split; auto.
  destruct (moved_perm n F a c _ _ _ _ F2 (remove n m1) (remove n m2) W Hn Es eq_refl eq_refl eq_refl C2) as [PF WF].
  apply stores_iff. split; auto. exists (ts_rem S ts F).
  assert (I0 : ids_ok (ts_rem S ts F) (remove n F)) by (rewrite <- R1; apply ts_rem_ok; auto).
  assert (I2 : ids_ok (ts_rem S ts F) F2).
  { destruct I0 as (J1 & J2). split; auto. rewrite <- (Ctx_roots _ _ _ _ _ C2). auto. }
  split; auto. split.
  - eapply laid_ext; [|exact G3]. intros U. cbn beta.
    assert (KS : forall V, spread (ts_rem S ts F) (remove n F) V = filter (keep D) (spread ts F V)).
    { intros V. rewrite <- R1. apply keep_spread; auto. }
    assert (Db : D (nid b) = false).
    { apply not_true_is_false. unfold D. rewrite in_ids_of_spec, <- Es. auto. }
    destruct (spread_ctx _ _ _ _ _ C2 (ts_rem S ts F) ltac:(apply I0) ltac:(apply sorted_NoDup, I0))
      as (T2 & A2 & b2 & B2 & HT2 & Eb2 & S1 & S2 & S3).
    assert (KA : filter (keep D) (spread ts F T') = filter (keep D) (map Some A) ++ Some (TO b) ::
               cells (fapp (remove n m1) (remove n m2)) ++ Some (TC (nid b)) :: filter (keep D) (map Some B)).
    { rewrite E2s, filter_app. cbn [filter keep tok_id]. rewrite Db. cbn [negb]. rewrite filter_app.
      rewrite (keep_toks S D _ Wl Tl), remove_all_fapp, R2, R3. cbn [filter keep tok_id]. rewrite Db. auto. }
    assert (W0 : wf_ids (remove n F)) by (rewrite <- R1; apply remove_all_wf; auto).
    assert (Hb : In (Some (TO b)) (spread (ts_rem S ts F) (remove n F) T')).
    { rewrite KS, KA. apply in_app_iff. simpl. auto. }
    assert (Hb2 : In (Some (TO b2)) (spread (ts_rem S ts F) (remove n F) T2)).
    { rewrite S1. apply in_app_iff. simpl. auto. }
    assert (T2 = T') by (eapply spread_same_tree; [exact W0|exact Hb2|exact Hb|exact Eb2]). subst T2.
    assert (b2 = b) by (eapply open_unique; eauto). subst b2.
    assert (Eq := S1). rewrite KS, KA in Eq.
    apply split_unique in Eq; [|rewrite <- KA, <- KS; apply spread_NoDup; auto].
    destruct Eq as [EA EB]. apply app_inv_head in EB. injection EB as EB.
    destruct (Z.eqb_spec U T') as [->|NU].
    + rewrite S2, <- EA, <- EB. unfold A0, B0. rewrite !filter_app. cbn [filter keep tok_id]. rewrite Db. cbn [negb].
      rewrite !(keep_toks S D) by auto. rewrite R2, R3. rewrite toks_fapp, map_app.
      change (Cons a c (remove n m2)) with (fapp s (remove n m2)). rewrite toks_fapp, map_app.
      rewrite <- !app_assoc. cbn [app]. rewrite <- ?app_assoc. auto.
    + rewrite S3 by auto. symmetry. apply KS.
  - rewrite jump_close_pks. unfold db1. rewrite alter_gap_pks, Pk. symmetry. auto.
Qed.

Lemma shifted_proper Xs T : (forall U, proper (Xs U)) -> forall U, proper (shifted Xs T U).
Proof.
  intros H U. unfold shifted. destruct (U <? T); auto. destruct (U =? T); auto.
  unfold proper. simpl. constructor.
Qed.

(** To a new tree [T']; the trees from [T'] on have been shifted. *)
Lemma move_top db1 F ts u1 u2 n a c m1 m2 T' nd1 dd :
  wf_ids F -> ids_ok ts F -> laid (ns_rows db1) (shifted (spread ts F) T') ->
  Permutation (map n_pk (ns_rows db1)) (ids F) ->
  F = fapp m1 m2 -> ts = u1 ++ u2 -> length u1 = length (roots m1) ->
  1 <= T' -> (forall U, In U u1 -> U < T') -> (forall U, In U u2 -> T' <= U) ->
  subtree n F = Cons a c Nil -> nid a = n -> In n (ids F) ->
  In nd1 (ns_rows db1) -> n_pk nd1 = n -> dd = 1 - n_depth nd1 ->
  stores (ns_rows (jump_close db1 nd1 T' 1 dd)) (fapp (remove n m1) (Cons a c (remove n m2))).
Proof.
  intros W I La Pk EF Et Lu HT H1 H2 Es Ea Hn Hn1 En1 Edd.
  assert (ND : NoDup ts) by (apply sorted_NoDup, I). assert (I1 := proj1 I).
  set (s := Cons a c Nil) in *. set (S := is_n n). set (D := in_ids_of s).
  assert (TF : trace S D F) by (unfold D; rewrite <- Es; apply trace_one; auto).
  assert (Wl := W). rewrite EF in Wl. destruct (wf_fapp_inv _ _ Wl) as (Wm1 & Wm2 & Wm3).
  destruct (node_tree n F ts W Hn I1 ND) as (T0 & P & Q & HT0 & ETs). rewrite Es in ETs.
  set (T := if T0 <? T' then T0 else T0 + 1).
  assert (NT : T <> T') by (unfold T; destruct (Z.ltb_spec T0 T'); lia).
  assert (ET : shifted (spread ts F) T' T = spread ts F T0).
  { unfold shifted, T. destruct (Z.ltb_spec T0 T').
    - destruct (Z.ltb_spec T0 T'); [auto|lia].
    - destruct (Z.ltb_spec (T0 + 1) T'); [lia|]. destruct (Z.eqb_spec (T0 + 1) T'); [lia|].
      f_equal. lia. }
  set (X0 := shifted (spread ts F) T').
  assert (E0 : X0 T' = []).
  { unfold X0, shifted. rewrite Z.ltb_irrefl, Z.eqb_refl. auto. }
  assert (Un : forall U x, In (Some x) (X0 U) -> D (tok_id x) = true -> U = T).
  { intros U x Hx Hd. assert (R := removed_once n F ts T0 P Q s W Es ETs). unfold X0, shifted in Hx.
    destruct (Z.ltb_spec U T').
    - apply R in Hx; auto. unfold T. subst U. destruct (Z.ltb_spec T0 T'); lia.
    - destruct (Z.eqb_spec U T'); [destruct Hx|]. apply R in Hx; auto. unfold T. destruct (Z.ltb_spec T0 T'); lia. }
  assert (G1 := free_laid _ _ T' (holes (length (toks s))) La E0).
  assert (G3 := move_core db1 X0 (upd X0 T' (holes (length (toks s)))) T T' a c [] [] nd1 D 1 dd G1
    ltac:(apply shifted_proper; intros; apply proper_spread; auto) ltac:(intros; apply upd_other; auto) E0
    ltac:(rewrite upd_same; cbn [app]; rewrite app_nil_r; auto) (in_ids_of_spec s) Un
    ltac:(left; split; [auto|exists P, Q; exact (eq_trans ET ETs)]) Hn1 ltac:(congruence) eq_refl ltac:(cbn [bal]; lia)).
  assert (R1 : remove_all S F = remove n F) by (apply remove_all_one; auto).
  assert (R2 : remove_all S m1 = remove n m1) by (apply remove_all_one; auto).
  assert (R3 : remove_all S m2 = remove n m2) by (apply remove_all_one; auto).
  assert (RF : remove n F = fapp (remove n m1) (remove n m2)).
  { rewrite <- R1, EF, remove_all_fapp, R2, R3. auto. }
  assert (C := Ctx_top (fapp (remove n m1) (remove n m2)) (fapp (remove n m1) (Cons a c (remove n m2)))).
  rewrite <- RF in C at 2.
  destruct (moved_perm n F a c _ _ _ _ _ (remove n m1) (remove n m2) W Hn Es eq_refl eq_refl eq_refl C) as [PF WF].
  apply stores_iff. split; auto. subst ts. set (v1 := ts_rem S u1 m1). set (v2 := ts_rem S u2 m2).
  assert (Ev : ts_rem S (u1 ++ u2) F = v1 ++ v2) by (rewrite EF; apply ts_rem_fapp; auto).
  assert (I0 : ids_ok (v1 ++ v2) (fapp (remove n m1) (remove n m2))).
  { rewrite <- RF, <- Ev, <- R1. apply ts_rem_ok. auto. }
  assert (Lv : length v1 = length (roots (remove n m1))).
  { rewrite <- R2. apply ts_rem_ok with (S := S) (ts := u1) (F := m1).
    destruct I as (J1 & J2 & J3). split; auto. split.
    - clear - J2. induction u1 as [|U u1 IH]; [constructor|]. cbn [app] in J2. inversion J2; subst.
      constructor; auto. apply Forall_app in H2. tauto.
    - apply Forall_app in J3. tauto. }
  assert (V1 : forall U, In U v1 -> U < T') by (intros U HU; apply H1; eapply ts_rem_in; exact HU).
  assert (V2 : forall U, In U v2 -> T' <= U) by (intros U HU; apply H2; eapply ts_rem_in; exact HU).
  exists (v1 ++ T' :: map (Z.add 1) v2). split; [apply ids_ok_new_tree; auto|]. split.
  - eapply laid_ext; [|exact G3]. intros U. cbn beta. rewrite spread_new_tree by auto. unfold upd.
    destruct (Z.eqb_spec U T') as [->|NU].
    + cbn [app filter]. rewrite app_nil_r. auto.
    + rewrite <- RF, <- Ev, <- R1. unfold X0, shifted. destruct (U <? T'); [|destruct (U =? T'); auto].
      * symmetry. apply keep_spread; auto.
      * symmetry. apply keep_spread; auto.
  - rewrite jump_close_pks, Pk. symmetry. auto.
Qed.
