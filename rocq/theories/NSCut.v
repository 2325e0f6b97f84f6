(** Removing branches from bracket lists. *)
From Coq Require Import String List Arith ZArith Lia Bool Permutation Sorted.
From Verif Require Import Prelude Forest SpecFacts CommonModel Order History NSModel NSInv NSReads NSUpd.
Import ListNotations.
Local Open Scope Z_scope.

(** The ids of the nodes in or below [S]. *)
Fixpoint under (S : nat -> bool) (f : forest node) : list nat :=
  match f with
  | Nil => []
  | Cons a k r => if S (nid a) then nid a :: ids k ++ under S r else under S k ++ under S r
  end.

Definition keep (D : nat -> bool) (c : cell) : bool :=
  match c with Some x => negb (D (tok_id x)) | None => true end.

(** [D] is the set of removed ids, as far as [f] is concerned. *)
Definition trace (S D : nat -> bool) (f : forest node) : Prop :=
  forall x, In x (ids f) -> (D x = true <-> In x (under S f)).

Lemma under_ids S f x : In x (under S f) -> In x (ids f).
Proof.
  induction f as [|a k IHk r IHr]; cbn [under]; [intros []|]. rewrite ids_cons.
  destruct (S (nid a)); cbn [In app]; rewrite !in_app_iff; tauto.
Qed.

Lemma under_fapp S f g : under S (fapp f g) = under S f ++ under S g.
Proof.
  induction f as [|a k _ r IH]; cbn [under fapp]; auto.
  destruct (S (nid a)); rewrite IH; cbn [app]; rewrite <- ?app_assoc; auto.
Qed.

Lemma trace_self S D f : (forall x, D x = existsb (Nat.eqb x) (under S f)) -> trace S D f.
Proof.
  intros H x _. rewrite H, existsb_exists. split.
  - intros (y & Hy & E). apply Nat.eqb_eq in E. subst; auto.
  - intros Hx. exists x. rewrite Nat.eqb_refl. auto.
Qed.

Lemma trace_kept S D a k r : wf_ids (Cons a k r) -> trace S D (Cons a k r) -> S (nid a) = false ->
  D (nid a) = false /\ trace S D k /\ trace S D r.
Proof.
  intros W T E. apply wf_cons_inv in W. destruct W as (W1 & W2 & W3 & W4 & W5).
  unfold trace in T. cbn [under] in T. rewrite E, ids_cons in T.
  assert (U1 := under_ids S k). assert (U2 := under_ids S r). split; [|split].
  - destruct (D (nid a)) eqn:ED; auto. apply T in ED; [|simpl; auto]. apply in_app_iff in ED.
    destruct ED as [H|H]; [apply U1 in H|apply U2 in H]; tauto.
  - intros x Hx. rewrite T by (cbn [In app]; rewrite in_app_iff; auto). rewrite in_app_iff.
    split; auto. intros [H|H]; auto. apply U2 in H. destruct (W5 x); auto.
  - intros x Hx. rewrite T by (cbn [In app]; rewrite in_app_iff; auto). rewrite in_app_iff.
    split; auto. intros [H|H]; auto. apply U1 in H. destruct (W5 x); auto.
Qed.

Lemma trace_cut S D a k r : wf_ids (Cons a k r) -> trace S D (Cons a k r) -> S (nid a) = true ->
  (forall x, In x (ids (Cons a k Nil)) -> D x = true) /\ trace S D r.
Proof.
  intros W T E. apply wf_cons_inv in W. destruct W as (W1 & W2 & W3 & W4 & W5).
  unfold trace in T. cbn [under] in T. rewrite E, ids_cons in T. split.
  - intros x. rewrite ids_cons. change (ids Nil) with (@nil nat). cbn [In app]. rewrite app_nil_r. intros Hx.
    apply T; cbn [In app]; rewrite in_app_iff; tauto.
  - intros x Hx. rewrite T by (cbn [In app]; rewrite in_app_iff; auto). cbn [In]. rewrite in_app_iff.
    split; auto. intros [<-|[H|H]]; auto; [tauto|]. destruct (W5 x); auto.
Qed.

Lemma trace_fapp S D f g : wf_ids (fapp f g) -> trace S D (fapp f g) -> trace S D f /\ trace S D g.
Proof.
  unfold wf_ids, trace. rewrite ids_fapp. intros W T. apply NoDup_app_iff in W. destruct W as (_ & _ & W).
  setoid_rewrite under_fapp in T. setoid_rewrite in_app_iff in T. split; intros x Hx; rewrite T by auto.
  - split; auto. intros [H|H]; auto. apply under_ids in H. destruct (W x); auto.
  - split; auto. intros [H|H]; auto. apply under_ids in H. destruct (W x); auto.
Qed.

Lemma trace_ctx S D p l l' f f' : Ctx (Some p) l l' f f' -> wf_ids f -> trace S D f -> ~ In p (under S f) ->
  trace S D l.
Proof.
  intros C. remember (Some p) as up. revert Hequp. induction C; intros E W T N; try discriminate; cbn [under] in *.
  - injection E as <-. destruct (S (nid a)) eqn:Es; [destruct N; simpl; auto|].
    apply (trace_kept S D a l r W T). auto.
  - assert (Hp := Ctx_par_in C). cbn in Hp. injection E as ->. destruct (S (nid a)) eqn:Es.
    + destruct N. right. apply in_app_iff. auto.
    + destruct (trace_kept S D a k r W T Es) as (_ & T1 & _). apply IHC; auto.
      * apply wf_cons_inv in W. tauto.
      * intros H. apply N, in_app_iff. auto.
  - destruct (S (nid a)) eqn:Es.
    + destruct (trace_cut S D a k r W T Es) as (_ & T1). apply IHC; auto.
      * apply wf_cons_inv in W. tauto.
      * intros H. apply N. right. apply in_app_iff. auto.
    + destruct (trace_kept S D a k r W T Es) as (_ & _ & T1). apply IHC; auto.
      * apply wf_cons_inv in W. tauto.
      * intros H. apply N, in_app_iff. auto.
Qed.

Lemma Ctx_remove_all S p l l' f f' : Ctx (Some p) l l' f f' -> ~ In p (under S f) -> forall l'', exists f'',
  Ctx (Some p) (remove_all S l) l'' (remove_all S f) f''.
Proof.
  intros C. remember (Some p) as up. revert Hequp. induction C; intros E N l''; try discriminate;
    cbn [under remove_all] in *.
  - injection E as <-. destruct (S (nid a)); [destruct N; simpl; auto|]. eexists. constructor.
  - assert (Hp := Ctx_par_in C). cbn in Hp. destruct (S (nid a)).
    + destruct N. right. apply in_app_iff. injection E as ->. auto.
    + destruct (IHC E) with (l'' := l'') as [f'' G]; [intros H; apply N, in_app_iff; auto|].
      injection E as ->. eexists. apply Ctx_down. exact G.
  - destruct (S (nid a)).
    + apply IHC; auto. intros H. apply N. right. apply in_app_iff. auto.
    + destruct (IHC E) with (l'' := l'') as [f'' G]; [intros H; apply N, in_app_iff; auto|].
      injection E as ->. eexists. apply Ctx_right. exact G.
Qed.

Lemma remove_all_fapp S f g : remove_all S (fapp f g) = fapp (remove_all S f) (remove_all S g).
Proof. induction f as [|a k _ r IH]; cbn [remove_all fapp]; auto. destruct (S (nid a)); cbn [fapp]; rewrite IH; auto. Qed.

Lemma filter_keep_none D (L : list tok) : (forall x, In x L -> D (tok_id x) = true) -> filter (keep D) (map Some L) = [].
Proof.
  intros H. apply filter_none. intros c Hc. apply in_map_iff in Hc. destruct Hc as (x & <- & Hx).
  cbn [keep]. rewrite H; auto.
Qed.

Lemma keep_toks S D f : wf_ids f -> trace S D f -> filter (keep D) (cells f) = cells (remove_all S f).
Proof.
  induction f as [|a k IHk r IHr]; intros W T; auto.
  change (Cons a k r) with (fapp (Cons a k Nil) r) at 1. rewrite toks_fapp, map_app, filter_app.
  cbn [remove_all]. assert (W' := wf_cons_inv W). destruct W' as (W1 & W2 & W3 & W4 & W5).
  destruct (S (nid a)) eqn:Es.
  - destruct (trace_cut S D a k r W T Es) as (T1 & T2).
    rewrite (filter_keep_none D (toks (Cons a k Nil))), IHr; auto. intros x Hx. apply T1, toks_id. auto.
  - destruct (trace_kept S D a k r W T Es) as (T0 & T1 & T2). rewrite IHr by auto.
    cbn [toks map]. rewrite !map_app. cbn [map filter keep tok_id]. rewrite T0. cbn [negb].
    rewrite filter_app, IHk by auto. cbn [filter keep tok_id]. rewrite T0. cbn [negb app].
    rewrite <- app_assoc. auto.
Qed.

(** The tree ids that stay. *)
Fixpoint ts_rem (S : nat -> bool) (ts : list Z) (F : forest node) : list Z :=
  match F, ts with
  | Cons a k r, T :: ts => if S (nid a) then ts_rem S ts r else T :: ts_rem S ts r
  | _, _ => []
  end.

Lemma ts_rem_in S ts F T : In T (ts_rem S ts F) -> In T ts.
Proof.
  revert ts. induction F as [|a k _ r IH]; intros [|T0 ts]; cbn [ts_rem]; auto; try (intros []; fail).
  destruct (S (nid a)); cbn [In]; intros H; [auto|destruct H; auto].
Qed.

Lemma ts_rem_ok S ts F : ids_ok ts F -> ids_ok (ts_rem S ts F) (remove_all S F).
Proof.
  intros (I1 & I2 & I3). split; [|split].
  - revert ts I1 I2 I3. induction F as [|a k _ r IH]; intros [|T ts] I1 I2 I3; try discriminate; auto.
    inversion I2; inversion I3; subst. cbn [ts_rem remove_all]. destruct (S (nid a)); cbn [roots length] in *; rewrite IH; auto.
  - clear I1 I3. revert ts I2. induction F as [|a k _ r IH]; intros [|T ts] I2; cbn [ts_rem]; try constructor.
    inversion I2; subst. destruct (S (nid a)); auto. constructor; auto. rewrite Forall_forall in *.
    intros x Hx. apply H2. eapply ts_rem_in; eauto.
  - rewrite Forall_forall in *. intros x Hx. apply I3. eapply ts_rem_in; eauto.
Qed.

Lemma ts_rem_fapp S ts us F G : length ts = length (roots F) ->
  ts_rem S (ts ++ us) (fapp F G) = ts_rem S ts F ++ ts_rem S us G.
Proof.
  revert ts. induction F as [|a k _ r IH]; intros [|T ts] E; try discriminate; auto.
  cbn [app fapp ts_rem]. rewrite IH by (injection E; auto). destruct (S (nid a)); auto.
Qed.

Lemma keep_spread S D F : wf_ids F -> trace S D F -> forall ts, NoDup ts -> length ts = length (roots F) ->
  forall U, spread (ts_rem S ts F) (remove_all S F) U = filter (keep D) (spread ts F U).
Proof.
  induction F as [|a k _ r IH]; intros W T [|T0 ts] ND E U; try discriminate; auto.
  apply NoDup_cons_iff in ND. destruct ND as [N1 N2].
  assert (W' := wf_cons_inv W). destruct W' as (W1 & W2 & W3 & W4 & W5).
  cbn [ts_rem remove_all spread]. destruct (S (nid a)) eqn:Es.
  - destruct (trace_cut S D a k r W T Es) as (T1 & T2). rewrite IH by (auto; injection E; auto).
    destruct (Z.eqb_spec U T0) as [->|]; auto. rewrite spread_notin by auto.
    rewrite (filter_keep_none D (toks (Cons a k Nil))); auto. intros x Hx. apply T1, toks_id. auto.
  - destruct (trace_kept S D a k r W T Es) as (T1 & T2 & T3). cbn [spread]. rewrite IH by (auto; injection E; auto).
    destruct (Z.eqb_spec U T0) as [->|]; auto.
    assert (K := keep_toks S D (Cons a k Nil)). cbn [remove_all] in K. rewrite Es in K. rewrite K; auto.
    + change (Cons a k r) with (fapp (Cons a k Nil) r) in W. unfold wf_ids in *. rewrite ids_fapp in W.
      apply NoDup_app_iff in W. tauto.
    + change (Cons a k r) with (fapp (Cons a k Nil) r) in T, W. apply (trace_fapp S D _ _ W T).
Qed.

(** ** One branch *)
Local Ltac tk := cbn [toks app]; repeat (rewrite <- app_assoc; cbn [app]); auto.

Lemma under_one n f : wf_ids f -> forall x, In x (under (fun i => (i =? n)%nat) f) <-> In x (ids (subtree n f)).
Proof.
  induction f as [|a k IHk r IHr]; intros W x; [simpl; tauto|]. cbn [under subtree].
  apply wf_cons_inv in W. destruct W as (W1 & W2 & W3 & W4 & W5).
  destruct (Nat.eqb_spec (nid a) n) as [E|E].
  - rewrite ids_cons. change (ids Nil) with (@nil nat). cbn [In app]. rewrite app_nil_r, in_app_iff.
    rewrite IHr by auto. rewrite subtree_notin by congruence. simpl. tauto.
  - rewrite in_app_iff, IHk, IHr by auto. destruct (in_dec Nat.eq_dec n (ids k)) as [H|H].
    + assert (Hr : ~ In n (ids r)) by (intros Hr; destruct (W5 n); auto). rewrite (subtree_notin n r Hr).
      destruct (subtree n k); simpl; tauto.
    + rewrite (subtree_notin n k H). simpl. tauto.
Qed.

Lemma node_seg n f : wf_ids f -> In n (ids f) ->
  exists X Y a c, subtree n f = Cons a c Nil /\ nid a = n /\ toks f = X ++ toks (Cons a c Nil) ++ Y.
Proof.
  induction f as [|a k IHk r IHr]; intros W H; [destruct H|].
  apply wf_cons_inv in W. destruct W as (W1 & W2 & W3 & W4 & W5). cbn [subtree].
  destruct (Nat.eqb_spec (nid a) n) as [E|E].
  - exists [], (toks r), a, k. split; auto. split; auto. cbn [toks app]. rewrite <- app_assoc. auto.
  - rewrite ids_cons in H. cbn [app In] in H. rewrite in_app_iff in H. destruct H as [H|[H|H]]; [tauto| |].
    + destruct (IHk W3 H) as (X & Y & b & c & E1 & E2 & E3). exists (TO a :: X), (Y ++ TC (nid a) :: toks r), b, c.
      rewrite E1. split; auto. split; auto. cbn [toks]. rewrite E3. tk.
    + destruct (IHr W4 H) as (X & Y & b & c & E1 & E2 & E3). rewrite subtree_notin by (intros Hk; destruct (W5 n); auto).
      exists (toks (Cons a k Nil) ++ X), Y, b, c. split; auto. split; auto.
      change (Cons a k r) with (fapp (Cons a k Nil) r). rewrite toks_fapp, E3, <- app_assoc. auto.
Qed.

Definition seg_in (s : forest node) (A : list tok) : Prop := exists X Y, A = X ++ toks s ++ Y.

Lemma subtree_kids n a k r : nid a <> n -> In n (ids k) -> wf_ids (Cons a k r) -> subtree n (Cons a k r) = subtree n k.
Proof.
  intros E H W. cbn [subtree]. destruct (Nat.eqb_spec (nid a) n); [tauto|].
  apply wf_cons_inv in W. destruct (node_seg n k) as (_ & _ & b & c & -> & _); tauto.
Qed.

Lemma subtree_rest n a k r : In n (ids r) -> wf_ids (Cons a k r) -> subtree n (Cons a k r) = subtree n r.
Proof.
  intros H W. cbn [subtree]. apply wf_cons_inv in W. destruct W as (W1 & W2 & W3 & W4 & W5).
  destruct (Nat.eqb_spec (nid a) n); [subst; tauto|]. rewrite subtree_notin; auto. intros Hk. destruct (W5 n); auto.
Qed.

(** Where the branch of [n] is, seen from a list of children outside it. *)
Lemma toks_seg n p l l' f f' : Ctx (Some p) l l' f f' -> wf_ids f -> In n (ids f) -> ~ In p (ids (subtree n f)) ->
  exists A b B, nid b = p /\ toks f = A ++ TO b :: toks l ++ TC p :: B /\ toks f' = A ++ TO b :: toks l' ++ TC p :: B /\
    (seg_in (subtree n f) A \/ (In n (ids l) /\ subtree n f = subtree n l) \/ seg_in (subtree n f) B).
Proof.
  intros C. remember (Some p) as up. revert Hequp. induction C; intros E W Hn Np; try discriminate.
  - injection E as <-. exists [], a, (toks r). split; auto. split; auto. split; auto. right.
    rewrite ids_cons in Hn. cbn [app In] in Hn. rewrite in_app_iff in Hn. destruct Hn as [Hn|[Hn|Hn]].
    + exfalso. apply Np. cbn [subtree]. rewrite Hn, Nat.eqb_refl. rewrite ids_cons. simpl. auto.
    + left. split; auto. apply subtree_kids; auto. intros En. apply wf_cons_inv in W. rewrite En in W. tauto.
    + right. rewrite subtree_rest by auto. apply wf_cons_inv in W. destruct (node_seg n r) as (X & Y & b & c & -> & _ & ->); try tauto.
      exists X, Y. auto.
  - injection E as ->. assert (Hp := Ctx_par_in C). cbn in Hp.
    assert (W' := wf_cons_inv W). destruct W' as (W1 & W2 & W3 & W4 & W5).
    assert (Ea : nid a <> n).
    { intros En. apply Np. cbn [subtree]. rewrite En, Nat.eqb_refl, ids_cons. cbn [app In]. rewrite in_app_iff. auto. }
    rewrite ids_cons in Hn. cbn [app In] in Hn. rewrite in_app_iff in Hn. destruct Hn as [Hn|[Hn|Hn]]; [tauto| |].
    + rewrite subtree_kids in * by auto. destruct (IHC eq_refl W3 Hn Np) as (A & b & B & E1 & E2 & E3 & E4).
      exists (TO a :: A), b, (B ++ TC (nid a) :: toks r). split; auto.
      cbn [toks]. rewrite E2, E3. split; [tk|].
      split; [tk|].
      destruct E4 as [(X & Y & ->)|[E4|(X & Y & ->)]].
      * left. exists (TO a :: X), Y. auto.
      * right. left. auto.
      * right. right. exists X, (Y ++ TC (nid a) :: toks r). rewrite <- !app_assoc. auto.
    + rewrite subtree_rest in * by auto. destruct (toks_ctx _ _ _ _ _ C) as (A & b & B & E1 & E2 & E3).
      exists (TO a :: A), b, (B ++ TC (nid a) :: toks r). split; auto.
      cbn [toks]. rewrite E2, E3. split; [tk|].
      split; [tk|].
      right. right. destruct (node_seg n r W4 Hn) as (X & Y & b' & c & -> & _ & ->).
      exists (B ++ TC (nid a) :: X), Y. rewrite <- !app_assoc. auto.
  - assert (W' := wf_cons_inv W). destruct W' as (W1 & W2 & W3 & W4 & W5).
    change (Cons a k r) with (fapp (Cons a k Nil) r). change (Cons a k r') with (fapp (Cons a k Nil) r').
    rewrite !toks_fapp. change (fapp (Cons a k Nil) r) with (Cons a k r).
    rewrite ids_cons in Hn. cbn [app In] in Hn. rewrite in_app_iff in Hn.
    destruct (in_dec Nat.eq_dec n (ids r)) as [Hr|Hr].
    + rewrite subtree_rest in * by auto. destruct (IHC E W4 Hr Np) as (A & b & B & E1 & E2 & E3 & E4).
      injection E as ->.
      exists (toks (Cons a k Nil) ++ A), b, B. split; auto. rewrite E2, E3, <- !app_assoc. split; auto. split; auto.
      destruct E4 as [(X & Y & ->)|[E4|E4]]; auto. left. exists (toks (Cons a k Nil) ++ X), Y. rewrite <- !app_assoc. auto.
    + injection E as ->. destruct (toks_ctx _ _ _ _ _ C) as (A & b & B & E1 & E2 & E3).
      exists (toks (Cons a k Nil) ++ A), b, B. split; auto. rewrite E2, E3, <- !app_assoc. split; auto. split; auto.
      left. destruct (Nat.eqb_spec (nid a) n) as [En|En].
      * cbn [subtree]. rewrite En, Nat.eqb_refl. exists [], A. auto.
      * assert (Hk : In n (ids k)) by tauto. rewrite subtree_kids by auto.
        destruct (node_seg n k W3 Hk) as (X & Y & b' & c & -> & _ & Ek).
        exists (TO a :: X), (Y ++ TC (nid a) :: A). cbn [toks]. rewrite Ek. tk.
Qed.

(** The tree of a context. *)
Lemma Ctx_one_tree p l l' F F' : Ctx (Some p) l l' F F' -> exists f1 a k k' f2,
  F = fapp f1 (Cons a k f2) /\ F' = fapp f1 (Cons a k' f2) /\ Ctx (Some p) l l' (Cons a k Nil) (Cons a k' Nil).
Proof.
  intros C. remember (Some p) as up. revert Hequp. induction C; intros E; try discriminate.
  - exists Nil, a, l, l', r. repeat split; constructor.
  - exists Nil, a, k, k', r. repeat split. injection E as ->. apply Ctx_down. auto.
  - destruct (IHC E) as (f1 & b & kb & kb' & f2 & -> & -> & G). exists (Cons a k f1), b, kb, kb', f2. auto.
Qed.
