(** A transaction that is not disturbed by others, and transactions one after the other
    (C65). *)
From Coq Require Import List Arith Lia Bool Permutation.
From Verif Require Import Prelude ConcModel ConcRun.
From Verif Require ConcNS.
Import ListNotations.

Section Alone.
Variable R : Type.
Variable pk : R -> nat.
Variable same : R -> R -> bool.
Notation solo := (solo pk same).
Notation step := (step pk same).
Notation play := (play pk same).

(** What the statements of a call do to a table of their own. *)
Fixpoint alone (t : list R) (p : prog R) : res (list R) :=
  match p with
  | Commit => Ok t
  | Raise e => Err e
  | SelectForUpdate k c => alone t (c (hd_error (filter (fun r => pk r =? k) t)))
  | Select c => alone t (c t)
  | Update sel f c => alone (map (fun r => if sel r then f r else r) t) c
  | Delete sel c => alone (filter (fun r => negb (sel r)) t) c
  | Insert r c => if existsb (same r) t then Err IntegrityError else alone (r :: t) c
  end.

(** No UPDATE changes a primary key. *)
Fixpoint keyed (p : prog R) : Prop :=
  match p with
  | Commit | Raise _ => True
  | SelectForUpdate _ c => forall o, keyed (c o)
  | Select c => forall t, keyed (c t)
  | Update sel f c => (forall r, sel r = true -> pk (f r) = pk r) /\ keyed c
  | Delete _ c | Insert _ c => keyed c
  end.

Hypothesis same_pk : forall a b, pk a = pk b -> same a b = true.

Definition final (W : world R) (i : nat) (r : res (list R)) : world R :=
  mkW (match r with Ok t => t | Err _ => w_rows W end) (set_nth i None (w_txs W))
      (w_log W ++ [(i, match r with Ok _ => None | Err e => Some e end)]).

(** The other transactions are finished or have not done anything yet. *)
Definition quiet (W : world R) (i : nat) : Prop :=
  forall j y, j <> i -> nth_error (w_txs W) j = Some (Some y) -> exists p, y = begin p.

Lemma set_set_nth A i (a b : A) l : set_nth i a (set_nth i b l) = set_nth i a l.
Proof. revert i. induction l as [|x l IH]; intros [|i]; cbn; auto. rewrite IH. auto. Qed.

Lemma quiet_free W i x : quiet W i -> blocked same W i x = false.
Proof. intros Q. apply blocked_false. intros j y Nj E. destruct (Q j y Nj E) as [p ->]. apply waits_begin. Qed.

Lemma quiet_set W i x : quiet W i -> quiet (mkW (w_rows W) (set_nth i x (w_txs W)) (w_log W)) i.
Proof.
  intros Q j y Nj. cbn. rewrite nth_set_nth. assert (N := proj2 (Nat.eqb_neq j i) Nj). rewrite N. apply Q. auto.
Qed.

Lemma step_to W i x : nth_error (w_txs W) i = Some (Some x) -> quiet W i -> step W i =
  match solo (w_rows W) x with
  | Go x' => mkW (w_rows W) (set_nth i (Some x') (w_txs W)) (w_log W)
  | End rows e => mkW rows (set_nth i None (w_txs W)) (w_log W ++ [(i, e)])
  end.
Proof. intros E Q. unfold ConcModel.step. rewrite E, (quiet_free W i x Q). auto. Qed.

Lemma goes_on W i q ws ls r (x : tx R) : nth_error (w_txs W) i = Some (Some x) -> quiet W i ->
  solo (w_rows W) x = goes (w_rows W) q ws ls ->
  (forall e, q = Raise e -> r = Err e) ->
  (forall W', w_rows W' = w_rows W -> nth_error (w_txs W') i = Some (Some (mkTx q ws ls None)) -> quiet W' i ->
    exists n, play W' (repeat i n) = final W' i r) ->
  exists n, play W (repeat i n) = final W i r.
Proof.
  intros E Q Es Hr IH.
  assert (St := step_to W i x E Q). rewrite Es in St.
  assert (D : (exists e, q = Raise e) \/ goes (w_rows W) q ws ls = Go (mkTx q ws ls None)) by (destruct q; eauto).
  destruct D as [[e ->]|D].
  - exists 1. cbn. rewrite St. cbn. rewrite (Hr e eq_refl). auto.
  - rewrite D in St.
    set (W' := mkW (w_rows W) (set_nth i (Some (mkTx q ws ls None)) (w_txs W)) (w_log W)) in *.
    destruct (IH W') as [n Hn]; auto.
    + unfold W'. cbn. rewrite nth_set_nth, E, Nat.eqb_refl. auto.
    + apply quiet_set. auto.
    + exists (S n). cbn. unfold ConcModel.play in Hn. rewrite St, Hn. unfold final, W'. cbn. rewrite set_set_nth. auto.
Qed.

Lemma gone_sel (sel : R -> bool) t : NoDup (map pk t) ->
  fold_left (apply_write pk) (map Gone (filter sel t)) t = filter (fun r => negb (sel r)) t.
Proof.
  intros N.
  assert (G : forall l u, fold_left (apply_write pk) (map Gone l) u = filter (fun r => negb (existsb (Nat.eqb (pk r)) (map pk l))) u).
  { induction l as [|a l IH]; intros u; cbn.
    - induction u as [|b u IHu]; cbn; f_equal; auto.
    - rewrite IH. clear. induction u as [|b u IHu]; cbn; auto. destruct (pk b =? pk a); cbn; auto.
      destruct (existsb _ _); cbn; rewrite IHu; auto. }
  rewrite G. apply filter_ext_in. intros a Ha. f_equal. destruct (sel a) eqn:Ea.
  - apply existsb_exists. exists (pk a). split; [apply in_map, filter_In; auto|apply Nat.eqb_refl].
  - apply not_true_iff_false. intros Ex. apply existsb_exists in Ex. destruct Ex as (k & Hk & E). apply Nat.eqb_eq in E. subst k.
    apply in_map_iff in Hk. destruct Hk as (b & Eb & Hb). apply filter_In in Hb. destruct Hb as [Hb Sb].
    assert (b = a) by (eapply ConcNS.key_unique; eauto). congruence.
Qed.

(** Only the rows selected are written, so that a change of the keys of others does not
    matter. *)
Lemma puts_keyed (sel : R -> bool) f t : (forall r, sel r = true -> pk (f r) = pk r) -> NoDup (map pk t) ->
  fold_left (apply_write pk) (map (fun r => Put (f r)) (filter sel t)) t = map (fun r => if sel r then f r else r) t.
Proof.
  intros K N.
  rewrite (map_ext_in _ (fun r => Put ((fun r => if sel r then f r else r) r))).
  - rewrite (ConcNS.puts_sel R pk (fun r => if sel r then f r else r)); auto.
    + apply map_ext. intros a. destruct (sel a); auto.
    + intros r. destruct (sel r) eqn:E; auto.
  - intros a Ha. apply filter_In in Ha. destruct Ha as [_ ->]. auto.
Qed.

Lemma map_keyed (sel : R -> bool) f t : (forall r, sel r = true -> pk (f r) = pk r) ->
  map pk (map (fun r => if sel r then f r else r) t) = map pk t.
Proof. intros K. rewrite map_map. apply map_ext. intros r. destruct (sel r) eqn:E; auto. Qed.

Lemma fresh_key r t : NoDup (map pk t) -> existsb (same r) t = false -> NoDup (map pk (r :: t)).
Proof.
  intros N E. cbn. constructor; auto. intros H. apply in_map_iff in H. destruct H as (a & Ea & Ha).
  apply not_true_iff_false in E. apply E. apply existsb_exists. exists a. split; auto.
Qed.

Lemma run_alone p : keyed p -> forall W i ws ls, nth_error (w_txs W) i = Some (Some (mkTx p ws ls None)) -> quiet W i ->
  NoDup (map pk (fold_left (apply_write pk) ws (w_rows W))) ->
  exists n, play W (repeat i n) = final W i (alone (fold_left (apply_write pk) ws (w_rows W)) p).
Proof.
  induction p as [|e|k c IH|c IH|sel f c IH|sel c IH|r c IH]; intros K W i ws ls E Q N.
  - exists 1. cbn. rewrite (step_to W i _ E Q). auto.
  - exists 1. cbn. rewrite (step_to W i _ E Q). auto.
  - cbn [alone]. set (t := fold_left (apply_write pk) ws (w_rows W)) in *.
    eapply goes_on; [exact E|exact Q|reflexivity| |].
    + unfold visible. cbn [x_writes]. fold t. intros e ->. auto.
    + intros W' Er E' Q'. cbn [x_writes visible] in E'. unfold visible in E'. cbn [x_writes] in E'. fold t in E'.
      destruct (IH _ (K _) W' i _ _ E' Q') as [n Hn]; [rewrite Er; exact N|]. rewrite Er in Hn. fold t in Hn. eauto.
  - cbn [alone]. set (t := fold_left (apply_write pk) ws (w_rows W)) in *.
    eapply goes_on; [exact E|exact Q|reflexivity| |].
    + unfold visible. cbn [x_writes]. fold t. intros e ->. auto.
    + intros W' Er E' Q'. unfold visible in E'. cbn [x_writes] in E'. fold t in E'.
      destruct (IH _ (K _) W' i _ _ E' Q') as [n Hn]; [rewrite Er; exact N|]. rewrite Er in Hn. fold t in Hn. eauto.
  - cbn [alone]. destruct K as [Kf K]. set (t := fold_left (apply_write pk) ws (w_rows W)) in *.
    set (x1 := mkTx (Update sel f c) ws ls (Some (map pk (filter sel t)))).
    assert (St := step_to W i _ E Q). unfold ConcModel.solo in St. cbn [x_prog x_found x_writes x_locks] in St.
    unfold visible in St. cbn [x_writes] in St. fold t x1 in St.
    set (W1 := mkW (w_rows W) (set_nth i (Some x1) (w_txs W)) (w_log W)) in *.
    assert (E1 : nth_error (w_txs W1) i = Some (Some x1)) by (unfold W1; cbn; rewrite nth_set_nth, E, Nat.eqb_refl; auto).
    assert (Q1 : quiet W1 i) by (apply quiet_set; auto).
    assert (H : exists n, play W1 (repeat i n) = final W1 i (alone (map (fun r => if sel r then f r else r) t) c)).
    { eapply goes_on; [exact E1|exact Q1|reflexivity| |].
      - intros e ->. auto.
      - intros W' Er E' Q'. unfold visible in E'. cbn [x1 x_writes x_locks W1 w_rows] in E'. fold t in E'.
        rewrite ConcNS.hit_eq in E'. cbn [W1 w_rows] in Er.
        assert (V : fold_left (apply_write pk) (ws ++ map (fun r => Put (f r)) (filter sel t)) (w_rows W) =
                    map (fun r => if sel r then f r else r) t).
        { rewrite fold_left_app. fold t. apply puts_keyed; auto. }
        destruct (IH K W' i _ _ E' Q') as [n Hn].
        + rewrite Er, V, map_keyed; auto.
        + rewrite Er, V in Hn. eauto. }
    destruct H as [n Hn]. exists (S n). cbn. unfold ConcModel.play in Hn. rewrite St, Hn.
    unfold final, W1. cbn. rewrite set_set_nth. auto.
  - cbn [alone]. set (t := fold_left (apply_write pk) ws (w_rows W)) in *.
    set (x1 := mkTx (Delete sel c) ws ls (Some (map pk (filter sel t)))).
    assert (St := step_to W i _ E Q). unfold ConcModel.solo in St. cbn [x_prog x_found x_writes x_locks] in St.
    unfold visible in St. cbn [x_writes] in St. fold t x1 in St.
    set (W1 := mkW (w_rows W) (set_nth i (Some x1) (w_txs W)) (w_log W)) in *.
    assert (E1 : nth_error (w_txs W1) i = Some (Some x1)) by (unfold W1; cbn; rewrite nth_set_nth, E, Nat.eqb_refl; auto).
    assert (Q1 : quiet W1 i) by (apply quiet_set; auto).
    assert (H : exists n, play W1 (repeat i n) = final W1 i (alone (filter (fun r => negb (sel r)) t) c)).
    { eapply goes_on; [exact E1|exact Q1|reflexivity| |].
      - intros e ->. auto.
      - intros W' Er E' Q'. unfold visible in E'. cbn [x1 x_writes x_locks W1 w_rows] in E'. fold t in E'.
        rewrite ConcNS.hit_eq in E'. cbn [W1 w_rows] in Er.
        assert (V : fold_left (apply_write pk) (ws ++ map Gone (filter sel t)) (w_rows W) = filter (fun r => negb (sel r)) t).
        { rewrite fold_left_app. fold t. apply gone_sel; auto. }
        destruct (IH K W' i _ _ E' Q') as [n Hn].
        + rewrite Er, V. apply ConcNS.nodup_filter. auto.
        + rewrite Er, V in Hn. eauto. }
    destruct H as [n Hn]. exists (S n). cbn. unfold ConcModel.play in Hn. rewrite St, Hn.
    unfold final, W1. cbn. rewrite set_set_nth. auto.
  - cbn [alone keyed] in *. set (t := fold_left (apply_write pk) ws (w_rows W)) in *.
    destruct (existsb (same r) t) eqn:Ex.
    + exists 1. cbn. rewrite (step_to W i _ E Q). unfold ConcModel.solo. cbn [x_prog]. unfold visible. cbn [x_writes]. fold t.
      rewrite Ex. auto.
    + eapply goes_on with (q := c) (ws := ws ++ [New r]); [exact E|exact Q| | |].
      * unfold ConcModel.solo. cbn [x_prog]. unfold visible. cbn [x_writes]. fold t. rewrite Ex. reflexivity.
      * intros e ->. auto.
      * intros W' Er E' Q'.
        assert (V : fold_left (apply_write pk) (ws ++ [New r]) (w_rows W) = r :: t) by (rewrite fold_left_app; auto).
        destruct (IH K W' i _ _ E' Q') as [n Hn].
        -- rewrite Er, V. apply fresh_key; auto.
        -- rewrite Er, V in Hn. eauto.
Qed.

Lemma alone_keys p : keyed p -> forall t t', NoDup (map pk t) -> alone t p = Ok t' -> NoDup (map pk t').
Proof.
  induction p as [|e|k c IH|c IH|sel f c IH|sel c IH|r c IH]; cbn; intros K t t' N H; eauto.
  - injection H as <-. auto.
  - discriminate.
  - destruct K as [Kf K]. eapply IH; [auto| |exact H]. rewrite map_keyed; auto.
  - eapply IH; [auto| |exact H]. apply ConcNS.nodup_filter. auto.
  - destruct (existsb (same r) t) eqn:Ex; [discriminate|]. eapply IH; [auto| |exact H]. apply fresh_key; auto.
Qed.

(** Any order of whole transactions is the outcome of a schedule. *)
Theorem serial_schedule ps : Forall keyed ps -> forall order W, NoDup (map pk (w_rows W)) -> NoDup order ->
  length (w_txs W) = length ps ->
  (forall i, In i order -> exists p, nth_error ps i = Some p /\ nth_error (w_txs W) i = Some (Some (begin p))) ->
  (forall j y, nth_error (w_txs W) j = Some (Some y) -> exists p, y = begin p) ->
  exists schedule, let W' := play W schedule in
    (w_rows W', w_log W') = (let (r, l) := one_by_one alone ps (w_rows W) order in (r, w_log W ++ l)) /\
    forall i, nth_error (w_txs W') i = if existsb (Nat.eqb i) order then Some None else nth_error (w_txs W) i.
Proof.
  intros K. induction order as [|i order IH]; intros W N No L H Q.
  - exists []. cbn. rewrite app_nil_r. auto.
  - apply NoDup_cons_iff in No. destruct No as [Ni No].
    destruct (H i (or_introl eq_refl)) as (p & Ep & Ew).
    assert (Kp : keyed p) by (rewrite Forall_forall in K; apply K; eapply nth_error_In; eauto).
    assert (Qi : quiet W i) by (intros j y _ E; eauto).
    destruct (run_alone p Kp W i [] [] Ew Qi N) as [n Hn]. cbn [fold_left] in Hn.
    set (W1 := final W i (alone (w_rows W) p)) in *.
    assert (Tx : forall j, nth_error (w_txs W1) j = if j =? i then Some None else nth_error (w_txs W) j).
    { intros j. unfold W1, final. cbn. rewrite nth_set_nth. destruct (Nat.eqb_spec j i) as [->|]; auto. rewrite Ew. auto. }
    destruct (IH W1) as (s & Hs & Ht); auto.
    + unfold W1, final. cbn. destruct (alone (w_rows W) p) eqn:E; auto. eapply alone_keys; eauto.
    + unfold W1, final. cbn. rewrite set_nth_length. auto.
    + intros j Hj. destruct (H j (or_intror Hj)) as (q & Eq & Ej). exists q. split; auto. rewrite Tx.
      destruct (Nat.eqb_spec j i) as [->|]; auto. contradiction.
    + intros j y. rewrite Tx. destruct (j =? i); [discriminate|]. apply Q.
    + exists (repeat i n ++ s). cbv zeta. unfold ConcModel.play in *. rewrite fold_left_app, Hn. split.
      * rewrite Hs. cbn [one_by_one]. rewrite Ep. unfold W1, final. cbn [w_rows w_log].
        destruct (alone (w_rows W) p) as [t'|e].
        -- destruct (one_by_one alone ps t' order). rewrite <- app_assoc. auto.
        -- destruct (one_by_one alone ps (w_rows W) order). rewrite <- app_assoc. auto.
      * intros j. rewrite Ht, Tx. cbn [existsb]. destruct (j =? i); auto. cbn. destruct (existsb _ order); auto.
Qed.

(** From the beginning. *)
Theorem serial_begin t ps order : Forall keyed ps -> NoDup (map pk t) -> NoDup order -> (forall i, In i order -> i < length ps) ->
  exists schedule, let W := play (all_begin t ps) schedule in
    (w_rows W, w_log W) = one_by_one alone ps t order /\
    forall i, i < length ps -> nth_error (w_txs W) i = Some None <-> In i order.
Proof.
  intros K N No H.
  assert (B : forall j, nth_error (w_txs (all_begin t ps)) j = option_map (fun p => Some (begin p)) (nth_error ps j)).
  { intros j. cbn. apply nth_error_map. }
  destruct (serial_schedule ps K order (all_begin t ps) N No) as (s & Hs & Ht).
  - cbn. apply map_length.
  - intros i Hi. destruct (nth_error ps i) as [p|] eqn:E.
    + exists p. split; auto. rewrite B, E. auto.
    + apply nth_error_None in E. specialize (H i Hi). lia.
  - intros j y. rewrite B. destruct (nth_error ps j); cbn; [|discriminate]. intros E. injection E as <-. eauto.
  - exists s. cbv zeta. split.
    + rewrite Hs. cbn. destruct (one_by_one alone ps t order). auto.
    + intros i Hi. rewrite Ht, B. split.
      * destruct (existsb (Nat.eqb i) order) eqn:E.
        -- intros _. apply existsb_exists in E. destruct E as (k & Hk & E). apply Nat.eqb_eq in E. subst. auto.
        -- destruct (nth_error ps i); cbn; discriminate.
      * intros Hj. assert (E : existsb (Nat.eqb i) order = true) by (apply existsb_exists; exists i; split; auto; apply Nat.eqb_refl).
        rewrite E. auto.
Qed.

(** An UPDATE or DELETE touches only rows that satisfy its condition when it is done. *)
Lemma kept_row t x x' a : solo t x = Go x' -> In a (visible pk t x) -> NoDup (map pk (visible pk t x)) ->
  match x_prog x with
  | Update sel f _ => (forall r, sel r = true -> pk (f r) = pk r) /\ sel a = false
  | Delete sel _ => sel a = false
  | _ => True
  end -> In a (visible pk t x').
Proof.
  unfold ConcModel.solo. cbv zeta. destruct x as [p ws ls fo]. cbn [x_prog x_found x_writes x_locks].
  assert (G : forall q w l, goes t q w l = Go x' -> x_writes x' = w).
  { intros q w l. unfold goes. destruct q; try discriminate; intros E; injection E as <-; auto. }
  assert (V : forall w p l fo, visible pk t (mkTx p (ws ++ w) l fo) = fold_left (apply_write pk) w (fold_left (apply_write pk) ws t)).
  { intros. unfold visible. cbn. apply fold_left_app. }
  unfold visible. cbn [x_writes]. set (u := fold_left (apply_write pk) ws t). intros E Ha N S0.
  assert (P : forall l f, (forall r, In r l -> pk (f r) = pk r) -> incl l u -> ~ In a l -> In a (fold_left (apply_write pk) (map (fun r => Put (f r)) l) u)).
  { intros l f. assert (Gl : forall l v, (forall r, In r l -> pk (f r) = pk r) -> (forall r, In r l -> pk r <> pk a) -> In a v -> In a (fold_left (apply_write pk) (map (fun r => Put (f r)) l) v)).
    { clear. induction l as [|b l IH]; cbn; intros v Kf D Ha; auto. apply IH; auto. apply in_map_iff. exists a. split; auto.
      rewrite Kf; auto. destruct (Nat.eqb_spec (pk a) (pk b)) as [Ee|]; auto. exfalso. apply (D b); auto. }
    intros Kf Il Na. apply Gl; auto. intros r Hr Er. apply Na. replace a with r; auto. eapply (ConcNS.key_unique R pk u); eauto. }
  assert (P' : forall l, incl l u -> ~ In a l -> In a (fold_left (apply_write pk) (map Gone l) u)).
  { intros l. assert (Gl : forall l v, (forall r, In r l -> pk r <> pk a) -> In a v -> In a (fold_left (apply_write pk) (map Gone l) v)).
    { clear. induction l as [|b l IH]; cbn; intros v D Ha; auto. apply IH; auto. apply filter_In. split; auto.
      apply negb_true_iff, Nat.eqb_neq. intros Ee. apply (D b); auto. }
    intros Il Na. apply Gl; auto. intros r Hr Er. apply Na. replace a with r; auto. eapply (ConcNS.key_unique R pk u); eauto. }
  destruct p; try discriminate.
  - rewrite (G _ _ _ E). auto.
  - rewrite (G _ _ _ E). auto.
  - destruct fo.
    + rewrite (G _ _ _ E), fold_left_app. apply P.
      * intros r Hr. apply filter_In in Hr. destruct Hr as [_ Hr]. apply andb_true_iff in Hr. apply S0, Hr.
      * intros r Hr. apply filter_In in Hr. apply Hr.
      * intros Hr. apply filter_In in Hr. destruct Hr as [_ Hr]. apply andb_true_iff in Hr. destruct S0. destruct Hr. congruence.
    + injection E as <-. auto.
  - destruct fo.
    + rewrite (G _ _ _ E), fold_left_app. apply P'.
      * intros r Hr. apply filter_In in Hr. apply Hr.
      * intros Hr. apply filter_In in Hr. destruct Hr as [_ Hr]. apply andb_true_iff in Hr. destruct Hr. congruence.
    + injection E as <-. auto.
  - revert E. match goal with |- (if ?b then _ else _) = _ -> _ => destruct b end; [discriminate|]. intros E.
    rewrite (G _ _ _ E), fold_left_app. right. auto.
Qed.
End Alone.
