(** Step numbers grow by at most one per call: a bound on the number of calls and on
    the depth is enough to rule out PathOverflow and to run every move. *)
From Coq Require Import String List Arith ZArith Lia Bool Permutation.
From Verif Require Import Prelude Forest NumConv SpecFacts PathTab CommonModel Order History MPModel MPStep
  MPInv MPAdd MPMove MPMoveOk MPDelete MPReads MPHist MPCheck.
Import ListNotations.

Section Room.
Variable cfg : mp_cfg.
Hypothesis radix2 : 2 <= radix cfg.
Hypothesis step1 : 1 <= steplen cfg.
Notation R := (radix cfg).
Notation w := (steplen cfg).
Notation maxstep := (maxstep cfg).
Notation o := (order_by cfg).

Definition al (p : path) : Prop := exists n, length p = S n * w.
Definition sv (p : path) : nat := undigits R (last_step cfg p).

Lemma al_ge p : al p -> w <= length p.
Proof. intros [n E]. rewrite E. cbn. lia. Qed.

Lemma pad_len k : length k <= w -> length (pad cfg k) = w.
Proof. intros H. unfold pad. rewrite app_length, repeat_length. lia. Qed.

Lemma pad_val k : undigits R (pad cfg k) = undigits R k.
Proof. unfold pad. apply undigits_zeros. Qed.

Lemma lastpos_sv p v : get_lastpos cfg p = Ok v -> v = sv p.
Proof. unfold get_lastpos, step_value. destruct (forallb _ _); [|discriminate]. intros E. injection E as <-. auto. Qed.

Lemma inc_sv p i : al p -> inc_path cfg p = Ok i -> al i /\ length i = length p /\ sv i = sv p + 1.
Proof.
  intros A. unfold inc_path. destruct (get_lastpos cfg p) as [v|] eqn:E; cbn [bind]; [|discriminate].
  apply lastpos_sv in E. destruct (w <? _) eqn:L; [discriminate|]. apply Nat.ltb_ge in L. intros H. injection H as <-.
  assert (Lp := pad_len _ L).
  assert (Le : length (firstn (length p - w) p ++ pad cfg (digits R (v + 1))) = length p).
  { rewrite app_length, firstn_length, Lp. apply al_ge in A. lia. }
  split; [|split].
  - destruct A as [n A]. exists n. lia.
  - auto.
  - unfold sv at 1. rewrite last_step_app by auto. rewrite pad_val. rewrite <- E. apply digits_spec; auto.
Qed.

Lemma get_path_sv tp n k : n * w <= length tp -> k < maxstep ->
  length (get_path cfg tp (S n) k) = S n * w /\ sv (get_path cfg tp (S n) k) = k.
Proof.
  intros L K. unfold get_path, get_basepath. rewrite Nat.sub_succ, Nat.sub_0_r.
  assert (Lp := seg_len cfg radix2 step1 k K). unfold seg in Lp. split.
  - rewrite app_length, firstn_length, Lp. cbn. lia.
  - unfold sv. rewrite last_step_app by auto. apply (seg_val cfg radix2).
Qed.

(** Renaming a branch changes the last step of its top node only. *)
Lemma ren_sv old new p : al old -> al new -> al p -> ppre old p = true ->
  al (new ++ skipn (length old) p) /\ (p = old -> new ++ skipn (length old) p = new) /\
  (p <> old -> sv (new ++ skipn (length old) p) = sv p).
Proof.
  intros [a Ao] [b An] [c Ap] H. apply ppre_iff in H. destruct H as [s ->].
  rewrite skipn_app, skipn_all, Nat.sub_diag. cbn [app skipn]. rewrite app_length in Ap.
  assert (Ls : exists m, length s = m * w) by (exists (c - a); nia). destruct Ls as [m Ls].
  split; [|split].
  - exists (b + m). rewrite app_length. nia.
  - intros E. apply (f_equal (@length _)) in E. rewrite app_length in E. destruct s; [apply app_nil_r|cbn in E; lia].
  - intros Ne. assert (Hm : w <= length s).
    { destruct m; [|nia]. destruct s; [|cbn in Ls; lia]. rewrite app_nil_r in Ne. congruence. }
    assert (G : forall q, last_step cfg (q ++ s) = last_step cfg s).
    { intros q. unfold last_step. rewrite app_length, skipn_app. rewrite skipn_all2 by lia. cbn [app]. f_equal. lia. }
    unfold sv. rewrite !G. auto.
Qed.

Definition lows (B : nat) (t : mp_table) : Prop := forall r, In r t -> al (m_path r) /\ sv (m_path r) <= B.
Definition lowx (x : path) (B : nat) (t : mp_table) : Prop :=
  forall r, In r t -> al (m_path r) /\ (m_path r = x \/ sv (m_path r) <= B).

Lemma set_path old new r : m_path (set_row cfg old new r) =
  if ppre old (m_path r) then new ++ skipn (length old) (m_path r) else m_path r.
Proof. unfold set_row. destruct (ppre old (m_path r)); auto. Qed.

Lemma set_rows db old new db' : set_newpath cfg db old new = Ok db' ->
  (old = new /\ db_rows db' = db_rows db) \/ db_rows db' = map (set_row cfg old new) (db_rows db).
Proof.
  unfold set_newpath. destruct (peq old new) eqn:E.
  - apply peq_iff in E. intros H. injection H as <-. auto.
  - destruct (paths_clash _ _ _ _); [discriminate|]. intros H. injection H as <-. auto.
Qed.

Lemma set_lowx x B db old new db' : lowx x B (db_rows db) -> al old -> al new -> length old = length x ->
  (new = x \/ sv new <= B) -> set_newpath cfg db old new = Ok db' -> lowx x B (db_rows db').
Proof.
  intros Lo Ao An Lx Hn E. apply set_rows in E. destruct E as [[_ ->]| ->]; auto.
  intros r Hr. apply in_map_iff in Hr. destruct Hr as (y & <- & Hy). destruct (Lo y Hy) as [A S].
  rewrite set_path. destruct (ppre old (m_path y)) eqn:E; auto.
  destruct (ren_sv old new (m_path y) Ao An A E) as (A' & H1 & H2). split; auto.
  destruct (list_eq_dec Nat.eq_dec (m_path y) old) as [Eo|Ne].
  - rewrite H1; auto.
  - rewrite H2 by auto. destruct S as [Ex|S]; auto. exfalso. apply Ne.
    apply ppre_iff in E. destruct E as [s E]. rewrite <- Ex, E in Lx. rewrite app_length in Lx.
    destruct s; [|cbn in Lx; lia]. rewrite app_nil_r in E. auto.
Qed.

Lemma set_lows B db old new db' : lows B (db_rows db) -> al old -> al new -> sv new <= B ->
  set_newpath cfg db old new = Ok db' -> lows B (db_rows db').
Proof.
  intros Lo Ao An Hn E. apply set_rows in E. destruct E as [[_ ->]| ->]; auto.
  intros r Hr. apply in_map_iff in Hr. destruct Hr as (y & <- & Hy). destruct (Lo y Hy) as [A S].
  rewrite set_path. destruct (ppre old (m_path y)) eqn:E; auto.
  destruct (ren_sv old new (m_path y) Ao An A E) as (A' & H1 & H2). split; auto.
  destruct (list_eq_dec Nat.eq_dec (m_path y) old) as [Eo|Ne]; [rewrite H1|rewrite H2]; auto.
Qed.

Lemma set_last x B db new db' : lowx x B (db_rows db) -> al x -> al new -> sv new <= B ->
  set_newpath cfg db x new = Ok db' -> lows B (db_rows db').
Proof.
  intros Lo Ao An Hn E. apply set_rows in E. destruct E as [[En ->]| ->].
  - intros r Hr. destruct (Lo r Hr) as [A [->|S]]; auto. rewrite En. auto.
  - intros r Hr. apply in_map_iff in Hr. destruct Hr as (y & <- & Hy). destruct (Lo y Hy) as [A S].
    rewrite set_path. destruct (ppre x (m_path y)) eqn:E.
    + destruct (ren_sv x new (m_path y) Ao An A E) as (A' & H1 & H2). split; auto.
      destruct (list_eq_dec Nat.eq_dec (m_path y) x) as [Eo|Ne]; [rewrite H1; auto|rewrite H2 by auto].
      destruct S; [congruence|auto].
    + split; auto. destruct S as [Ex|S]; auto. exfalso. rewrite Ex in E.
      assert (ppre x x = true) by (apply ppre_iff; exists []; rewrite app_nil_r; auto). congruence.
Qed.

Lemma siblings_al l : forall db op tp db' op' tp', (forall r, In r l -> al (m_path r)) ->
  (forall p, op = Some p -> al p) -> move_siblings cfg db op tp l = Ok (db', op', tp') -> forall p, op' = Some p -> al p.
Proof.
  induction l as [|r l IH]; intros db op tp db' op' tp' Hl Ho; cbn [move_siblings].
  - intros E p. injection E as _ <- _. auto.
  - destruct (inc_path cfg (m_path r)) as [i|] eqn:Ei; cbn [bind]; [|discriminate].
    destruct (set_newpath cfg db (m_path r) i) as [d|]; cbn [bind]; [|discriminate].
    destruct op as [op|]; intros H; (eapply IH; [intros x Hx; apply Hl; right; exact Hx| |exact H]); auto.
    intros p E. injection E as <-. destruct (Ho op eq_refl) as [n A]. unfold shift_path.
      destruct (inc_sv (m_path r) i (Hl r (or_introl eq_refl)) Ei) as (_ & Li & _).
      destruct (ppre (m_path r) op) eqn:E; [|exists n; auto]. apply ppre_iff in E. destruct E as [s ->].
      exists n. rewrite app_length, skipn_length, Li. rewrite app_length in *. lia.
Qed.

Lemma siblings_lows B l : forall db op tp db' op' tp', lows B (db_rows db) ->
  (forall r, In r l -> al (m_path r) /\ sv (m_path r) + 1 <= B) ->
  move_siblings cfg db op tp l = Ok (db', op', tp') -> lows B (db_rows db').
Proof.
  induction l as [|r l IH]; intros db op tp db' op' tp' Lo Hl; cbn [move_siblings].
  - intros E. injection E as <- _ _. auto.
  - destruct (inc_path cfg (m_path r)) as [i|] eqn:Ei; cbn [bind]; [|discriminate].
    destruct (set_newpath cfg db (m_path r) i) as [d|] eqn:Es; cbn [bind]; [|discriminate].
    destruct (Hl r (or_introl eq_refl)) as [A S]. destruct (inc_sv _ _ A Ei) as (Ai & Li & Si).
    assert (Lo' : lows B (db_rows d)) by (apply (set_lows B db (m_path r) i d); auto; lia).
    destruct op as [op|]; intros H; eapply IH; try exact H; auto; intros x Hx; apply Hl; right; auto.
Qed.

Lemma siblings_lowx x B l : forall db op tp db' op' tp', lowx x B (db_rows db) ->
  (forall r, In r l -> al (m_path r) /\ length (m_path r) = length x /\ sv (m_path r) + 1 <= B) ->
  move_siblings cfg db op tp l = Ok (db', op', tp') -> lowx x B (db_rows db').
Proof.
  induction l as [|r l IH]; intros db op tp db' op' tp' Lo Hl; cbn [move_siblings].
  - intros E. injection E as <- _ _. auto.
  - destruct (inc_path cfg (m_path r)) as [i|] eqn:Ei; cbn [bind]; [|discriminate].
    destruct (set_newpath cfg db (m_path r) i) as [d|] eqn:Es; cbn [bind]; [|discriminate].
    destruct (Hl r (or_introl eq_refl)) as (A & Lr & S). destruct (inc_sv _ _ A Ei) as (Ai & Li & Si).
    assert (Lo' : lowx x B (db_rows d)) by (apply (set_lowx x B db (m_path r) i d); auto; right; lia).
    destruct op as [op|]; intros H; eapply IH; try exact H; auto; intros y Hy; apply Hl; right; auto.
Qed.

Lemma collect_in l : forall p l', collect_movesiblings cfg p l = Ok l' -> forall r, In r l' -> In r l.
Proof.
  induction l as [|r l IH]; intros p l'; cbn [collect_movesiblings].
  - intros E. injection E as <-. auto.
  - destruct (py_lt cfg p (m_path r)); [intros E; injection E as <-; intros ? []|].
    destruct (inc_path _ _); cbn [bind]; [|discriminate].
    destruct (collect_movesiblings cfg a l) eqn:E; cbn [bind]; [|discriminate]. intros H. injection H as <-.
    intros x [<-|Hx]; [left; auto|right; eauto].
Qed.

Lemma sib_in t n r : In r (get_siblings cfg t n) -> In r t /\ m_depth r = m_depth n.
Proof.
  unfold get_siblings, order_path. intros H. apply (Permutation_in _ (isort_perm _ _)) in H. apply filter_In in H. destruct H as [H1 H2].
  apply andb_true_iff in H2. destruct H2 as [H2 _]. apply Nat.eqb_eq in H2. auto.
Qed.

Lemma last_in {A} (l : list A) x : last_opt l = Some x -> In x l.
Proof.
  destruct l as [|a l]; [discriminate|]. revert a. induction l as [|b l IH]; intros a.
  - cbn. intros E. injection E as <-. auto.
  - rewrite last_opt_cons. intros E. right. apply IH. exact E.
Qed.

(** A table whose rows have aligned paths and right depths. *)
Definition tab (B : nat) (t : mp_table) : Prop :=
  forall r, In r t -> al (m_path r) /\ sv (m_path r) <= B /\ length (m_path r) = m_depth r * w.

Lemma tab_lows B t : tab B t -> lows B t.
Proof. intros H r Hr. destruct (H r Hr) as (A & S & _). auto. Qed.

Lemma lows_S B t : lows B t -> lows (S B) t.
Proof. intros H r Hr. destruct (H r Hr). auto. Qed.

Lemma reorder_low B db p np n tg sibs op db' op' newpath tp :
  tab B (db_rows db) -> B + 2 < maxstep -> n * w <= length (m_path tg) ->
  al (m_path tg) -> sv (m_path tg) <= B \/ np <> None ->
  (forall k, np = Some k -> k <= B + 1) ->
  (np <> None -> forall r, In r sibs -> In r (db_rows db) /\ m_depth r = S n) ->
  (np = None -> m_depth tg = S n) ->
  (forall x, op = Some x -> al x) ->
  reorder cfg db p np (S n) tg sibs op = Ok (db', op', newpath, tp) ->
  lows (S B) (db_rows db') /\ al newpath /\ sv newpath <= S B.
Proof.
  intros T Bm Lt At St Hk Hs Hd Ho. assert (Lo := tab_lows _ _ T). unfold reorder. destruct (goes_last cfg (db_rows db) p tg).
  - destruct (get_last_sibling cfg (db_rows db) tg) as [l|] eqn:El; cbn [opt_res bind]; [|discriminate].
    apply last_in, sib_in in El. destruct El as [El _]. destruct (T l El) as (Al & Sl & _).
    destruct (inc_path cfg (m_path l)) as [i|] eqn:Ei; cbn [bind]; [|discriminate].
    destruct (inc_sv _ _ Al Ei) as (Ai & Li & Si). assert (Hi : sv i <= S B) by lia.
    destruct op as [op|]; cbn [bind].
    + destruct (set_newpath cfg db op i) as [d|] eqn:E; cbn [bind]; [|discriminate]. intros H. injection H as <- _ <- _.
      split; [|auto]. apply (set_lows (S B) db op i d); auto. apply lows_S; auto.
    + intros H. injection H as <- _ <- _. split; auto. apply lows_S; auto.
  - match goal with |- (bind ?X _ = _ -> _) => destruct X as [[k ss]|] eqn:Ek; cbn [bind]; [|discriminate] end.
    assert (G : k <= B + 1 /\ forall r, In r ss -> In r (db_rows db) /\ m_depth r = S n).
    { destruct np as [k0|].
      - injection Ek as <- <-. split; [apply Hk; auto|apply Hs; discriminate].
      - unfold reorder_pos in Ek. destruct (get_lastpos cfg (m_path tg)) as [v|] eqn:Ev; cbn [bind] in Ek; [|discriminate].
        apply lastpos_sv in Ev. destruct St as [St|[]]; auto.
        destruct p; try discriminate; injection Ek as <- <-; (split; [lia|]); intros r Hr;
          try (apply filter_In in Hr; destruct Hr as [Hr _]); apply sib_in in Hr; rewrite <- (Hd eq_refl); auto. }
    destruct G as [Gk Gs]. clear Ek Hk Hs Hd St.
    destruct (get_path_sv (m_path tg) n k Lt ltac:(lia)) as [Ln Sn].
    set (nw := get_path cfg (m_path tg) (S n) k) in *. assert (An : al nw) by (exists n; auto).
    match goal with |- (bind ?X _ = _ -> _) => destruct X as [[db1 tmp]|] eqn:E1; cbn [bind]; [|discriminate] end.
    destruct (collect_movesiblings _ _ _) as [ms|] eqn:Em; cbn [bind]; [|discriminate].
    assert (Hm : forall r, In r (rev ms) -> al (m_path r) /\ length (m_path r) = S n * w /\ sv (m_path r) + 1 <= S B).
    { intros r Hr. apply in_rev in Hr. assert (Hr' := collect_in _ _ _ Em r Hr). destruct (Gs r Hr') as [H1 H2].
      destruct (T r H1) as (A & S & L). rewrite H2 in L. repeat split; auto. lia. }
    destruct (move_siblings _ _ _ _ _) as [[[db2 op2] tp2]|] eqn:E3; cbn [bind]; [|discriminate].
    assert (Ao2 : forall x, op2 = Some x -> al x).
    { eapply siblings_al; [|exact Ho|exact E3]. intros r Hr. apply (Hm r Hr). }
    destruct tmp as [tmp|].
    + (* through the temporary path *)
      destruct op as [op|]; [|discriminate].
      match type of E1 with (if ?b then _ else _) = _ => destruct b; [|discriminate] end.
      destruct (get_last_sibling cfg (db_rows db) tg) as [l|] eqn:El; cbn [opt_res bind] in E1; [|discriminate].
      apply last_in, sib_in in El. destruct El as [El _]. destruct (T l El) as (Al & Sl & _).
      destruct (get_lastpos cfg (m_path l)) as [v|] eqn:Ev; cbn [bind] in E1; [|discriminate]. apply lastpos_sv in Ev.
      set (tm := get_path cfg nw (S n) (v + 2)) in *.
      destruct (get_path_sv nw n (v + 2) ltac:(rewrite Ln; cbn; lia) ltac:(lia)) as [Lm Sm]. fold tm in Lm, Sm.
      assert (Am : al tm) by (exists n; auto).
      destruct (set_newpath cfg db op tm) as [d|] eqn:E; cbn [bind] in E1; [|discriminate]. injection E1 as <- <-.
      assert (X1 : lowx tm (S B) (db_rows d)).
      { assert (lowx tm (S B) (db_rows db)) by (intros r Hr; destruct (Lo r Hr); auto).
        apply set_rows in E. destruct E as [[_ ->]| ->]; auto.
        intros r Hr. apply in_map_iff in Hr. destruct Hr as (y & <- & Hy). destruct (Lo y Hy) as [A S].
        rewrite set_path. destruct (ppre op (m_path y)) eqn:E; auto.
        destruct (ren_sv op tm (m_path y) (Ho _ eq_refl) Am A E) as (A' & H1 & H2). split; auto.
        destruct (list_eq_dec Nat.eq_dec (m_path y) op); [rewrite H1|rewrite H2]; auto. }
      assert (X2 : lowx tm (S B) (db_rows db2)).
      { eapply siblings_lowx; [exact X1| |exact E3]. intros r Hr. destruct (Hm r Hr) as (? & ? & ?). repeat split; auto. lia. }
      destruct op2 as [op2|].
      * destruct (set_newpath cfg db2 tm nw) as [d3|] eqn:E4; cbn [bind]; [|discriminate].
        intros H. injection H as <- _ <- _. split; [|split]; auto; [|lia]. apply (set_last tm (S B) db2 nw d3); auto. lia.
      * exfalso. clear - E3. revert E3. generalize (rev ms) as l, d, op, (m_path tg).
        induction l as [|r l IH]; intros d0 o0 t0; cbn [move_siblings]; [discriminate|].
        destruct (inc_path _ _); cbn [bind]; [|discriminate]. destruct (set_newpath _ _ _ _); cbn [bind]; [|discriminate]. apply IH.
    + assert (Ed : db1 = db).
      { destruct op as [op|]; [|injection E1 as <-; auto]. match type of E1 with (if ?b then _ else _) = _ => destruct b end.
        - destruct (opt_res _ _); cbn [bind] in E1; [|discriminate]. destruct (get_lastpos _ _); cbn [bind] in E1; [|discriminate].
          destruct (set_newpath _ _ _ _); cbn [bind] in E1; discriminate.
        - injection E1 as <-; auto. }
      subst db1.
      assert (X2 : lows (S B) (db_rows db2)).
      { eapply siblings_lows; [apply lows_S; exact Lo| |exact E3]. intros r Hr. destruct (Hm r Hr) as (? & ? & ?). auto. }
      destruct op2 as [op2|].
      * destruct (set_newpath cfg db2 op2 nw) as [d3|] eqn:E4; cbn [bind]; [|discriminate].
        intros H. injection H as <- _ <- _. split; [|split]; auto; [|lia]. apply (set_lows (S B) db2 op2 nw d3); auto. lia.
      * intros H. injection H as <- _ <- _. split; [|split]; auto. lia.
Qed.

Lemma save_low B db r db' : lows B (db_rows db) -> al (m_path r) -> sv (m_path r) <= B ->
  save_row db r = Ok db' -> lows B (db_rows db').
Proof.
  intros Lo A S. unfold save_row. destruct (existsb _ _); [discriminate|]. destruct (existsb _ _); intros H; injection H as <-; cbn [db_rows].
  - intros x Hx. apply in_map_iff in Hx. destruct Hx as (y & <- & Hy). destruct (m_pk y =? m_pk r); auto.
  - intros x [<-|Hx]; auto.
Qed.

Lemma nc_low B p g t : lows B t -> lows B (map (upd_nc p g) t).
Proof.
  intros Lo r Hr. apply in_map_iff in Hr. destruct Hr as (y & <- & Hy). unfold upd_nc. destruct (peq _ _); cbn; apply Lo; auto.
Qed.

Lemma nc_pk_low B p g t : lows B t -> lows B (map (upd_nc_pk p g) t).
Proof.
  intros Lo r Hr. apply in_map_iff in Hr. destruct Hr as (y & <- & Hy). unfold upd_nc_pk. destruct (_ =? _); cbn; apply Lo; auto.
Qed.

Lemma depth_S r : al (m_path r) -> length (m_path r) = m_depth r * w -> exists n, m_depth r = S n /\ n * w <= length (m_path r).
Proof. intros A L. apply al_ge in A. exists (m_depth r - 1). destruct (m_depth r); nia. Qed.

Lemma sorted_in t tg d r : In r (sorted_siblings cfg t tg d) -> In r t /\ m_depth r = m_depth tg.
Proof. unfold sorted_siblings. intros H. apply filter_In in H. apply sib_in with (1 := proj1 H). Qed.

Lemma hd_in {A} (l : list A) x : hd_error l = Some x -> In x l.
Proof. destruct l; [discriminate|]. intros E. injection E as <-. left. auto. Qed.

Lemma add_sibling_low B db tg p x db' r : tab B (db_rows db) -> B + 2 < maxstep -> In tg (db_rows db) ->
  add_sibling cfg db tg p x = Ok (db', r) -> lows (S B) (db_rows db').
Proof.
  intros T Bm Ht. destruct (T tg Ht) as (At & St & Lt). destruct (depth_S tg At Lt) as (n & Dn & Ln). unfold add_sibling.
  destruct (prepare_pos_add (is_sorted cfg) p) as [P|]; cbn [bind]; [|discriminate].
  match goal with |- (bind ?X _ = _ -> _) => destruct X as [[[P' np] sib]|] eqn:Ep; cbn [bind]; [|discriminate] end.
  assert (G : (forall k, np = Some k -> k <= B + 1) /\
    (np <> None -> forall r, In r sib -> In r (db_rows db) /\ m_depth r = S n)).
  { destruct P; try (injection Ep as <- <- <-; split; [discriminate|congruence]).
    destruct (hd_error (sorted_siblings cfg (db_rows db) tg (new_data x))) as [f|] eqn:Eh.
    - destruct (get_lastpos cfg (m_path f)) as [v|] eqn:Ev; cbn [bind] in Ep; [|discriminate]. apply lastpos_sv in Ev.
      apply hd_in, sorted_in in Eh. destruct (T f (proj1 Eh)) as (_ & Sf & _).
      injection Ep as <- <- <-. split; [intros k E; injection E as <-; lia|].
      intros _ y Hy. apply sorted_in in Hy. rewrite <- Dn. auto.
    - injection Ep as <- <- <-. split; [discriminate|congruence]. }
  destruct G as [G1 G2]. rewrite Dn.
  destruct (reorder _ _ _ _ _ _ _ _) as [[[[db1 op] newpath] tp]|] eqn:E; cbn [bind]; [|discriminate].
  apply (reorder_low B) in E; auto; [|discriminate]. destruct E as (L1 & An & Sn). cbv zeta.
  match goal with |- (bind (save_row ?d ?y) _ = _ -> _) => set (db2 := d); set (row := y) end.
  destruct (save_row db2 row) as [db3|] eqn:Es; cbn [bind]; [|discriminate]. intros H. injection H as <- <-.
  apply (save_low (S B) db2 row db3); auto. unfold db2. destruct (get_basepath _ _ _); auto.
  unfold increment_numchild. cbn [db_rows]. apply nc_low. auto.
Qed.

Lemma root_in t r : get_last_root_node t = Some r -> In r t.
Proof.
  unfold get_last_root_node. intros H. apply last_in in H. unfold get_root_nodes, order_path in H.
  apply (Permutation_in _ (isort_perm _ _)) in H. apply filter_In in H. apply H.
Qed.

Lemma child_in t n r : get_last_child cfg t n = Some r -> In r t.
Proof.
  unfold get_last_child. intros H. apply last_in in H. unfold get_children, order_path in H. destruct (is_leaf n); [destruct H|].
  apply (Permutation_in _ (isort_perm _ _)) in H. apply filter_In in H. apply H.
Qed.

Lemma child_depth t n r : get_last_child cfg t n = Some r -> m_depth r = m_depth n + 1.
Proof.
  unfold get_last_child. intros H. apply last_in in H. unfold get_children, order_path in H. destruct (is_leaf n); [destruct H|].
  apply (Permutation_in _ (isort_perm _ _)) in H. apply filter_In in H. destruct H as [_ H]. apply andb_true_iff in H. destruct H as [H _]. apply Nat.eqb_eq. auto.
Qed.

Lemma add_root_low B db x db' r : tab B (db_rows db) -> B + 2 < maxstep ->
  add_root cfg db x = Ok (db', r) -> lows (S B) (db_rows db').
Proof.
  intros T Bm. unfold add_root. destruct (get_last_root_node (db_rows db)) as [l|] eqn:El.
  - apply root_in in El. destruct (is_sorted cfg); [apply add_sibling_low; auto|].
    destruct (inc_path cfg (m_path l)) as [i|] eqn:Ei; cbn [bind]; [|discriminate].
    destruct (T l El) as (Al & Sl & _). destruct (inc_sv _ _ Al Ei) as (Ai & Li & Si).
    cbv zeta. destruct (save_row db _) as [d|] eqn:E; cbn [bind]; [|discriminate]. intros H. injection H as <- <-.
    eapply save_low; [| | |exact E]; [apply lows_S, tab_lows; auto|exact Ai|]. cbn [m_path]. lia.
  - cbv zeta. destruct (save_row db _) as [d|] eqn:E; cbn [bind]; [|discriminate]. intros H. injection H as <- <-.
    destruct (get_path_sv [] 0 1 ltac:(cbn; lia) ltac:(apply maxstep_gt1; auto)) as [Ln Sn].
    eapply save_low; [| | |exact E]; [apply lows_S, tab_lows; auto|exists 0; exact Ln|]. cbn [m_path]. lia.
Qed.

Lemma pk_in t k r : get_by_pk t k = Ok r -> In r t.
Proof.
  unfold get_by_pk. destruct (filter (fun r => m_pk r =? k) t) as [|y l] eqn:E; [discriminate|]. intros H. injection H as <-.
  assert (H : In y (filter (fun r => m_pk r =? k) t)) by (rewrite E; left; auto). apply filter_In in H. apply H.
Qed.

Lemma add_child_low B db tg x db' r tg' : tab B (db_rows db) -> B + 2 < maxstep ->
  add_child cfg db tg x = Ok (db', r, tg') -> lows (S B) (db_rows db').
Proof.
  intros T Bm. unfold add_child. destruct (get_by_pk (db_rows db) (m_pk tg)) as [nd|] eqn:En; cbn [bind]; [|discriminate].
  apply pk_in in En. destruct (T nd En) as (And & Snd & Lnd).
  destruct (is_sorted cfg && negb (is_leaf nd)).
  - destruct (get_last_child cfg (db_rows db) nd) as [l|] eqn:El; cbn [opt_res bind]; [|discriminate].
    destruct (add_sibling cfg db l _ x) as [[d y]|] eqn:E; cbn [bind]; [|discriminate]. intros H. injection H as <- _ _.
    apply child_in in El. eapply add_sibling_low; eauto.
  - cbv zeta. match goal with |- (bind ?X _ = _ -> _) => destruct X as [np|] eqn:Ep; cbn [bind]; [|discriminate] end.
    destruct (save_row _ _) as [d|] eqn:E; cbn [bind]; [|discriminate]. intros H. injection H as <- _ _.
    assert (G : al np /\ sv np <= S B).
    { destruct (is_leaf nd).
      - destruct (_ <? _); [discriminate|]. injection Ep as <-. rewrite Nat.add_1_r.
        destruct (get_path_sv (m_path nd) (m_depth nd) 1 ltac:(lia) ltac:(apply maxstep_gt1; auto)) as [Ln Sn].
        split; [eexists; exact Ln|lia].
      - destruct (get_last_child cfg (db_rows db) nd) as [l|] eqn:El; cbn [opt_res bind] in Ep; [|discriminate].
        apply child_in in El. destruct (T l El) as (Al & Sl & _). destruct (inc_sv _ _ Al Ep) as (Ai & Li & Si).
        split; auto. lia. }
    destruct G as [G1 G2]. eapply save_low; [|  | |exact E]; [|exact G1|exact G2]. cbn [db_rows]. apply nc_pk_low, lows_S, tab_lows. auto.
Qed.

Lemma move_low B db nd tg p db' nd' tg' : tab B (db_rows db) -> B + 2 < maxstep -> In nd (db_rows db) -> In tg (db_rows db) ->
  move cfg db nd tg p = Ok (db', nd', tg') -> lows (S B) (db_rows db').
Proof.
  intros T Bm Hn Ht. destruct (T nd Hn) as (Ann & Snn & Lnn). destruct (T tg Ht) as (At & St & Lt). unfold move.
  destruct (prepare_pos_move (is_sorted cfg) p) as [P|]; cbn [bind]; [|discriminate].
  destruct (move_to_child_vars cfg (db_rows db) nd tg P) as [[[[[[t1 d1] sib] np] p1] ut]|] eqn:Ev; cbn [bind]; [|discriminate].
  destruct (is_descendant_of t1 nd); [discriminate|].
  assert (G : exists n, d1 = S n /\ n * w <= length (m_path t1) /\ al (m_path t1) /\ sib = [] /\
    (forall k, np = Some k -> k <= B + 1) /\ sv (m_path t1) <= B /\
    ((np = None /\ m_depth t1 = S n /\ In t1 (db_rows db)) \/ (np <> None /\ p1 = FirstSibling))).
  { assert (GS : (tg, m_depth tg, @nil mprow, @None nat, P, tg) = (t1, d1, sib, np, p1, ut) -> exists n, d1 = S n /\ n * w <= length (m_path t1) /\ al (m_path t1) /\ sib = [] /\
    (forall k, np = Some k -> k <= B + 1) /\ sv (m_path t1) <= B /\
    ((np = None /\ m_depth t1 = S n /\ In t1 (db_rows db)) \/ (np <> None /\ p1 = FirstSibling))).
    { intros E. injection E as <- <- <- <- <- _. destruct (depth_S tg At Lt) as (n & Dn & Ln). exists n.
      repeat split; auto; try discriminate. }
    unfold move_to_child_vars in Ev.
    assert (GC : (if m_pk tg =? m_pk nd then Err InvalidMoveToDescendant else
        if is_leaf tg then Ok (set_nc tg (S (m_nc tg)), m_depth tg + 1, [], Some 1, FirstSibling, set_nc tg (S (m_nc tg)))
        else do last <- opt_res (get_last_child cfg (db_rows db) tg) AttributeError;
          Ok (last, m_depth tg + 1, @nil mprow, @None nat,
              match P with FirstChild => FirstSibling | LastChild => LastSibling | _ => SortedSibling end,
              set_nc tg (S (m_nc tg)))) = Ok (t1, d1, sib, np, p1, ut) -> exists n, d1 = S n /\ n * w <= length (m_path t1) /\ al (m_path t1) /\ sib = [] /\
    (forall k, np = Some k -> k <= B + 1) /\ sv (m_path t1) <= B /\
    ((np = None /\ m_depth t1 = S n /\ In t1 (db_rows db)) \/ (np <> None /\ p1 = FirstSibling))).
    { destruct (m_pk tg =? m_pk nd); [discriminate|]. destruct (is_leaf tg).
      - intros E. injection E as <- <- <- <- <- _. exists (m_depth tg). cbn [m_path set_nc]. repeat split; auto; try lia.
        + intros k E. injection E as <-. lia.
        + right. split; [discriminate|auto].
      - destruct (get_last_child cfg (db_rows db) tg) as [l|] eqn:El; cbn [opt_res bind]; [|discriminate].
        assert (El' := child_in _ _ _ El). apply child_depth in El. destruct (T l El') as (Al & Sl & Ll).
        intros E. injection E as <- <- <- <- <- _. exists (m_depth tg). rewrite Ll, El.
        repeat split; auto; try discriminate; try nia. left. repeat split; auto. lia. }
    destruct P; auto; apply GS; congruence. }
  destruct G as (n & -> & Ln & A1 & -> & Gk & S1 & G).
  destruct (move_prepare _ _ _ _ _ _ _ _) as [[[[p2 np2] sib2]|]|] eqn:Ep; cbn [bind]; [| |discriminate].
  2:{ intros H. injection H as <- _ _. apply lows_S, tab_lows; auto. }
  assert (G2 : (forall k, np2 = Some k -> k <= B + 1) /\
    (np2 <> None -> forall r, In r sib2 -> In r (db_rows db) /\ m_depth r = S n) /\ (np2 = None -> m_depth t1 = S n)).
  { unfold move_prepare in Ep.
    match type of Ep with bind ?X _ = _ => destruct X as [[[[p3 np3] sib3]|]|] eqn:E1; cbn [bind] in Ep; [| |discriminate] end; [|discriminate].
    assert (E3 : np3 = np2 /\ sib3 = sib2).
    { match type of Ep with (if ?b then _ else _) = _ => destruct b; [discriminate|] end.
      match type of Ep with (if ?b then _ else _) = _ => destruct b; [discriminate|] end. injection Ep as _ -> ->. auto. }
    destruct E3 as [-> ->]. clear Ep.
    assert (GN : np2 = np -> sib2 = [] -> (forall k, np2 = Some k -> k <= B + 1) /\
      (np2 <> None -> forall r, In r sib2 -> In r (db_rows db) /\ m_depth r = S n) /\ (np2 = None -> m_depth t1 = S n)).
    { intros -> ->. split; auto. split; [intros _ r []|]. intros E. destruct G as [(_ & ? & _)|[? _]]; auto. congruence. }
    destruct p1; try (injection E1 as _ <- <-; apply GN; auto).
    destruct G as [(En & Dt & Ht1)|[_ ?]]; [|discriminate].
    destruct (hd_error (sorted_siblings cfg (db_rows db) t1 (m_data nd))) as [f|] eqn:Eh.
    - destruct (get_lastpos cfg (m_path f)) as [v|] eqn:Evv; cbn [bind] in E1; [|discriminate]. apply lastpos_sv in Evv.
      destruct (get_lastpos cfg (m_path nd)) as [v2|]; cbn [bind] in E1; [|discriminate].
      match type of E1 with (if ?b then _ else _) = _ => destruct b; [discriminate|] end. injection E1 as _ <- <-.
      apply hd_in, sorted_in in Eh. destruct (T f (proj1 Eh)) as (_ & Sf & _).
      split; [intros k E; injection E as <-; lia|]. split; [|discriminate].
      intros _ y Hy. apply sorted_in in Hy. rewrite <- Dt. auto.
    - injection E1 as _ <- <-. split; [discriminate|]. split; [congruence|auto]. }
  destruct G2 as (G2 & G3 & G4).
  destruct (reorder _ _ _ _ _ _ _ _) as [[[[db1 op] newpath] tp]|] eqn:E; cbn [bind]; [|discriminate].
  apply (reorder_low B) in E; auto; [|intros x Ex; injection Ex as <-; auto].
  destruct E as (L1 & An & Sn). set (db2 := update_parent_counts _ _ _ _).
  assert (H2 : lows (S B) (db_rows db2)).
  { unfold db2, update_parent_counts. destruct (peq _ _); auto.
    destruct (get_parent_path cfg (match op with Some x => x | None => [] end)) as [|a l];
      destruct (get_parent_path cfg newpath) as [|b l'];
      unfold decrement_numchild, increment_numchild; cbn [db_rows db_sig]; auto using nc_low. }
  destruct (refresh (db_rows db2) nd); cbn [bind]; [|discriminate].
  destruct (refresh (db_rows db2) t1); cbn [bind]; [|discriminate]. intros H. injection H as <- _ _. auto.
Qed.

Lemma delete_low B t sel : lows B t -> lows B (delete_queryset cfg t sel).
Proof.
  intros Lo. unfold delete_queryset, run_statements, delete_statements. set (rem := minimal_removed _ _ _). rewrite fold_left_app. cbn [fold_left].
  assert (G : forall l u, lows B u -> lows B (fold_left (fun t s => s t) (map (fun p => map (upd_nc p (fun n => n - lost_children cfg rem p))) l) u)).
  { induction l as [|p l IH]; intros u Hu; cbn [map fold_left]; auto. apply IH, nc_low. auto. }
  intros r Hr. apply filter_In in Hr. destruct Hr as [Hr _]. apply G in Hr; auto.
Qed.

(** A consistent table has aligned rows. *)
Lemma stores_tab B t F : stores cfg t F -> lows B t -> tab B t.
Proof.
  intros (f & L & _) Lo r Hr. destruct (Lo r Hr) as [A S]. repeat split; auto.
  destruct (lay_in cfg _ _ _ L Hr) as (x & Hx & ->). cbn [mkrow m_path m_depth].
  destruct (k_len cfg step1 _ _ (proj1 L) Hx) as [n E]. rewrite E, Nat.div_mul by lia. auto.
Qed.

Lemma exec_low B db F c db' : stores cfg (db_rows db) F -> lows B (db_rows db) -> B + 2 < maxstep ->
  mp_exec cfg db c = Ok db' -> lows (S B) (db_rows db').
Proof.
  intros St Lo Bm. assert (T := stores_tab B _ _ St Lo). destruct c as [x|p x|t p x|n t p|l]; cbn [mp_exec].
  - destruct (add_root _ _ _) as [[d r]|] eqn:E; cbn [bind]; [|discriminate]. intros H. injection H as <-. eapply add_root_low; eauto.
  - destruct (get_by_pk _ _) as [tg|] eqn:Ep; cbn [bind]; [|discriminate].
    destruct (add_child _ _ _ _) as [[[d r] t']|] eqn:E; cbn [bind]; [|discriminate]. intros H. injection H as <-. eapply add_child_low; eauto.
  - destruct (get_by_pk _ _) as [tg|] eqn:Ep; cbn [bind]; [|discriminate]. apply pk_in in Ep.
    destruct (add_sibling _ _ _ _ _) as [[d r]|] eqn:E; cbn [bind]; [|discriminate]. intros H. injection H as <-. eapply add_sibling_low; eauto.
  - destruct (get_by_pk (db_rows db) n) as [nd|] eqn:En; cbn [bind]; [|discriminate]. apply pk_in in En.
    destruct (get_by_pk (db_rows db) t) as [tg|] eqn:Ep; cbn [bind]; [|discriminate]. apply pk_in in Ep.
    destruct (move _ _ _ _ _) as [[[d r] t']|] eqn:E; cbn [bind]; [|discriminate]. intros H. injection H as <-. apply (move_low B db nd tg p d r t'); auto.
  - intros H. injection H as <-. cbn [db_rows]. apply delete_low, lows_S. auto.
Qed.

(** Paths are not longer than the number of nodes. *)
Lemma rows_depth (f : kf) x : kpwf cfg f -> In x (rows f) -> length (fst x) <= w * size f.
Proof.
  revert x. induction f as [|[s a] k IHk r IHr]; intros x W; [intros []|]. destruct W as (Ws & Wk & Wr & _).
  cbn [rows size]. cbn [In]. rewrite in_app_iff, in_map_iff. intros [<-|[(y & <- & Hy)|H]].
  - cbn [fst]. cbn in Ws. lia.
  - cbn [pre fst]. apply (IHk y Wk) in Hy. rewrite app_length. cbn in Ws. lia.
  - apply (IHr x Wr) in H. lia.
Qed.

Lemma max_digits n : undigits R (repeat (R - 1) n) = R ^ n - 1.
Proof.
  assert (G : forall n acc, undigits_from R acc (repeat (R - 1) n) + 1 = (acc + 1) * R ^ n).
  { clear n. induction n as [|n IH]; intros acc; cbn [repeat undigits_from Nat.pow]; [lia|]. rewrite IH. nia. }
  unfold undigits. specialize (G n 0). lia.
Qed.

Lemma not_full B t F : stores cfg t F -> lows B t -> B + 1 < maxstep -> w * S (size F) <= maxlen cfg -> ~ mp_full cfg t.
Proof.
  intros (f & L & _ & <- & _) Lo Bm Lm [(q & r & Hr & E)|(r & Hr & E)].
  - destruct (Lo r Hr) as [_ S]. rewrite E in S. unfold sv in S.
    rewrite last_step_app, max_digits in S by (auto; apply repeat_length). unfold MPStep.maxstep in Bm. lia.
  - destruct (lay_in cfg _ _ _ L Hr) as (x & Hx & ->). assert (H := rows_depth f x (proj1 L) Hx).
    cbn [mkrow m_path] in E. unfold kerase, erase in Lm. rewrite size_fmap in Lm. lia.
Qed.

Lemma sp_exec_size F c F' : sp_exec o F c = Ok F' -> wf_ids F' -> size F' <= S (size F).
Proof.
  intros E W. apply sp_exec_ok in E. subst F'. assert (Li : forall G : forest node, size G = length (ids G)) by (intros G; unfold ids; rewrite map_length, size_preorder; auto).
  rewrite !Li.
  assert (I : incl (ids (sp_call o F c)) (new_ids c ++ ids F)).
  { intros i Hi. apply in_app_iff. apply sp_call_ids in Hi. tauto. }
  apply (NoDup_incl_length W) in I. rewrite app_length in I. assert (length (new_ids c) <= 1) by (destruct c; cbn; auto). lia.
Qed.

Lemma mp_room_from cs : forall db F B,
  mp_rel cfg db F -> lows B (db_rows db) -> B + length cs + 1 < R ^ w -> w * (size F + length cs) <= maxlen cfg ->
  NoDup (flat_map new_ids cs) -> (forall i, In i (flat_map new_ids cs) -> ~ In i (ids F)) ->
  (o <> [] -> Forall (call_values o) cs) ->
  let (db', done) := run (mp_exec cfg) db cs in let (F', done') := run (sp_exec o) F cs in
  done = done' /\ mp_rel cfg db' F'.
Proof.
  induction cs as [|c cs IH]; intros db F B Rl Lo Bm Lm ND Fr V; [cbn; auto|].
  cbn [flat_map length] in *. apply NoDup_app_iff in ND. destruct ND as (ND1 & ND2 & ND3).
  assert (V1 : o <> [] -> call_values o c) by (intros No; specialize (V No); inversion V; auto).
  assert (V2 : o <> [] -> Forall (call_values o) cs) by (intros No; specialize (V No); inversion V; auto).
  assert (Fc : fresh_call F c) by (intros i Hi; apply Fr; apply in_app_iff; auto).
  assert (Rm : roomy cfg (db_rows db)).
  { intros r Hr. destruct (Lo r Hr) as [_ S]. unfold sv in S. lia. }
  cbn [run]. destruct (mp_call_ok cfg radix2 step1 db F c Rl V1 Fc) as [A|(_ & Fu & _)]; [destruct c; auto| |].
  - destruct (mp_exec cfg db c) as [db1|e] eqn:E1; destruct (sp_exec o F c) as [F1|e'] eqn:E2; cbn [agree] in A; try destruct A.
    + assert (St1 := H). assert (W1 : wf_ids F1) by (destruct St1 as (f & _ & _ & _ & W); auto).
      assert (Lo1 : lows (S B) (db_rows db1)).
      { eapply exec_low; [apply Rl|exact Lo| |exact E1]. unfold MPStep.maxstep. lia. }
      assert (Sz := sp_exec_size F c F1 E2 W1).
      specialize (IH db1 F1 (S B) (conj H H0) Lo1 ltac:(lia) ltac:(nia) ND2).
      destruct (run (mp_exec cfg) db1 cs) as [d2 l2]. destruct (run (sp_exec o) F1 cs) as [F2 l3].
      destruct IH as [-> R2]; auto. apply sp_exec_ok in E2. subst F1. intros i Hi Hn. apply sp_call_ids in Hn. destruct Hn as [Hn|Hn].
      * apply (Fr i); auto. apply in_app_iff. auto.
      * apply (ND3 i); auto.
    + apply (IH db F B); auto; try lia; try nia. intros i Hi. apply Fr. apply in_app_iff. auto.
  - exfalso. revert Fu. apply (not_full B _ F); auto; [apply Rl| |nia]. unfold MPStep.maxstep. lia.
Qed.

(** C03, C39: if the alphabet and the path column have room for the number of calls,
    every history of calls has exactly the outcome of the forest machine. *)
Theorem mp_history_room cs :
  length cs + 1 < R ^ w -> w * length cs <= maxlen cfg ->
  NoDup (flat_map new_ids cs) -> (o <> [] -> Forall (call_values o) cs) ->
  let (db', done) := run (mp_exec cfg) (mkDB [] []) cs in let (F', done') := run (sp_exec o) Nil cs in
  done = done' /\ mp_rel cfg db' F'.
Proof.
  intros Bm Lm ND V. apply (mp_room_from cs (mkDB [] []) Nil 0); auto.
  - split; [apply empty_stores|]. intros _. split; [exact I|constructor].
  - intros r [].
Qed.
End Room.
