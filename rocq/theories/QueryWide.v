(** Materialized paths: n nodes at the top, one step after the other.  Putting another one
    before them moves them all. *)
From Coq Require Import String List Arith Bool ZArith Lia.
From Verif Require Import Prelude Forest SpecFacts NumConv CommonModel PathTab MPModel MPInv MPAdd QueryModel QueryFacts QueryMP.
From Verif Require ALReads PropsMP.
Import ListNotations.

Section MP.
Variable cfg : mp_cfg.

Lemma moved_exact l : forall db op tp v, fst (MP.move_siblings cfg db op tp l) = Ok v -> snd (MP.move_siblings cfg db op tp l) = length l.
Proof.
  induction l as [|r l IH]; intros db op tp v E; cbn [MP.move_siblings length] in *; auto.
  apply then_inv in E. destruct E as (i & Ei & E & ->). cbn [free fst snd] in Ei |- *.
  apply then_inv in E. destruct E as (d & Ed & E & ->). cbn [query snd plus].
  destruct op; rewrite (IH _ _ _ _ E); reflexivity.
Qed.

(** The first place: the QuerySet, one statement for each node that has to move, the
    parent's number of children and the new row. *)
Lemma first_exact db tg x v :
  is_sorted cfg = false ->
  fst (MP.add_sibling cfg db tg (Some "first-sibling"%string) x) = Ok v ->
  exists l, collect_movesiblings cfg (get_path cfg (m_path tg) (m_depth tg) 1) (get_siblings cfg (db_rows db) tg) = Ok l /\
  length l + 2 <= snd (MP.add_sibling cfg db tg (Some "first-sibling"%string) x).
Proof.
  intros So E. unfold MP.add_sibling in *. rewrite So in *. cbn [prepare_pos_add] in *.
  change (free (prepare_pos_add false (Some "first-sibling"%string))) with (free (Ok FirstSibling)) in *.
  rewrite !then_ok in *. apply then_inv in E. destruct E as (w & Ew & E & ->).
  destruct w as [[[d1 o1] np] tp]. apply then_inv in E. destruct E as (d2 & E2 & E & ->).
  apply then_inv in E. destruct E as (d3 & E3 & E & ->). cbn [query free snd].
  unfold MP.reorder, MP.goes_last in *. rewrite !then_ok in *.
  apply then_inv in Ew. destruct Ew as ([k s] & E1 & Ew & ->). cbn [free fst snd plus] in E1 |- *.
  unfold reorder_pos in E1. destruct (get_lastpos cfg (m_path tg)); cbn [bind] in E1; [|discriminate]. injection E1 as <- <-.
  apply then_inv in Ew. destruct Ew as (s & Es & Ew & ->). cbn [query fst snd] in Es |- *. injection Es as <-.
  rewrite !then_ok in *. apply then_inv in Ew. destruct Ew as (l & El & Ew & ->). cbn [free fst snd] in El |- *.
  apply then_inv in Ew. destruct Ew as (u & Eu & Ew & ->). rewrite (moved_exact _ _ _ _ _ Eu), rev_length.
  exists l. split; [exact El|]. lia.
Qed.
End MP.

(** [n] nodes at the steps 1 to [n] *)
Definition wide_cfg (n : nat) : mp_cfg := mkCfg (n + 3) 1 10 [].
Definition wide_row (i : nat) : mprow := mkMP i [i] 1 0 [].
Definition wide (n : nat) : mp_table := map wide_row (seq 1 n).

Section Wide.
Variable n : nat.
Notation cfg := (wide_cfg n).

Lemma wide_in r : In r (wide n) -> exists i, r = wide_row i /\ 1 <= i <= n.
Proof. unfold wide. rewrite in_map_iff. intros (i & <- & H). apply in_seq in H. exists i. split; auto. lia. Qed.

Lemma wide_stores : exists F, stores cfg (wide n) F.
Proof.
  apply (PropsMP.C03_invariant cfg); [cbn; lia|cbn; lia|].
  split; [unfold wide; rewrite map_map; cbn; rewrite map_id; apply seq_NoDup|].
  split; [unfold wide; rewrite map_map; cbn; apply FinFun.Injective_map_NoDup; [intros a b E; congruence|apply seq_NoDup]|].
  intros r Hr. destruct (wide_in r Hr) as (i & -> & Hi). cbn [wide_row m_path m_depth m_nc length radix steplen wide_cfg mkCfg].
  split; [repeat constructor; lia|]. split; [exists 0; lia|]. split; [cbn; lia|]. split; [auto|]. split; [reflexivity|].
  symmetry. apply length_zero_iff_nil.
  match goal with |- filter ?f _ = [] => assert (H : forall x, In x (wide n) -> f x = false) end.
  { intros x Hx. destruct (wide_in x Hx) as (j & -> & Hj). cbn. apply andb_false_r. }
  revert H. generalize (wide n). induction l as [|a l IH]; intros H; cbn [filter]; auto. rewrite (H a), IH; auto; [intros; apply H; right; auto|left; auto].
Qed.

Lemma digit i : 1 <= i <= n + 2 -> digits (n + 3) i = [i].
Proof.
  intros Hi. rewrite <- (digits_undigits (n + 3) [i]); [reflexivity|lia|repeat constructor; lia|]. right. split; [congruence|cbn; lia].
Qed.
Lemma lastpos i : 1 <= i <= n + 2 -> get_lastpos cfg [i] = Ok i.
Proof.
  intros Hi. unfold get_lastpos, step_value. cbn [last_step length steplen wide_cfg mkCfg Nat.sub skipn forallb radix].
  replace (i <? n + 3) with true by (symmetry; apply Nat.ltb_lt; lia). reflexivity.
Qed.
Lemma incs i : 1 <= i <= n -> inc_path cfg [i] = Ok [i + 1].
Proof.
  intros Hi. unfold inc_path. rewrite lastpos by lia. cbn [bind radix steplen wide_cfg mkCfg]. rewrite digit by lia. reflexivity.
Qed.

Lemma isort_wide k : forall a, isort (le_key m_path plt) (map wide_row (seq a k)) = map wide_row (seq a k).
Proof.
  induction k as [|k IH]; intros a; cbn [seq map isort]; auto. rewrite IH. destruct k; auto. cbn [seq map insert].
  unfold le_key at 1. cbn [wide_row m_path].
  replace (plt [S a] [a]) with false; [reflexivity|]. unfold plt. cbn [llt].
  destruct (Nat.ltb_spec (S a) a); [lia|]. destruct (Nat.ltb_spec a (S a)); [reflexivity|lia].
Qed.
Lemma wide_siblings i : get_siblings cfg (wide n) (wide_row i) = wide n.
Proof.
  unfold get_siblings. rewrite filter_all; [apply isort_wide|]. intros r Hr.
  destruct (wide_in r Hr) as (j & -> & _). reflexivity.
Qed.

Lemma wide_collect k : forall a, 1 <= a -> a + k <= n + 1 ->
  collect_movesiblings cfg [a] (map wide_row (seq a k)) = Ok (map wide_row (seq a k)).
Proof.
  induction k as [|k IH]; intros a Ha Hk; cbn [seq map collect_movesiblings]; auto.
  cbn [py_lt wide_cfg mkCfg wide_row m_path]. unfold plt at 1. rewrite (llt_irr Nat.ltb Nat.ltb_irrefl).
  change (mkPyCfg _ _ _ _ _ _) with cfg. rewrite incs by lia. cbn [bind]. rewrite Nat.add_1_r, IH by lia. reflexivity.
Qed.

Lemma wide_many x : 1 <= n -> ~ In (new_pk x) (seq 1 n) -> new_nc x = 0 ->
  exists F db' r, stores cfg (wide n) F /\
  MPModel.add_sibling cfg (mkDB (wide n) []) (wide_row 1) (Some "first-sibling"%string) x = Ok (db', r) /\
  n + 2 <= snd (MP.add_sibling cfg (mkDB (wide n) []) (wide_row 1) (Some "first-sibling"%string) x).
Proof.
  intros Hn Hx Hc. destruct wide_stores as (F & S).
  assert (Hi : In (wide_row 1) (wide n)) by (apply in_map; apply in_seq; lia).
  destruct (PropsMP.C04_add_sibling cfg ltac:(cbn; lia) ltac:(cbn; lia) (mkDB (wide n) []) F (wide_row 1) (Some "first-sibling"%string) FirstSibling x S Hi)
    as [(db' & r & G & up & L1 & L2 & E & _)|(E & r & Hr & Er)]; auto.
  - intros H. apply Hx. destruct S as (f & L & _ & <- & _). apply (Permutation.Permutation_in _ (Permutation.Permutation_sym (lay_pks _ _ _ L))) in H.
    unfold wide in H. rewrite map_map in H. cbn in H. rewrite map_id in H. exact H.
  - discriminate.
  - exists F, db', r. split; auto. split; auto.
    rewrite <- mp_add_sibling in E. destruct (first_exact cfg _ _ _ _ eq_refl E) as (l & El & H).
    cbn [db_rows] in El. rewrite wide_siblings in El.
    assert (P : get_path cfg (m_path (wide_row 1)) (m_depth (wide_row 1)) 1 = [1]).
    { unfold get_path. cbn [radix wide_cfg mkCfg]. rewrite digit by lia. reflexivity. }
    rewrite P in El. unfold wide in El. rewrite wide_collect in El by lia. injection El as <-.
    rewrite map_length, seq_length in H. exact H.
  - exfalso. destruct (wide_in r Hr) as (i & -> & Hi'). cbn in Er. injection Er as Er. lia.
Qed.
End Wide.
