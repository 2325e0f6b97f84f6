(** Theorems about the UPDATE statements of ltree trees (C79): the functions of PostgreSQL do not
    raise on the rows that are selected, and compute what LTModel.v says. *)
From Coq Require Import String List Arith Lia Bool ZArith Permutation.
From Verif Require Import Prelude Forest SpecFacts PathTab CommonModel Order History Fixture LTModel LTInv LTSqlModel PropsLT.
Import ListNotations.
Local Open Scope list_scope.

Section LT.
Variable cfg : lt_cfg.

Definition all_fit (t : lt_table) : Prop := forall r, In r t -> fits_ltree cfg (l_path r) = true.

Lemma stored_fit t F : stores cfg t F -> all_fit t.
Proof.
  intros (f & L & _) r Hr. destruct (lay_in cfg t f r L Hr) as (x & Hx & ->). destruct L as (_ & V & _).
  assert (A := kvalid_path cfg f x V Hx). unfold fits_ltree. apply forallb_forall. intros l Hl.
  rewrite Forall_forall in A. destruct (A l Hl) as (_ & _ & A'). apply Nat.leb_le. auto.
Qed.

Lemma fits_app p q : fits_ltree cfg (p ++ q) = fits_ltree cfg p && fits_ltree cfg q.
Proof. unfold fits_ltree. apply forallb_app. Qed.
Lemma fits_firstn n p : fits_ltree cfg p = true -> fits_ltree cfg (firstn n p) = true.
Proof. intros H. rewrite <- (firstn_skipn n p), fits_app in H. apply andb_true_iff in H. tauto. Qed.
Lemma fits_skipn n p : fits_ltree cfg p = true -> fits_ltree cfg (skipn n p) = true.
Proof. intros H. rewrite <- (firstn_skipn n p), fits_app in H. apply andb_true_iff in H. tauto. Qed.

(** *** Texts *)
Lemma pieces_label l s : pieces (map Some l ++ s) = match pieces s with x :: r => (l ++ x) :: r | [] => [l] end.
Proof.
  assert (N : forall s, pieces s <> []) by (intros [|[c|] s']; cbn; try discriminate; destruct (pieces s'); discriminate).
  induction l as [|c l IH]; cbn [map app pieces].
  - destruct (pieces s) eqn:E; auto. destruct (N s E).
  - rewrite IH. destruct (pieces s); auto.
Qed.

(** Reading the text of a path gives the path. *)
Lemma pieces_text p : p <> [] -> pieces (ltree2text p) = p.
Proof.
  induction p as [|l p IH]; [congruence|]. intros _. destruct p as [|l2 p].
  - cbn [ltree2text]. rewrite <- (app_nil_r (map Some l)), pieces_label. cbn. rewrite app_nil_r. auto.
  - change (ltree2text (l :: l2 :: p)) with (map Some l ++ None :: ltree2text (l2 :: p)).
    rewrite pieces_label. cbn [pieces]. rewrite IH by discriminate. rewrite app_nil_r. auto.
Qed.

Lemma text_empty p : Forall (fun l => l <> []) p -> ltree2text p = [] -> p = [].
Proof.
  intros H E. destruct p as [|l p]; auto. exfalso. inversion H as [|? ? Hl]; subst. destruct l as [|c l]; [congruence|]. destruct p; discriminate.
Qed.

(** *** C79: text2ltree(ltree2text(path)) is the path, if it fits *)
Theorem C79_text p : Forall (fun l => l <> []) p ->
  text2ltree cfg (ltree2text p) = if fits_ltree cfg p then Ok p else Err DataError.
Proof.
  intros H. unfold text2ltree. destruct (ltree2text p) as [|c s] eqn:E; [apply text_empty in E; auto; subst; auto|].
  assert (N : p <> []) by (intros ->; discriminate). rewrite <- E, pieces_text by auto.
  assert (X : forallb (fun l => (1 <=? length l) && (length l <=? label_max cfg)) p = fits_ltree cfg p).
  { unfold fits_ltree. clear - H. induction H as [|l p Hl H IH]; auto. cbn [forallb]. rewrite IH. destruct l; [congruence|]. auto. }
  rewrite X. auto.
Qed.

Lemma label_A q s : s < length q ->
  sql_label_A cfg q (Z.of_nat s) = if length (nth s q [] ++ [chA]) <=? label_max cfg then Ok [nth s q [] ++ [chA]] else Err DataError.
Proof.
  intros H. unfold sql_label_A, subpath, subpath_init. rewrite (proj2 (Z.ltb_ge _ _)) by lia. rewrite Nat2Z.id. cbn [bind]. unfold pg_subpath.
  rewrite (proj2 (Nat.leb_gt _ _)) by lia. cbn [bind].
  assert (E : firstn 1 (skipn s q) = [nth s q []]).
  { clear - H. revert s H. induction q as [|l q IH]; intros s H; [cbn in H; lia|]. destruct s; auto. cbn [skipn nth]. apply IH. cbn in H. lia. }
  rewrite E. cbn [ltree2text]. unfold text2ltree.
  assert (P : pieces (map Some (nth s q []) ++ [Some chA]) = [nth s q [] ++ [chA]]) by (rewrite pieces_label; auto).
  destruct (map Some (nth s q []) ++ [Some chA]) as [|c r] eqn:Ec; [destruct (map Some (nth s q [])); discriminate|].
  rewrite P. cbn [forallb]. rewrite app_length. cbn [length]. rewrite (proj2 (Nat.leb_le 1 _)) by lia. rewrite andb_true_r. auto.
Qed.

Lemma sub_ok q s n : s < length q -> subpath q (Z.of_nat s) n = Ok (match n with None => skipn s q | Some n => firstn n (skipn s q) end).
Proof.
  intros H. unfold subpath, subpath_init. rewrite (proj2 (Z.ltb_ge _ _)) by lia. rewrite Nat2Z.id. cbn [bind]. unfold pg_subpath.
  rewrite (proj2 (Nat.leb_gt _ _)) by lia. auto.
Qed.

Lemma append_fits d q : fits_ltree cfg q = true -> fits_ltree cfg (append_A d q) = (length (nth (d - 1) q [] ++ [chA]) <=? label_max cfg).
Proof.
  intros H. unfold append_A. rewrite !fits_app, fits_firstn, fits_skipn by auto. cbn [fits_ltree forallb]. unfold fits_ltree. cbn [forallb]. rewrite !andb_true_r. auto.
Qed.

(** *** UPDATE *)
Lemma update_same t cond e g : (forall r, In r t -> cond r = true -> e (l_path r) = if fits_ltree cfg (g (l_path r)) then Ok (g (l_path r)) else Err DataError) ->
  sql_update t cond e = update_path cfg t cond g.
Proof.
  intros H. unfold update_path. induction t as [|r t IH]; auto. cbn [sql_update forallb map].
  assert (IH' := IH (fun r' Hr' => H r' (or_intror Hr'))). rewrite IH'.
  destruct (cond r) eqn:E; cbn [negb orb].
  - rewrite (H r (or_introl eq_refl) E). destruct (fits_ltree cfg (g (l_path r))); cbn [bind andb]; auto.
    destruct (forallb _ t); auto.
  - cbn [bind andb]. destruct (forallb _ t); auto.
Qed.

Lemma update_fit t cond g t' : all_fit t -> update_path cfg t cond g = Ok t' -> all_fit t'.
Proof.
  intros H E r' Hr'. unfold update_path in E. destruct (forallb _ t) eqn:Ef; [|discriminate]. injection E as <-.
  rewrite forallb_forall in Ef. apply in_map_iff in Hr'. destruct Hr' as (r & <- & Hr). specialize (Ef r Hr).
  destruct (cond r); [exact Ef|auto].
Qed.

Lemma update_ext t cond cond' g : (forall r, cond r = cond' r) -> update_path cfg t cond g = update_path cfg t cond' g.
Proof.
  intros H. unfold update_path.
  assert (E1 : forallb (fun r => negb (cond r) || fits_ltree cfg (g (l_path r))) t = forallb (fun r => negb (cond' r) || fits_ltree cfg (g (l_path r))) t).
  { induction t as [|r t IH]; auto. cbn [forallb]. rewrite H, IH. auto. }
  assert (E2 : map (fun r => if cond r then mkLT (l_pk r) (g (l_path r)) (l_data r) else r) t = map (fun r => if cond' r then mkLT (l_pk r) (g (l_path r)) (l_data r) else r) t).
  { apply map_ext. intros r. rewrite H. auto. }
  rewrite E1, E2. auto.
Qed.

(** Moving a node and its later siblings to the right: no function of PostgreSQL is asked for
    positions that are not there; the only error is a label that becomes too long. *)
Theorem C79_right db start : all_fit (lt_rows db) -> l_path start <> [] ->
  sql_move_subtree_right cfg db start = move_subtree_right cfg db start.
Proof.
  intros A N. unfold sql_move_subtree_right, move_subtree_right.
  set (p := l_path start). set (d := length p).
  assert (D : 1 <= d) by (unfold d; fold p in N; destruct p; [congruence|cbn; lia]).
  destruct (Nat.ltb_spec 1 d) as [L|L].
  - set (c1 := fun r => ppre (parent_path p) (l_path r) && negb (plt (l_path r) p) && (length (l_path r) =? d)).
    set (c2 := fun r => ppre (parent_path p) (l_path r) && negb (plt (l_path r) p) && (d <? length (l_path r))).
    assert (E1 : sql_update (lt_rows db) (fun r => ppre (removelast p) (l_path r) && negb (plt (l_path r) p) && (length (l_path r) =? d)) (fun q =>
         do a <- subpath q 0 (Some (d - 1)); do b <- sql_label_A cfg q (Z.of_nat d - 1); Ok (a ++ b)) = update_path cfg (lt_rows db) c1 (append_A d)).
    { apply update_same. intros r Hr Hc. apply andb_true_iff in Hc. destruct Hc as [_ Hc]. apply Nat.eqb_eq in Hc.
      rewrite append_fits by auto. change 0%Z with (Z.of_nat 0). rewrite sub_ok by lia. cbn [bind].
      replace (Z.of_nat d - 1)%Z with (Z.of_nat (d - 1)) by lia. rewrite label_A by lia.
      destruct (_ <=? label_max cfg); auto. cbn [bind]. unfold append_A. assert (Es : skipn d (l_path r) = []) by (apply skipn_all2; lia). rewrite Es, app_nil_r. auto. }
    rewrite E1. destruct (update_path cfg (lt_rows db) c1 (append_A d)) as [t1|e] eqn:U; cbn [bind]; auto.
    assert (A1 := update_fit _ _ _ _ A U).
    rewrite (update_same t1 _ _ (append_A d)).
    + reflexivity.
    + intros r Hr Hc. apply andb_true_iff in Hc. destruct Hc as [_ Hc]. apply Nat.ltb_lt in Hc.
      rewrite append_fits by auto. change 0%Z with (Z.of_nat 0). rewrite sub_ok by lia. cbn [bind].
      replace (Z.of_nat d - 1)%Z with (Z.of_nat (d - 1)) by lia. rewrite label_A by lia.
      destruct (_ <=? label_max cfg); auto. cbn [bind]. rewrite sub_ok by lia. reflexivity.
  - assert (Ed : d = 1) by lia.
    assert (Ep : exists l, p = [l]) by (unfold d in Ed; destruct p as [|l [|]]; try discriminate; eauto). destruct Ep as [l Ep].
    assert (C : forall r, ppre (parent_path p) (l_path r) = true) by (intros r; rewrite Ep; reflexivity).
    set (c1 := fun r => ppre (parent_path p) (l_path r) && negb (plt (l_path r) p) && (length (l_path r) =? d)).
    set (c2 := fun r => ppre (parent_path p) (l_path r) && negb (plt (l_path r) p) && (d <? length (l_path r))).
    assert (E1 : sql_update (lt_rows db) (fun r => negb (plt (l_path r) p) && (length (l_path r) =? 1)) (fun q => sql_label_A cfg q 0) = update_path cfg (lt_rows db) c1 (append_A d)).
    { rewrite (update_same _ _ _ (append_A d)); [apply update_ext; intros r; unfold c1; rewrite C, Ed; auto|].
      intros r Hr Hc. apply andb_true_iff in Hc. destruct Hc as [_ Hc]. apply Nat.eqb_eq in Hc.
      rewrite append_fits by auto. rewrite Ed. change 0%Z with (Z.of_nat 0). rewrite label_A by lia. cbn [Nat.sub].
      destruct (_ <=? label_max cfg); auto. unfold append_A. assert (Es : skipn 1 (l_path r) = []) by (apply skipn_all2; lia). rewrite Es. auto. }
    rewrite E1. destruct (update_path cfg (lt_rows db) c1 (append_A d)) as [t1|e] eqn:U; cbn [bind]; auto.
    assert (A1 := update_fit _ _ _ _ A U).
    rewrite (update_same t1 _ _ (append_A d)).
    + rewrite (update_ext t1 _ c2); [reflexivity|]. intros r. unfold c2. rewrite C, Ed. auto.
    + intros r Hr Hc. apply andb_true_iff in Hc. destruct Hc as [_ Hc]. apply Nat.ltb_lt in Hc.
      rewrite append_fits by auto. rewrite Ed. change 0%Z with (Z.of_nat 0). rewrite label_A by lia. cbn [Nat.sub].
      destruct (_ <=? label_max cfg); auto. cbn [bind]. change 1%Z with (Z.of_nat 1). rewrite sub_ok by lia. reflexivity.
Qed.

(** In every table that stores a forest. *)
Theorem C79_right_stored db F start : stores cfg (lt_rows db) F -> In start (lt_rows db) ->
  sql_move_subtree_right cfg db start = move_subtree_right cfg db start.
Proof.
  intros S H. apply C79_right; [eapply stored_fit; eauto|]. destruct S as (f & L & _).
  destruct (locate_kids cfg _ f start L H) as (p & a & l & -> & _ & N). auto.
Qed.

(** The paths of the descendants of a moved node, and its own. *)
Theorem C79_move t F old np k data : stores cfg t F -> Forall (fun l => l <> []) np ->
  (do t1 <- sql_rename cfg t old np; save_row cfg t1 (mkLT k np data)) =
  (do t1 <- update_path cfg t (fun r => ppre old (l_path r) && (length old <? length (l_path r))) (fun q => np ++ skipn (length old) q);
   save_row cfg t1 (mkLT k np data)).
Proof.
  intros S Hn. assert (A := stored_fit t F S). unfold sql_rename. rewrite C79_text by auto.
  destruct (fits_ltree cfg np) eqn:E; cbn [bind].
  - f_equal. apply update_same. intros r Hr Hc. apply andb_true_iff in Hc. destruct Hc as [_ Hc]. apply Nat.ltb_lt in Hc.
    rewrite sub_ok by lia. cbn [bind]. rewrite fits_app, E, fits_skipn by auto. auto.
  - unfold update_path. destruct (forallb _ t); cbn [bind]; auto. unfold save_row. cbn [l_path]. rewrite E. auto.
Qed.

(** Why there are two statements: on a path of the depth itself the last part raises. *)
Theorem C79_two_statements q : subpath q (Z.of_nat (length q)) None = Err DataError.
Proof.
  unfold subpath, subpath_init. rewrite (proj2 (Z.ltb_ge _ _)) by lia. rewrite Nat2Z.id. cbn [bind]. unfold pg_subpath. rewrite Nat.leb_refl. auto.
Qed.

(** Negative positions are refused before there is a query. *)
Theorem C79_negative q pos n : (pos < 0)%Z -> subpath q pos n = Err ValueError.
Proof. intros H. unfold subpath, subpath_init. rewrite (proj2 (Z.ltb_lt _ _)) by lia. auto. Qed.
End LT.

Example C79_example :
  match sql_move_subtree_right c0 ex_db (nth 0 (filter (fun r => l_pk r =? 4) (lt_rows ex_db)) (mkLT 0 [] [])) with
  | Ok db => map (fun r => (l_pk r, l_path r)) (order_path (lt_rows db))
  | Err _ => []
  end = [(7, [[0]]); (1, [[10]]); (3, [[10]; [10]]); (5, [[10]; [10; 0]]); (2, [[11]]); (4, [[11]; [10; 10]]);
         (6, [[11]; [10; 10]; [10]]); (9, [[11]; [12; 10]]); (10, [[11]; [12; 10]; [10]])] /\
  stores c0 (lt_rows ex_db) ex_F /\
  (exists t, sql_rename c0 (lt_rows ex_db) [[11]; [10]] [[0]; [3]] = Ok t /\ map l_path (filter (fun r => l_pk r =? 6) t) = [[[0]; [3]; [10]]]) /\
  sql_move_subtree_right (mkLTCfg [] 1) ex_db (nth 0 (lt_rows ex_db) (mkLT 0 [] [])) = Err DataError /\
  text2ltree c0 (ltree2text [[10; 11]; [0]]) = Ok [[10; 11]; [0]].
Proof.
  repeat split; try apply ex_stores; try (vm_compute; reflexivity). eexists. split; vm_compute; reflexivity.
Qed.

Print Assumptions C79_text.
Print Assumptions C79_right.
Print Assumptions C79_right_stored.
Print Assumptions C79_move.
Print Assumptions C79_two_statements.
Print Assumptions C79_negative.
