(** The transactions of all calls on ltree paths do alone what the calls do (C73). *)
From Coq Require Import String List Arith Lia Bool ZArith Permutation.
From Verif Require Import Prelude Forest SpecFacts CommonModel Order History ConcModel ConcRun ConcAlone ConcCalls.
From Verif Require Import LTModel LTInv LTAdd LTHist ConcLTModel.
From Verif Require ConcLT.
Import ListNotations.
Local Open Scope nat_scope.

Notation alone := (alone ltrow l_pk lt_same).

Section LT.
Variable cfg : lt_cfg.

Lemma reads_alone A (f : lt_table -> res A) c t : alone t (reads f c) = do a <- f t; alone t (c a).
Proof. unfold reads. cbn [ConcAlone.alone]. destruct (f t); reflexivity. Qed.
Lemma raise_alone A (r : res A) c t : alone t (or_raise r c) = do a <- r; alone t (c a).
Proof. destruct r; reflexivity. Qed.

Lemma update_alone t cond g c : alone t (lt_update cfg cond g c) = do t1 <- update_path cfg t cond g; alone t1 c.
Proof. unfold lt_update, update_path. cbn [ConcAlone.alone]. destruct (forallb _ t); reflexivity. Qed.

Lemma right_alone db start c : alone (lt_rows db) (lt_right cfg start c) = do db' <- move_subtree_right cfg db start; alone (lt_rows db') c.
Proof.
  unfold lt_right, move_subtree_right. cbv zeta. rewrite update_alone. destruct (update_path cfg (lt_rows db) _ _) as [t1|e]; [|reflexivity]. cbn [bind].
  rewrite update_alone. destruct (update_path cfg t1 _ _); reflexivity.
Qed.

Lemma path_alone n : forall db prefix b a moved c, alone (lt_rows db) (lt_new_path cfg n prefix b a moved c) =
  do '(db1, np, mv) <- get_new_path cfg n db prefix b a moved; alone (lt_rows db1) (c np mv).
Proof.
  induction n as [|n IH]; intros db prefix b a moved c; cbn [lt_new_path get_new_path]; cbv zeta;
    (destruct (match falsy (label_of b), falsy (label_of a) with Some _, Some _ => _ | _, _ => _ end); [reflexivity|]); cbn [ConcAlone.alone];
    (destruct (generate_path prefix _ _ _) as [p|e]; [reflexivity|]); destruct e; try reflexivity;
    (destruct b as [start|]; cbn [else_raise opt_res bind]; [|reflexivity]);
    rewrite right_alone; (destruct (move_subtree_right cfg db start) as [db'|]; [|reflexivity]); cbn [bind];
    rewrite reads_alone; (destruct (get_by_pk (lt_rows db') (l_pk start)) as [start'|]; [|reflexivity]); cbn [bind].
  - reflexivity.
  - apply IH.
Qed.

Lemma commit_rows db db' : commit db = Ok db' -> db' = db.
Proof. unfold commit. destruct (unique_paths _); [|discriminate]. intros E. injection E as <-. auto. Qed.
Lemma commit_err db : commit db = Ok db \/ commit db = Err IntegrityError.
Proof. unfold commit. destruct (unique_paths _); auto. Qed.

Lemma peq_sym p q : peq p q = peq q p.
Proof. apply eq_true_iff_eq. rewrite !peq_iff. split; auto. Qed.

(** INSERT and the constraint *)
Lemma insert_alone t sig x np : ~ In (nid x) (map l_pk t) ->
  let saved := do t' <- save_row cfg t (mkLT (nid x) np (ndata x)); commit (mkLTDB t' sig) in
  saved <> Err IntegrityError -> alone t (lt_insert cfg x np) = do db <- saved; Ok (lt_rows db).
Proof.
  intros N saved Hs. unfold saved, lt_insert, save_row in *. clear saved. cbn [l_path l_pk] in *. destruct (fits_ltree cfg np); cbn [negb] in *; [|reflexivity].
  assert (Np : existsb (fun r => l_pk r =? nid x) t = false).
  { apply not_true_iff_false. intros E. apply existsb_exists in E. destruct E as (r & Hr & E). apply Nat.eqb_eq in E. apply N. rewrite <- E. apply in_map. auto. }
  rewrite Np in *. cbn [bind ConcAlone.alone] in *.
  assert (E : existsb (lt_same (mkLT (nid x) np (ndata x))) t = existsb (fun r => peq (l_path r) np) t).
  { apply eq_true_iff_eq. rewrite !existsb_exists. unfold lt_same. cbn [l_pk l_path]. split; intros (r & Hr & E); exists r; (split; [auto|]).
    - apply orb_true_iff in E. destruct E as [E|E]; [|rewrite peq_sym; auto]. exfalso. apply Nat.eqb_eq in E. apply N. rewrite E. apply in_map. auto.
    - rewrite peq_sym, E. apply orb_true_r. }
  rewrite E. unfold commit in *. cbn [lt_rows unique_paths l_path] in *. destruct (existsb (fun r => peq (l_path r) np) t); cbn [negb andb] in *; [congruence|].
  destruct (unique_paths t); [reflexivity|congruence].
Qed.

Lemma update_pks t cond g t1 : update_path cfg t cond g = Ok t1 -> map l_pk t1 = map l_pk t.
Proof.
  unfold update_path. destruct (forallb _ t); [|discriminate]. intros E. injection E as <-. rewrite map_map. apply map_ext. intros r. destruct (cond r); auto.
Qed.
Lemma right_pks db start db' : move_subtree_right cfg db start = Ok db' -> map l_pk (lt_rows db') = map l_pk (lt_rows db).
Proof.
  unfold move_subtree_right. cbv zeta. destruct (update_path cfg (lt_rows db) _ _) as [t1|] eqn:E1; [|discriminate]. cbn [bind].
  destruct (update_path cfg t1 _ _) as [t2|] eqn:E2; [|discriminate]. intros E. injection E as <-. cbn [lt_rows].
  rewrite (update_pks _ _ _ _ E2), (update_pks _ _ _ _ E1). auto.
Qed.
Lemma path_pks n : forall db prefix b a moved db1 np mv, get_new_path cfg n db prefix b a moved = Ok (db1, np, mv) -> map l_pk (lt_rows db1) = map l_pk (lt_rows db).
Proof.
  induction n as [|n IH]; intros db prefix b a moved db1 np mv; cbn [get_new_path]; cbv zeta;
    (destruct (match falsy (label_of b), falsy (label_of a) with Some _, Some _ => _ | _, _ => _ end); [discriminate|]);
    (destruct (generate_path prefix _ _ _) as [p|e]; [intros E; injection E as <- _ _; auto|]); destruct e; try discriminate;
    (destruct b as [start|]; cbn [opt_res bind]; [|discriminate]);
    (destruct (move_subtree_right cfg db start) as [db'|] eqn:Er; [|discriminate]); cbn [bind];
    (destruct (get_by_pk (lt_rows db') (l_pk start)) as [start'|]; [|discriminate]); cbn [bind].
  - discriminate.
  - intros E. rewrite (IH _ _ _ _ _ _ _ _ E). apply right_pks with (start := start). auto.
Qed.

Lemma sibling_alone db target p x : ~ In (nid x) (map l_pk (lt_rows db)) -> add_sibling cfg db target p (new_of x) <> Err IntegrityError ->
  alone (lt_rows db) (lt_sibling cfg target p x) = do r <- add_sibling cfg db target p (new_of x); Ok (lt_rows (fst r)).
Proof.
  intros N. unfold lt_sibling, add_sibling, add_sibling_body. rewrite raise_alone. destruct (prepare_pos_add (is_sorted cfg) p) as [P|e]; [|reflexivity]. cbn [bind].
  rewrite reads_alone. cbn [bind new_of new_data new_pk]. destruct (neighbours cfg (lt_rows db) target P (ndata x)) as [b a].
  rewrite path_alone. destruct (get_new_path cfg 2 db _ b a false) as [[[db1 np] mv]|e] eqn:Ep; [|reflexivity]. cbn [bind].
  apply path_pks in Ep. rewrite <- Ep in N. assert (I := insert_alone (lt_rows db1) (lt_sig db1) x np N). cbv zeta in I.
  destruct (save_row cfg (lt_rows db1) (mkLT (nid x) np (ndata x))) as [t|e]; cbn [bind] in *.
  - intros Hn. rewrite I; [|intros E; apply Hn; rewrite E; auto]. destruct (commit _); reflexivity.
  - intros Hn. apply I. intros X. apply Hn. injection X as ->. reflexivity.
Qed.

Lemma save_alone t row c : alone t (lt_save cfg row c) =
  if existsb (fun r => l_pk r =? l_pk row) t || negb (fits_ltree cfg (l_path row)) then do t' <- save_row cfg t row; alone t' c
  else alone t (Insert row c).
Proof.
  unfold lt_save, save_row. destruct (fits_ltree cfg (l_path row)); cbn [negb]; [|rewrite orb_true_r; reflexivity]. rewrite orb_false_r.
  cbn [ConcAlone.alone]. destruct (existsb (fun r => l_pk r =? l_pk row) t); reflexivity.
Qed.

Lemma pk_row t k r : get_by_pk t k = Ok r -> In r t /\ l_pk r = k.
Proof.
  unfold get_by_pk. destruct (filter (fun r => l_pk r =? k) t) as [|a l] eqn:E; [discriminate|]. intros H. injection H as <-.
  assert (Ha : In a (filter (fun r => l_pk r =? k) t)) by (rewrite E; left; auto). apply filter_In in Ha. rewrite Nat.eqb_eq in Ha. auto.
Qed.

Lemma rewrite_alone db nd np : In (l_pk nd) (map l_pk (lt_rows db)) ->
  alone (lt_rows db) (lt_rewrite cfg nd np) =
  do t1 <- update_path cfg (lt_rows db) (fun r => ppre (l_path nd) (l_path r) && (length (l_path nd) <? length (l_path r))) (fun q => np ++ skipn (length (l_path nd)) q);
  save_row cfg t1 (mkLT (l_pk nd) np (l_data nd)).
Proof.
  intros H. unfold lt_rewrite. cbv zeta. rewrite update_alone. destruct (update_path cfg _ _ _) as [t1|e] eqn:E; [|reflexivity]. cbn [bind].
  apply update_pks in E. rewrite <- E in H. rewrite save_alone. cbn [l_pk l_path].
  replace (existsb (fun r => l_pk r =? l_pk nd) t1) with true.
  - cbn [orb]. destruct (save_row cfg t1 _); reflexivity.
  - symmetry. apply existsb_exists. apply in_map_iff in H. destruct H as (r & Er & Hr). exists r. split; auto. apply Nat.eqb_eq. auto.
Qed.

Lemma move_alone db n q p :
  (do n <- get_by_pk (lt_rows db) n; do t <- get_by_pk (lt_rows db) q; move cfg db n t p) <> Err IntegrityError ->
  alone (lt_rows db) (lt_move cfg n q p) =
  do n <- get_by_pk (lt_rows db) n; do t <- get_by_pk (lt_rows db) q; do r <- move cfg db n t p; Ok (lt_rows (fst r)).
Proof.
  unfold lt_move, move. rewrite reads_alone. destruct (get_by_pk (lt_rows db) n) as [nd|e] eqn:En; [|reflexivity]. cbn [bind].
  rewrite reads_alone. destruct (get_by_pk (lt_rows db) q) as [target|e]; [|reflexivity]. cbn [bind].
  rewrite raise_alone. destruct (prepare_pos_move (is_sorted cfg) p) as [P|e]; [|reflexivity]. cbn [bind].
  destruct (match P with FirstChild | LastChild | SortedChild => true | _ => false end && (l_pk target =? l_pk nd)); [reflexivity|].
  destruct (is_descendant_of target nd); [reflexivity|].
  rewrite reads_alone. cbn [bind]. destruct (neighbours cfg (lt_rows db) target P (l_data nd)) as [b a].
  rewrite path_alone. destruct (get_new_path cfg 2 db _ b a false) as [[[db1 np] mv]|e] eqn:Ep; [|reflexivity]. cbn [bind].
  apply path_pks in Ep. apply pk_row in En. destruct En as [Hn En].
  assert (Hk : In n (map l_pk (lt_rows db1))) by (rewrite Ep, <- En; apply in_map; auto).
  assert (Fin : forall nd', l_pk nd' = n ->
    (let old := l_path nd' in
     do t1 <- update_path cfg (lt_rows db1) (fun r => ppre old (l_path r) && (length old <? length (l_path r))) (fun q => np ++ skipn (length old) q);
     do t2 <- save_row cfg t1 (mkLT (l_pk nd') np (l_data nd'));
     do db2 <- commit (mkLTDB t2 (lt_sig db1 ++ [Moved old np])); Ok (db2, mkLT (l_pk nd') np (l_data nd'))) <> Err IntegrityError ->
    alone (lt_rows db1) (lt_rewrite cfg nd' np) =
    do r <- (let old := l_path nd' in
     do t1 <- update_path cfg (lt_rows db1) (fun r => ppre old (l_path r) && (length old <? length (l_path r))) (fun q => np ++ skipn (length old) q);
     do t2 <- save_row cfg t1 (mkLT (l_pk nd') np (l_data nd'));
     do db2 <- commit (mkLTDB t2 (lt_sig db1 ++ [Moved old np])); Ok (db2, mkLT (l_pk nd') np (l_data nd'))); Ok (lt_rows (fst r))).
  { intros nd' E'. cbv zeta. rewrite rewrite_alone by (rewrite E'; auto). destruct (update_path cfg _ _ _) as [t1|e]; [|reflexivity]. cbn [bind].
    destruct (save_row cfg t1 _) as [t2|e]; [|reflexivity]. cbn [bind]. intros Hc. destruct (commit_err (mkLTDB t2 (lt_sig db1 ++ [Moved (l_path nd') np]))) as [E|E]; rewrite E in *; [reflexivity|].
    exfalso. apply Hc. reflexivity. }
  destruct mv.
  - rewrite reads_alone, En. destruct (get_by_pk (lt_rows db1) n) as [nd'|e] eqn:En'; [|reflexivity]. cbn [bind]. apply pk_row in En'. apply Fin. apply En'.
  - cbn [bind]. apply Fin. auto.
Qed.

Lemma child_alone db k x : ~ In (nid x) (map l_pk (lt_rows db)) ->
  (do t <- get_by_pk (lt_rows db) k; add_child cfg db t (new_of x)) <> Err IntegrityError ->
  alone (lt_rows db) (lt_add_child_by cfg k x) = do t <- get_by_pk (lt_rows db) k; do r <- add_child cfg db t (new_of x); Ok (lt_rows (fst r)).
Proof.
  intros N. unfold lt_add_child_by, add_child. rewrite reads_alone. destruct (get_by_pk (lt_rows db) k) as [nd|e] eqn:Ek; [|reflexivity]. cbn [bind].
  assert (Pk := pk_row _ _ _ Ek). destruct Pk as [_ Pk]. rewrite Pk, Ek. cbn [bind ConcAlone.alone].
  unfold get_by_pk in Ek. destruct (filter (fun r => l_pk r =? k) (lt_rows db)) as [|a l]; [discriminate|]. injection Ek as ->. cbn [hd_error else_raise].
  rewrite reads_alone. cbn [bind].
  assert (Sb := fun last => sibling_alone db last (Some "sorted-sibling"%string) x N).
  assert (I := fun np => insert_alone (lt_rows db) (lt_sig db) x np N). cbv zeta in I.
  destruct (is_sorted cfg && negb (is_leaf (lt_rows db) nd)).
  - rewrite reads_alone. destruct (opt_res _ _) as [last|e]; [|reflexivity]. cbn [bind]. intros H. rewrite Sb; [|exact H]. unfold add_sibling. reflexivity.
  - rewrite reads_alone. cbn [bind]. destruct (is_leaf (lt_rows db) nd).
    + rewrite raise_alone. destruct (generate_path (l_path nd) None None []) as [np|e]; [|reflexivity]. cbn [bind new_of new_pk new_data]. specialize (I np).
      destruct (save_row cfg (lt_rows db) _) as [t|e]; cbn [bind] in *; [|intros H; apply I; intros X; apply H; injection X as ->; reflexivity]. intros H. rewrite I by (intros E; apply H; rewrite E; reflexivity). destruct (commit _); reflexivity.
    + rewrite reads_alone. destruct (opt_res _ _) as [last|e]; [|reflexivity]. cbn [bind]. rewrite reads_alone.
      destruct (generate_path _ _ _ _) as [np|e]; [|reflexivity]. cbn [bind new_of new_pk new_data]. specialize (I np).
      destruct (save_row cfg (lt_rows db) _) as [t|e]; cbn [bind] in *; [|intros H; apply I; intros X; apply H; injection X as ->; reflexivity]. intros H. rewrite I by (intros E; apply H; rewrite E; reflexivity). destruct (commit _); reflexivity.
Qed.

Definition lt_exec_rows (t : lt_table) (c : call) : res lt_table := do db <- lt_exec cfg (mkLTDB t []) c; Ok (lt_rows db).
Definition all_ready (t : lt_table) (c : call) : Prop := forall i, In i (new_ids c) -> ~ In i (map l_pk t).

(** Whenever the constraint holds at the end. *)
Lemma same_call_unique t c : all_ready t c -> lt_exec cfg (mkLTDB t []) c <> Err IntegrityError -> alone t (lt_tx cfg c) = lt_exec_rows t c.
Proof.
  intros N. unfold lt_exec_rows. set (db := mkLTDB t []). change t with (lt_rows db) at 1. change t with (lt_rows db) in N.
  destruct c as [x|k x|k p x|n q p|l]; cbn [lt_tx lt_exec].
  - assert (Nx : ~ In (nid x) (map l_pk (lt_rows db))) by (apply N; left; auto). clear N. clearbody db.
    assert (I := fun np => insert_alone (lt_rows db) (lt_sig db) x np Nx). cbv zeta in I.
    unfold lt_add_root_by, add_root. rewrite reads_alone. cbn [bind].
    destruct (get_last_root_node (lt_rows db)) as [lr|].
    + destruct (is_sorted cfg).
      * intros H. rewrite sibling_alone; auto; [unfold add_sibling; destruct (add_sibling_body _ _ _ _ _) as [[db' r]|]; [|reflexivity]; cbn [bind]; destruct (commit db'); reflexivity|].
        intros E. apply H. unfold add_sibling in E. rewrite E. reflexivity.
      * rewrite reads_alone. destruct (generate_path _ _ _ _) as [np|e]; [|reflexivity]. cbn [bind new_of new_pk new_data]. specialize (I np).
        destruct (save_row cfg (lt_rows db) _) as [t1|e]; cbn [bind] in *; [|intros H; apply I; intros X; apply H; injection X as ->; reflexivity]. intros H. rewrite I by (intros E; apply H; rewrite E; reflexivity). destruct (commit _); reflexivity.
    + rewrite raise_alone. destruct (generate_path _ _ _ _) as [np|e]; [|reflexivity]. cbn [bind new_of new_pk new_data]. specialize (I np).
      destruct (is_sorted cfg); (destruct (save_row cfg (lt_rows db) _) as [t1|e]; cbn [bind] in *; [|intros H; apply I; intros X; apply H; injection X as ->; reflexivity]; intros H; rewrite I by (intros E; apply H; rewrite E; reflexivity); destruct (commit _); reflexivity).
  - intros H. rewrite child_alone; [|apply N; left; auto|].
    + destruct (get_by_pk (lt_rows db) k) as [r|]; [|reflexivity]. cbn [bind]. destruct (add_child _ _ _ _); reflexivity.
    + intros E. apply H. destruct (get_by_pk (lt_rows db) k) as [r|]; cbn [bind] in *; [rewrite E; reflexivity|congruence].
  - intros H. unfold lt_add_sibling. rewrite reads_alone. destruct (get_by_pk (lt_rows db) k) as [r|]; [|reflexivity]. cbn [bind] in *.
    rewrite sibling_alone; [destruct (add_sibling _ _ _ _ _); reflexivity|apply N; left; auto|]. intros E. apply H. rewrite E. reflexivity.
  - intros H. rewrite move_alone.
    + destruct (get_by_pk (lt_rows db) n) as [r|]; [|reflexivity]. cbn [bind]. destruct (get_by_pk (lt_rows db) q) as [r'|]; [|reflexivity]. cbn [bind].
      destruct (move _ _ _ _ _); reflexivity.
    + intros E. apply H. destruct (get_by_pk (lt_rows db) n) as [r|]; cbn [bind] in *; [|congruence].
      destruct (get_by_pk (lt_rows db) q) as [r'|]; cbn [bind] in *; [|congruence]. rewrite E. reflexivity.
  - intros _. exact (ConcCalls.lt_delete_alone cfg t l).
Qed.

Lemma sp_exec_err o F c e : sp_exec o F c = Err e -> e <> IntegrityError.
Proof.
  assert (V : forall s v v' p e, to_pos (prepare_pos_var s v v' p) = Err e -> e <> IntegrityError).
  { intros s v v' p e0 E ->. unfold to_pos, prepare_pos_var in E. destruct p as [p|], s; cbn in E;
      repeat (match type of E with context [if ?b then _ else _] => destruct b; cbn in E end; try discriminate);
      try (destruct (pos_of_string _); discriminate). }
  destruct c as [x|k x|k p x|n q p|l]; cbn [sp_exec]; try discriminate.
  - destruct (has k F); [discriminate|]. intros E. injection E as <-. discriminate.
  - destruct (has k F); [|intros E; injection E as <-; discriminate]. destruct (prepare_pos_add _ _) eqn:Ep; cbn [bind]; [discriminate|]. intros E. injection E as <-. eapply V; exact Ep.
  - destruct (has n F && has q F); [|intros E; injection E as <-; discriminate]. destruct (prepare_pos_move _ _) eqn:Ep; cbn [bind]; [|intros E; injection E as <-; eapply V; exact Ep].
    destruct (insideb F n q _); [|discriminate]. intros E. injection E as <-. discriminate.
Qed.

Hypothesis label2 : 2 <= label_max cfg.

Lemma never_twice t F c : stores_unordered cfg t F -> fresh_call F c -> lt_exec cfg (mkLTDB t []) c <> Err IntegrityError.
Proof.
  intros St Fr. destruct (lt_step cfg label2 (mkLTDB t []) F c St Fr) as [(db' & F' & E & _)|[(e & E & Es)|(F' & _ & [[E _]|[E _]])]]; rewrite E; try discriminate.
  intros X. injection X as ->. apply sp_exec_err in Es. congruence.
Qed.

Lemma ids_iff t F i : stores_unordered cfg t F -> In i (ids F) <-> In i (map l_pk t).
Proof. intros (_ & G & St & S). rewrite <- (ConcLT.ids_iff cfg t G i St). apply (SpecPerm.same_ids F G S). Qed.

Theorem all_same_call t F c : stores_unordered cfg t F -> all_ready t c -> alone t (lt_tx cfg c) = lt_exec_rows t c.
Proof.
  intros St N. apply same_call_unique; auto. apply (never_twice t F); auto. intros i Hi H. apply (N i Hi). apply (ids_iff t F i St). auto.
Qed.

Lemma exec_result t F c t' : stores_unordered cfg t F -> all_ready t c -> lt_exec_rows t c = Ok t' -> stores_unordered cfg t' (sp_call (lt_order cfg) F c).
Proof.
  intros St N E. assert (Fr : fresh_call F c) by (intros i Hi H; apply (N i Hi); apply (ids_iff t F i St); auto). unfold lt_exec_rows in E.
  destruct (lt_step cfg label2 (mkLTDB t []) F c St Fr) as [(db' & F' & E1 & E2 & S')|[(e & E1 & _)|(F' & _ & [[E1 _]|[E1 _]])]]; rewrite E1 in E; try discriminate.
  cbn [bind] in E. injection E as <-. apply sp_exec_ok in E2. subst F'. auto.
Qed.

Lemma exec_stays_ready t F c d t' : stores_unordered cfg t F -> all_ready t c -> all_ready t d -> new_apart c d -> lt_exec_rows t c = Ok t' -> all_ready t' d.
Proof.
  intros St Nc Nd A E i Hi H. assert (St' := exec_result t F c t' St Nc E). apply (ids_iff t' _ i St') in H. apply sp_call_ids in H. destruct H as [H|H].
  - apply (Nd i Hi). apply (ids_iff t F i St). auto.
  - apply (A i H Hi).
Qed.
End LT.
