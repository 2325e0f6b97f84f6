(** Bounds on the statements of materialized paths. *)
From Coq Require Import String List Arith Bool ZArith Lia.
From Verif Require Import Prelude Forest PathTab CommonModel MPModel QueryModel QueryFacts.
Import ListNotations.

Section MP.
Variable cfg : mp_cfg.

Lemma collect_len l : forall p ms, collect_movesiblings cfg p l = Ok ms -> length ms <= length l /\ (forall r, In r ms -> In r l).
Proof.
  induction l as [|r l IH]; intros p ms; cbn [collect_movesiblings].
  - intros E. injection E as <-. auto.
  - destruct (py_lt cfg p (m_path r)); [intros E; injection E as <-; cbn; split; [lia|tauto]|].
    destruct (inc_path _ _); cbn [bind]; [|discriminate].
    destruct (collect_movesiblings cfg a l) eqn:E; cbn [bind]; [|discriminate]. intros H. injection H as <-.
    destruct (IH _ _ E) as [H1 H2]. cbn. split; [lia|]. intros x [<-|Hx]; auto.
Qed.

Lemma siblings_n l : forall db op tp, within (MP.move_siblings cfg db op tp l) (length l).
Proof.
  induction l as [|r l IH]; intros db op tp; cbn [MP.move_siblings length]; [apply within_free|].
  apply then_free. intros inc _. apply then_query. intros db' _. destruct op; apply IH.
Qed.

Lemma sorted_len t n d : length (sorted_siblings cfg t n d) <= length (get_siblings cfg t n).
Proof. unfold sorted_siblings. apply filter_length_le. Qed.
Lemma reorder_pos_len t p n k l : reorder_pos cfg t p n = Ok (k, l) ->
  length l <= length (get_siblings cfg t n) /\ (forall r, In r l -> In r (get_siblings cfg t n)).
Proof.
  unfold reorder_pos. destruct (get_lastpos _ _); cbn [bind]; [|discriminate].
  destruct p; try discriminate; intros E; injection E as <- <-; try (split; [apply filter_length_le|intros r Hr; apply filter_In in Hr; tauto]).
  auto.
Qed.

(** *** Adding *)
Lemma reorder_add db p np nd tg sib N :
  length (MP.rows_of sib) <= N -> (np = None -> length (get_siblings cfg (db_rows db) tg) <= N) ->
  within (MP.reorder cfg db p np nd tg sib None) (match p with Right => 2 | _ => 1 end + N).
Proof.
  intros Hs Hn. unfold MP.reorder.
  assert (M : within (
    ask '(newpos, siblings) <-
      free match np with
           | Some n => Ok (n, sib)
           | None => do '(n, l) <- reorder_pos cfg (db_rows db) p tg; Ok (n, Some l)
           end;
    let newpath := get_path cfg (m_path tg) nd newpos in
    ask siblings <- match siblings with Some l => query (Ok l) | None => free (Ok []) end;
    ask '(db1, tempnewpath) <- free (Ok (db, None));
    ask movesiblings <- free (collect_movesiblings cfg newpath siblings);
    ask '(db2, oldpath2, tpath) <- MP.move_siblings cfg db1 None (m_path tg) (rev movesiblings);
    match oldpath2 with
    | None => free (Ok (db2, None, newpath, tpath))
    | Some op2 =>
        ask db3 <- query (set_newpath cfg db2 (match tempnewpath with Some x => x | None => op2 end) newpath);
        free (Ok (db3, Some op2, newpath, tpath))
    end) (1 + N)).
  { apply then_free. intros [k s] E. cbv zeta.
    assert (Hl : length (MP.rows_of s) <= N).
    { destruct np as [n|]; [injection E as <- <-; auto|].
      destruct (reorder_pos _ _ _ _) as [[n l]|] eqn:R; cbn [bind] in E; [|discriminate]. injection E as <- <-.
      apply reorder_pos_len in R. specialize (Hn eq_refl). cbn. lia. }
    apply then_any with 1 N; [destruct s; [apply within_query|apply within_free]| |lia]. intros l El.
    assert (l = MP.rows_of s) as -> by (destruct s; cbn in *; congruence).
    rewrite then_ok. apply then_free. intros ms Em. apply collect_len in Em. destruct Em as [Em _].
    apply then_any with N 0; [eapply within_le; [apply siblings_n|rewrite rev_length; lia]| |lia].
    intros [[db2 op2] tp] E2. assert (op2 = None) as ->; [|apply within_free].
    clear - E2. revert db db2 op2 tp E2. generalize (m_path tg). induction (rev ms) as [|r q IH]; intros x db db2 op2 tp E2; cbn [MP.move_siblings] in E2.
    - cbn in E2. congruence.
    - rewrite !fst_andthen in E2. cbn [fst free] in E2. destruct (inc_path _ _); cbn [bind] in E2; [|discriminate].
      rewrite !fst_andthen in E2. cbn [fst query] in E2. destruct (set_newpath _ _ _ _); cbn [bind] in E2; [|discriminate]. eauto. }
  destruct p; unfold MP.goes_last; rewrite ?then_ok; try exact M.
  - cbn [plus]. apply then_query_ok. destruct (same_pk _ _); [|exact M].
    apply then_query. intros x _. apply then_free. intros y _. rewrite then_ok. apply within_free.
  - cbn [plus]. apply then_query. intros x _. apply then_free. intros y _. rewrite then_ok. apply within_free.
Qed.

Lemma add_sibling_n db tg p x : within (MP.add_sibling cfg db tg p x) (4 + length (get_siblings cfg (db_rows db) tg)).
Proof.
  set (N := length (get_siblings cfg (db_rows db) tg)). unfold MP.add_sibling. apply then_free. intros P _. cbv zeta.
  assert (K : forall q n s (Hs : length (MP.rows_of s) <= N), within (
    ask '(db1, _, newpath, _) <- MP.reorder cfg db q n (m_depth tg) tg s None;
    ask db2 <- match get_basepath cfg newpath (m_depth tg - 1) with
               | [] => free (Ok db1)
               | _ => query (Ok (increment_numchild db1 (get_basepath cfg newpath (m_depth tg - 1)))) end;
    ask db3 <- query (save_row db2 (mkMP (new_pk x) newpath (m_depth tg) (new_nc x) (new_data x)));
    free (Ok (db3, mkMP (new_pk x) newpath (m_depth tg) (new_nc x) (new_data x))))
    (match q with Right => 4 | _ => 3 end + N)).
  { intros q n s Hs. apply then_any with (match q with Right => 2 | _ => 1 end + N) 2; [apply reorder_add; auto| |destruct q; lia].
    intros [[[db1 o] np] tp] _. bnd. }
  destruct P; rewrite ?then_ok; try (eapply within_le; [apply (K _ None None); cbn; lia|cbn; lia]).
  rewrite then_assoc. cbn [plus]. apply then_query_ok. assert (S := sorted_len (db_rows db) tg (new_data x)). fold N in S.
  destruct (hd_error _) as [f|].
  - rewrite then_assoc. apply then_free. intros n _. rewrite then_ok. apply (K SortedSibling). exact S.
  - rewrite then_ok. apply (K LastSibling). exact S.
Qed.

Lemma add_root_n db x N : (forall r, get_last_root_node (db_rows db) = Some r -> length (get_siblings cfg (db_rows db) r) <= N) ->
  within (MP.add_root cfg db x) (if is_sorted cfg then 5 + N else 2).
Proof.
  intros H. unfold MP.add_root. destruct (is_sorted cfg).
  - cbn [plus]. apply then_query_ok. destruct (get_last_root_node _) as [r|]; [|bnd].
    eapply within_le; [apply add_sibling_n|]. specialize (H r eq_refl). lia.
  - apply then_query_ok. destruct (get_last_root_node _) as [r|]; bnd.
Qed.

Lemma add_child_n db tg x N :
  (forall n r, get_by_pk (db_rows db) (m_pk tg) = Ok n -> MPModel.get_last_child cfg (db_rows db) n = Some r -> length (get_siblings cfg (db_rows db) r) <= N) ->
  within (MP.add_child cfg db tg x) (if is_sorted cfg then 6 + N else 4).
Proof.
  intros H. unfold MP.add_child. destruct (is_sorted cfg); cbn [andb negb plus].
  - apply then_query. intros n En. destruct (is_leaf n); cbn [negb].
    + bnd.
    + apply then_query. intros r Er. apply then_any with (4 + N) 0; [| |lia].
      * eapply within_le; [apply add_sibling_n|]. destruct (MPModel.get_last_child _ _ _) as [r'|] eqn:E; [|discriminate].
        cbn in Er. injection Er as ->. specialize (H n r En E). lia.
      * intros [db' r'] _. apply within_free.
  - apply then_query. intros n En. apply then_any with 1 2; [destruct (is_leaf n); bnd| |lia]. intros p _. bnd.
Qed.

(** *** Moving *)
Lemma reorder_move db p np nd tg sib op N :
  length (MP.rows_of sib) <= N -> (np = None -> length (get_siblings cfg (db_rows db) tg) <= N) ->
  within (MP.reorder cfg db p np nd tg sib (Some op)) (5 + N).
Proof.
  intros Hs Hn. unfold MP.reorder.
  apply then_any with 1 (4 + N); [destruct p; unfold MP.goes_last; try apply within_free; apply within_query| |lia].
  intros [|] _; [apply within_le with (n := 2); [bnd|lia]|].
  apply then_free. intros [k s] E. cbv zeta.
  assert (Hl : length (MP.rows_of s) <= N).
  { destruct np as [n|]; [injection E as <- <-; auto|].
    destruct (reorder_pos _ _ _ _) as [[n l]|] eqn:R; cbn [bind] in E; [|discriminate]. injection E as <- <-.
    apply reorder_pos_len in R. specialize (Hn eq_refl). cbn. lia. }
  apply then_any with 1 (3 + N); [destruct s; [apply within_query|apply within_free]| |lia]. intros l El.
  assert (l = MP.rows_of s) as -> by (destruct s; cbn in *; congruence).
  apply then_any with 2 (1 + N); [|intros [db1 tmp] _|lia].
  { destruct (_ && _); [|apply within_free]. bnd. }
  apply then_free. intros ms Em. apply collect_len in Em. destruct Em as [Em _].
  apply then_any with N 1; [eapply within_le; [apply siblings_n|rewrite rev_length; lia]| |lia].
  intros [[db2 op2] tp] _. destruct op2; bnd.
Qed.

Lemma counts_n db op np : within (MP.update_parent_counts cfg db op np) 2.
Proof. unfold MP.update_parent_counts. destruct (peq _ _); [bnd|]. destruct (get_parent_path cfg op), (get_parent_path cfg np); bnd. Qed.

(** The siblings among which a branch is put *)
Definition at_most db (node tg : mprow) (p : pos) (N : nat) : Prop :=
  forall t1 nd s np p1 u, fst (MP.move_to_child_vars cfg (db_rows db) node tg p) = Ok (t1, nd, s, np, p1, u) ->
  (np = None \/ p1 = SortedSibling) -> length (get_siblings cfg (db_rows db) t1) <= N.

Lemma prepare_n t node tg nd p np s : within (MP.move_prepare cfg t node tg nd p np s) 3.
Proof.
  unfold MP.move_prepare. apply then_any with 1 2; [| |lia].
  - destruct p; try (apply within_free). apply then_query_ok. destruct (hd_error _); bnd.
  - intros [[[q n'] s']|] _; [|apply within_free].
    apply then_any with 1 1; [destruct (_ =? _); [|bnd]; destruct q; bnd| |lia]. intros [|] _; [bnd|].
    apply then_any with 1 0; [destruct (_ =? _); [|bnd]; destruct q; bnd| |lia]. intros b _. apply within_free.
Qed.
Lemma prepare_len t node tg nd p np q np' s' :
  fst (MP.move_prepare cfg t node tg nd p np None) = Ok (Some (q, np', s')) ->
  length (MP.rows_of s') <= (match p with SortedSibling => length (get_siblings cfg t tg) | _ => 0 end) /\
  (np' = None -> np = None \/ p = SortedSibling).
Proof.
  unfold MP.move_prepare. intros E. assert (S := sorted_len t tg (m_data node)).
  apply then_inv in E. destruct E as (r & E1 & E2 & _). destruct r as [[[q1 n1] s1]|]; [|discriminate E2].
  apply then_inv in E2. destruct E2 as (h & _ & E2 & _). destruct h; [discriminate E2|].
  apply then_inv in E2. destruct E2 as (o & _ & E2 & _). destruct o; [discriminate E2|].
  cbn in E2. injection E2 as -> -> ->.
  destruct p; try (cbn in E1; injection E1 as <- <- <-; cbn; auto; fail).
  split; [|auto]. apply then_inv in E1. destruct E1 as (f & _ & E1 & _). destruct f as [f|].
  - apply then_inv in E1. destruct E1 as (n & _ & E1 & _). apply then_inv in E1. destruct E1 as (k & _ & E1 & _).
    cbn in E1. destruct (_ && _) in E1; [discriminate|]. injection E1 as <- <- <-. exact S.
  - cbn in E1. injection E1 as <- <- <-. exact S.
Qed.

Lemma move_n db node tg p N :
  (forall q, prepare_pos_move (is_sorted cfg) p = Ok q -> at_most db node tg q N) ->
  within (MP.move cfg db node tg p) (13 + N).
Proof.
  intros H. unfold MP.move. apply then_free. intros q Eq. specialize (H q Eq). cbv zeta.
  apply then_any with 1 (12 + N); [unfold MP.move_to_child_vars; destruct q; try bnd; destruct (_ =? _); try bnd; destruct (is_leaf tg); bnd| |lia].
  intros [[[[[t1 nd] s] np] p1] u] E1. pose proof (H _ _ _ _ _ _ E1) as H1.
  assert (s = None) as ->.
  { clear - E1. unfold MP.move_to_child_vars in E1.
    destruct q; try (cbn in E1; congruence); destruct (m_pk tg =? m_pk node); try (cbn in E1; congruence);
      (destruct (is_leaf tg); [cbn in E1; congruence|]); apply then_inv in E1; destruct E1 as (y & _ & E1 & _); cbn in E1; congruence. }
  destruct (is_descendant_of t1 node); [apply within_free|].
  apply then_any with 3 (9 + N); [apply prepare_n| |lia].
  intros [[[p2 np2] s2]|] E2; [|apply within_free].
  apply prepare_len in E2. destruct E2 as [E2 E3].
  apply then_any with (5 + N) 4; [apply reorder_move| |lia].
  - destruct p1; try lia. etransitivity; [exact E2|]. apply H1. auto.
  - intros ->. apply H1. auto.
  - intros [[[db1 o] n'] tp] _. apply then_any with 2 2; [apply counts_n| |lia]. intros db2 _. bnd.
Qed.

(** *** Looking for problems *)
Lemma problem_n t r : within (MP.problem_of cfg t r) 2.
Proof.
  unfold within, MP.problem_of. destruct (existsb _ _); [cbn; lia|]. destruct (negb _); [cbn; lia|]. unfold MP.get_parent.
  destruct (_ <=? _); cbn [fst snd free query].
  - destruct (negb _); cbn; lia.
  - destruct (MPModel.get_parent cfg t r); [destruct (negb _); cbn; lia|cbn; lia].
Qed.
Lemma problem_loop_n t l : within (MP.problem_loop cfg t l) (2 * length l).
Proof.
  induction l as [|r l IH]; cbn [MP.problem_loop length]; [apply within_free|].
  apply then_any with 2 (2 * length l); [apply problem_n| |lia]. intros q _.
  apply then_any with (2 * length l) 0; [apply IH| |lia]. intros ps _. apply within_free.
Qed.
Lemma find_problems_n t p : within (MP.find_problems cfg t p) (1 + 2 * length t).
Proof.
  unfold MP.find_problems. cbn [plus]. apply then_query_ok. eapply within_le; [apply problem_loop_n|].
  assert (K := filter_length_le (MPFixModel.below p) t). lia.
Qed.
End MP.
