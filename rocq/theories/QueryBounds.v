(** Bounds on the statements of the counted calls that hold for any table. *)
From Coq Require Import String List Arith Bool ZArith Lia.
From Verif Require Import Prelude Forest CommonModel QueryModel QueryFacts.
From Verif Require MPModel NSModel ALModel LTModel.
Import ListNotations.

(** ** Nested sets *)
Section NS.
Import NSModel.
Lemma ns_siblings_n t n : within (QueryModel.NS.siblings t n) (if is_root n then 0 else 1).
Proof. unfold QueryModel.NS.siblings, is_root. destruct (n_lft n =? 1)%Z; [apply within_free|apply within_query]. Qed.
Lemma ns_siblings_1 t n : within (QueryModel.NS.siblings t n) 1.
Proof. eapply within_le; [apply ns_siblings_n|]. destruct (is_root n); lia. Qed.

Variable o : ordering.
Lemma ns_sorted_n l d tg : within (QueryModel.NS.sorted_target o l d tg) 2.
Proof. unfold QueryModel.NS.sorted_target. bnd. Qed.
Lemma ns_normalize_n t p tg : within (QueryModel.NS.normalize t p tg) 3.
Proof.
  unfold QueryModel.NS.normalize. destruct p; try apply within_free;
    (apply then_any with 1 2; [apply ns_siblings_1| |lia]); intros l _; bnd.
Qed.
Lemma ns_parent_n a t tg : within (QueryModel.NS.parent_rgt a t tg) 1.
Proof. unfold QueryModel.NS.parent_rgt, QueryModel.NS.get_parent. bnd. Qed.
Lemma ns_sorted_case_n t p tg d : within
  match p with
  | SortedSibling => ask sibs <- QueryModel.NS.siblings t (o_row tg); QueryModel.NS.sorted_target o sibs d tg
  | _ => free (Ok (p, tg))
  end 3.
Proof.
  destruct p; try apply within_free. apply then_any with 1 2; [apply ns_siblings_1| |lia]. intros. apply ns_sorted_n.
Qed.

Lemma ns_add_sibling_n db tg p x : within (QueryModel.NS.add_sibling o db tg p x) (if is_root (o_row tg) then 5 else 8).
Proof.
  unfold QueryModel.NS.add_sibling. apply then_free. intros P _. cbv zeta. destruct (is_root (o_row tg)) eqn:R.
  - assert (E : forall A (f : _ -> counted A) n, (forall v, within (f v) n) -> within (andthen (QueryModel.NS.siblings (ns_rows db) (o_row tg)) f) n).
    { intros A f n H. unfold QueryModel.NS.siblings. unfold is_root in R. rewrite R. apply then_free. auto. }
    destruct P; rewrite ?then_assoc, ?then_ok; try (bnd; fail).
    apply E. intros l. unfold QueryModel.NS.sorted_target. bnd.
  - destruct P; rewrite ?then_assoc, ?then_ok; unfold QueryModel.NS.normalize, QueryModel.NS.parent_rgt, QueryModel.NS.get_parent,
      QueryModel.NS.asks_siblings; rewrite ?then_assoc, ?then_ok; try (bnd; fail);
      (apply then_any with 1 7; [apply ns_siblings_1| |lia]); intros l _; try (bnd; fail).
    unfold QueryModel.NS.sorted_target, sorted_target. destruct (filter _ l) as [|s l']; bnd;
      (apply then_any with 1 4; [apply ns_siblings_1| |lia]); intros l2 _; bnd.
Qed.

Lemma then_sib {A} t r (f : ns_table -> counted A) n :
  (forall v, within (f v) n) -> within (andthen (QueryModel.NS.siblings t r) f) (S n).
Proof. intros H. apply then_any with 1 n; auto. apply ns_siblings_1. Qed.
Ltac bndn := repeat (cbv beta zeta; first
  [ assumption | apply within_free | apply within_query
  | rewrite then_assoc
  | rewrite then_ok
  | apply then_query_ok
  | apply then_err
  | match goal with |- within (andthen (free match ?x with _ => _ end) _) _ => destruct x eqn:? end
  | apply then_free; intros ? _
  | apply then_query; intros ? _
  | apply then_sib; intros ?
  | brk ]).

Lemma ns_add_root_n db x : within (QueryModel.NS.add_root o db x) 6.
Proof.
  unfold QueryModel.NS.add_root. apply then_query. intros [lr|] E; [|bnd]. destruct (is_sorted o); [|bnd].
  assert (H := ns_add_sibling_n db (fresh lr) (Some "sorted-sibling"%string) x).
  replace (is_root (o_row (fresh lr))) with true in H; auto. symmetry. cbn [o_row fresh].
  injection E as E. unfold get_last_root_node, get_root_nodes in E.
  assert (I : In lr (order_rows (filter is_root (ns_rows db)))).
  { revert E. generalize (order_rows (filter is_root (ns_rows db))). clear. unfold last_opt.
    intros l. destruct (rev l) as [|a k] eqn:E; [discriminate|]. intros H. injection H as ->. apply in_rev. rewrite E. left. auto. }
  unfold order_rows in I. apply (Permutation.Permutation_in _ (Prelude.isort_perm _ _)), filter_In in I. apply I.
Qed.
Lemma ns_add_child_n db tg x : within (QueryModel.NS.add_child o db tg x) 10.
Proof.
  unfold QueryModel.NS.add_child. apply then_query. intros n _. destruct (negb (is_leaf n)); [|bnd]. cbv zeta.
  apply then_query. intros [l|] _; [|bnd].
  apply then_any with 8 0; [|intros [? ?] _; bnd|lia].
  eapply within_le; [apply ns_add_sibling_n|]. destruct (is_root _); lia.
Qed.
Lemma ns_move_n db n tg p : within (QueryModel.NS.move o db n tg p) 13.
Proof.
  unfold QueryModel.NS.move. apply then_free. intros P _. cbv zeta.
  apply then_any with 1 12; [|intros [[pa tg1] p1] _|lia].
  { unfold QueryModel.NS.move_target. destruct P; try apply within_free; destruct (_ || _); [apply within_free|apply within_query|
      apply within_free|apply within_query|apply within_free|apply within_query]. }
  destruct (is_descendant_of _ _); [apply within_free|].
  unfold QueryModel.NS.move_is_noop, noop_cache. destruct (n_pk (o_row n) =? n_pk (o_row tg1))%nat;
    unfold QueryModel.NS.get_first_sibling, QueryModel.NS.get_last_sibling, QueryModel.NS.normalize,
      QueryModel.NS.sorted_target, QueryModel.NS.make_hole, QueryModel.NS.parent_rgt, QueryModel.NS.get_parent,
      QueryModel.NS.asks_siblings; destruct p1; try (bndn; fail).
  all: cbn [orb]; rewrite ?then_assoc, ?then_ok; apply then_sib; intros l; unfold sorted_target; destruct (filter _ l); bndn.
Qed.
End NS.

(** ** Ltree *)
Section LT.
Import LTModel.
Variable cfg : lt_cfg.
Lemma lt_right_n db s : within (QueryModel.LT.move_subtree_right cfg db s) 2.
Proof. unfold QueryModel.LT.move_subtree_right. bnd. Qed.

Lemma lt_new_path_n : forall n db pre b a m, within (QueryModel.LT.get_new_path cfg n db pre b a m) (4 * n + 4).
Proof.
  assert (X : forall A db s n (k : lt_db -> counted A), (forall db, within (k db) n) ->
    within (ask db' <- QueryModel.LT.move_subtree_right cfg db s; k db') (2 + n)).
  { intros A db s n k H. apply then_any with 2 n; [apply lt_right_n|intros db' _; apply H|lia]. }
  induction n as [|n IH]; intros db pre b a m; cbn [QueryModel.LT.get_new_path]; cbv zeta;
    (destruct (match falsy _ with Some _ => _ | None => _ end); [apply within_free|]).
  - change (4 * 0 + 4) with 4. apply then_query_ok. destruct (generate_path _ _ _ _) as [q|[]]; try apply within_free.
    apply then_free. intros s _. apply (X _ db s 1). intros db'. bnd.
  - replace (4 * S n + 4) with (S (2 + S (4 * n + 4))) by lia. apply then_query_ok.
    destruct (generate_path _ _ _ _) as [q|[]]; try apply within_free.
    apply then_free. intros s _. apply X. intros db'. apply then_query. intros s' _. apply IH.
Qed.
Lemma lt_new_path_ok : forall n db pre b a m v, fst (QueryModel.LT.get_new_path cfg n db pre b a m) = Ok v ->
  within (QueryModel.LT.get_new_path cfg n db pre b a m) (4 * n + 1).
Proof.
  unfold within. induction n as [|n IH]; intros db pre b a m v; cbn [QueryModel.LT.get_new_path]; cbv zeta;
    (destruct (match falsy _ with Some _ => _ | None => _ end); [intros; cbn; lia|]);
    intros E; destruct (then_inv _ _ _ E) as (l & El & E2 & ->); clear E; injection El as <-;
    (destruct (generate_path _ _ _ _) as [q|[]]; try (cbn; lia));
    destruct (then_inv _ _ _ E2) as (s & Es & E3 & ->); clear E2; cbn [fst free] in Es;
    destruct (then_inv _ _ _ E3) as (db' & Ed & E4 & ->); clear E3; assert (R := lt_right_n db s); unfold within in R;
    destruct (then_inv _ _ _ E4) as (s' & Es' & E5 & ->); clear E4.
  - cbn in E5. discriminate.
  - apply IH in E5. cbn [snd query free]. lia.
Qed.
Lemma lt_neighbours_n t tg p d : within (QueryModel.LT.neighbours cfg t tg p d) 2.
Proof. unfold QueryModel.LT.neighbours. bnd. Qed.

(** A rest that sends no more than three statements after a successful get_new_path. *)
Lemma lt_path_then {A} db pre b a (f : lt_db * lpath * bool -> counted A) : (forall v, within (f v) 3) ->
  within (andthen (QueryModel.LT.get_new_path cfg 2 db pre b a false) f) 12.
Proof.
  intros H. assert (N := lt_new_path_n 2 db pre b a false). assert (K := lt_new_path_ok 2 db pre b a false).
  unfold within in *. destruct (QueryModel.LT.get_new_path cfg 2 db pre b a false) as [[v|e] k]; cbn [fst snd andthen] in *.
  - specialize (K v eq_refl). specialize (H v). destruct (f v). cbn [snd] in *. lia.
  - lia.
Qed.
Lemma lt_body_n db tg p x : within (QueryModel.LT.add_sibling_body cfg db tg p x) 14.
Proof.
  unfold QueryModel.LT.add_sibling_body. apply then_free. intros P _.
  apply then_any with 2 12; [apply lt_neighbours_n|intros [b a] _|lia]. apply lt_path_then. intros [[db1 np] m]. bnd.
Qed.
Lemma lt_add_sibling_n db tg p x : within (QueryModel.LT.add_sibling cfg db tg p x) 14.
Proof.
  unfold QueryModel.LT.add_sibling. apply then_any with 14 0; [apply lt_body_n|intros [? ?] _; bnd|lia].
Qed.
Lemma lt_add_root_n db x : within (QueryModel.LT.add_root cfg db x) 15.
Proof.
  unfold QueryModel.LT.add_root. apply then_any with 15 0; [|intros [? ?] _; bnd|lia].
  apply then_query. intros [l|] _; destruct (is_sorted cfg); try (bnd; fail). apply lt_body_n.
Qed.
Lemma lt_add_child_n db tg x : within (QueryModel.LT.add_child cfg db tg x) 17.
Proof.
  unfold QueryModel.LT.add_child. cbv zeta. apply then_any with 17 0; [|intros [? ?] _; bnd|lia].
  apply then_query. intros u _. destruct (is_sorted cfg).
  - apply then_query_ok. destruct (negb _); [|bnd]. apply then_query. intros l _. apply lt_body_n.
  - rewrite then_ok. bnd.
Qed.
Lemma lt_move_n db n tg p : within (QueryModel.LT.move cfg db n tg p) 14.
Proof.
  unfold QueryModel.LT.move. apply then_free. intros P _. cbv zeta.
  destruct (_ && _); [apply within_free|]. destruct (is_descendant_of _ _); [apply within_free|].
  apply then_any with 2 12; [apply lt_neighbours_n|intros [b a] _|lia]. apply lt_path_then. intros [[db1 np] m]. bnd.
Qed.
End LT.

(** ** Adjacency lists *)
Section AL.
Import ALModel.
Variable o : ordering.
Lemma al_order_n t p tg : within (QueryModel.AL.get_new_sibling_order o t p tg) match p with Right => 3 | _ => 2 end.
Proof.
  unfold QueryModel.AL.get_new_sibling_order, QueryModel.AL.is_target_pos_the_last_sibling,
    QueryModel.AL.make_hole_and_get_sibling_order. destruct p; rewrite ?then_ok; bnd.
Qed.
Lemma al_add_n t x : snd (QueryModel.AL.add_root o t x) = (if is_sorted o then 1 else 2).
Proof. unfold QueryModel.AL.add_root, QueryModel.AL.next_sib. destruct (is_sorted o); reflexivity. Qed.
Lemma al_add_child_n t tg x : snd (QueryModel.AL.add_child o t tg x) = (if is_sorted o then 1 else 2).
Proof. unfold QueryModel.AL.add_child, QueryModel.AL.next_sib. destruct (is_sorted o); reflexivity. Qed.
Lemma al_add_sibling_n t tg p x : within (QueryModel.AL.add_sibling o t tg p x) (if is_sorted o then 1 else 4).
Proof.
  unfold QueryModel.AL.add_sibling. apply then_free. intros P _. destruct (is_sorted o); [rewrite then_ok; bnd|].
  apply then_any with 3 1; [|intros [? ?] _; bnd|lia]. eapply within_le; [apply al_order_n|]. destruct P; lia.
Qed.
(** A move sends the statements of is_descendant_of and at most seven others. *)
Lemma al_move_n t n tg p m : (forall x, within (QueryModel.AL.is_descendant_of o t x n) m) ->
  within (QueryModel.AL.move o t n tg p) (m + 7).
Proof.
  intros H. unfold QueryModel.AL.move. apply then_free. intros P _.
  assert (X : forall tg1 pa p1 so, within
    (ask d <- QueryModel.AL.is_descendant_of o t tg1 n;
     if d : bool then free (Err InvalidMoveToDescendant)
     else
     ask '(_, node) <- free (get_depth t n false);
     ask noop <- QueryModel.AL.move_is_noop o t (o_row node) tg1 p1;
     if noop : bool then free (Ok (t, node))
     else
     ask up <- QueryModel.AL.new_parent t pa tg1;
     ask '(t1, s) <-
       match p1 with
       | SortedSibling => free (Ok (t, a_sib (o_row node)))
       | _ => match so with
              | Some s => free (Ok (t, s))
              | None => QueryModel.AL.get_new_sibling_order o t p1 tg1
              end
       end;
     let r := mkAL (a_pk (o_row node)) up s (a_data (o_row node)) in
     query (Ok (save_row t1 r, mkAObj r (o_depth node)))) (m + match p1 with Right => 6 | _ => 5 end)).
  { intros tg1 pa p1 so. apply then_any with m (match p1 with Right => 6 | _ => 5 end); auto. intros [|] _; [apply within_free|].
    apply then_free. intros [d n'] _. unfold QueryModel.AL.move_is_noop. cbv zeta.
    apply then_any with 1 (match p1 with Right => 5 | _ => 4 end); [bnd| |destruct p1; lia]. intros [|] _; [apply within_free|].
    apply then_any with 1 (match p1 with Right => 4 | _ => 3 end); [unfold QueryModel.AL.new_parent; bnd| |destruct p1; lia].
    intros up _. apply then_any with (match p1 with Right => 3 | _ => 2 end) 1; [|intros [? ?] _; apply within_query|destruct p1; lia].
    assert (N := al_order_n t p1 tg1).
    destruct p1; try apply within_free; destruct so; try apply within_free; exact N. }



  replace (m + 7) with (S (S (m + 5))) by lia. unfold QueryModel.AL.move_target, move_target.
  destruct P; rewrite ?then_ok.
  all: try match goal with |- context [QueryModel.AL.move_is_noop _ _ _ _ ?q] =>
    eapply within_le; [exact (X tg None q None)|cbn; lia] end.
  all: (destruct (a_pk (o_row n) =? a_pk tg)%nat; [apply then_err|]); rewrite then_assoc; apply then_query_ok;
    (destruct (is_leaf o t tg); cbn [negb]; [rewrite then_ok|]).
  all: try (destruct (get_last_child o t tg); [apply then_query_ok|unfold within; cbn; lia]).
  all: match goal with |- context [QueryModel.AL.new_parent _ ?pa ?g] =>
    match goal with |- context [QueryModel.AL.move_is_noop _ _ _ _ ?q] => 
    first [eapply within_le; [exact (X g pa q None)|cbn; lia]|eapply within_le; [exact (X g pa q (Some 1%Z))|cbn; lia]] end end.
Qed.
End AL.
