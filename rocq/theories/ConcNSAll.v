(** The transactions of all calls on nested sets do alone what the calls do (C68). *)
From Coq Require Import String List Arith Lia Bool ZArith Permutation.
From Verif Require Import Prelude Forest SpecFacts CommonModel Order History ConcModel ConcRun ConcAlone ConcCalls.
From Verif Require Import NSModel NSInv NSHist ConcNSModel.
From Verif Require ConcNS.
Import ListNotations.
Local Open Scope nat_scope.

Notation alone := (alone nsrow n_pk ns_same).

Section NS.
Variable o : ordering.

Lemma reads_alone A (f : ns_table -> res A) c t : alone t (reads f c) = do a <- f t; alone t (c a).
Proof. unfold reads. cbn [ConcAlone.alone]. destruct (f t); reflexivity. Qed.

Lemma alter_alone db tree start off c : alone (ns_rows db) (ns_alter tree start off c) = alone (ns_rows (alter_gap db tree start off)) c.
Proof. reflexivity. Qed.
Lemma right_alone db tree c : alone (ns_rows db) (ns_right tree c) = alone (ns_rows (move_tree_right db tree)) c.
Proof. reflexivity. Qed.

Lemma alter_pks db tree start off : map n_pk (ns_rows (alter_gap db tree start off)) = map n_pk (ns_rows db).
Proof. cbn. rewrite map_map. apply map_ext. intros r. destruct (alter_sel tree start r); auto. Qed.
Lemma right_pks db tree : map n_pk (ns_rows (move_tree_right db tree)) = map n_pk (ns_rows db).
Proof. cbn. rewrite map_map. apply map_ext. intros r. destruct (tree <=? n_tree r)%Z; auto. Qed.

Lemma save_alone db x tree lft rgt depth : ~ In (nid x) (map n_pk (ns_rows db)) ->
  alone (ns_rows db) (ns_save x tree lft rgt depth) = Ok (ns_rows (save_row db (mkNS (nid x) tree lft rgt depth (ndata x)))).
Proof.
  intros N. unfold ns_save. cbn [ConcAlone.alone]. rewrite ns_unused by auto. unfold save_row.
  replace (existsb _ (ns_rows db)) with false; auto. symmetry. apply not_true_iff_false. intros E. apply existsb_exists in E.
  destruct E as (r & Hr & E). apply Nat.eqb_eq in E. apply N. cbn in E. rewrite <- E. apply in_map. auto.
Qed.

Lemma sibling_alone db target p x : ~ In (nid x) (map n_pk (ns_rows db)) ->
  alone (ns_rows db) (ns_sibling o target p x) = do r <- add_sibling o db target p x; Ok (ns_rows (fst r)).
Proof.
  intros N. unfold ns_sibling, add_sibling. destruct (prepare_pos_add (is_sorted o) p) as [P|e]; [|reflexivity]. cbn [bind or_raise].
  destruct (is_root (o_row target)).
  - rewrite reads_alone. unfold read_sorted.
    destruct (match P with SortedSibling => _ | _ => _ end) as [[P' tg]|e]; [|reflexivity]. cbn [bind].
    rewrite reads_alone. cbn [bind].
    assert (Sv := fun tree lft rgt depth => save_alone db x tree lft rgt depth N).
    assert (Sr := fun T tree lft rgt depth => save_alone (move_tree_right db T) x tree lft rgt depth (eq_ind_r (fun l => ~ In (nid x) l) N (right_pks db T))).
    destruct P'; cbn match; try reflexivity.
    + rewrite right_alone, Sr. reflexivity.
    + rewrite right_alone, Sr. reflexivity.
    + destruct (same_pk (o_row tg) (get_last_root_node (ns_rows db))).
      * destruct (get_last_root_node (ns_rows db)); cbn [else_raise]; [rewrite Sv|]; reflexivity.
      * rewrite right_alone, Sr. reflexivity.
    + destruct (get_last_root_node (ns_rows db)); cbn [else_raise]; [rewrite Sv|]; reflexivity.
  - rewrite reads_alone. unfold read_sorted.
    destruct (match P with SortedSibling => _ | _ => _ end) as [[P' tg]|e]; [|reflexivity]. cbn [bind].
    rewrite reads_alone. destruct (normalize (ns_rows db) P' tg) as [[P2 tg2]|e]; [|reflexivity]. cbn [bind].
    rewrite reads_alone. destruct (match P2 with LastSibling => _ | _ => _ end) as [np|e]; [|reflexivity]. cbn [bind fst].
    rewrite alter_alone, save_alone; [reflexivity|]. rewrite alter_pks. auto.
Qed.

Lemma jump_alone db n q depth down tree newpos :
  alone (ns_rows db) (ns_jump n q depth down tree newpos) =
  do nd1 <- get_by_pk (ns_rows db) n;
  let db3 := close_gap (jump_rows db nd1 tree (newpos - n_lft nd1) (depth - n_depth nd1 + down)) (n_lft nd1) (n_rgt nd1) (n_tree nd1) in
  do nd2 <- get_by_pk (ns_rows db3) n; do tg2 <- get_by_pk (ns_rows db3) q; Ok (ns_rows db3).
Proof.
  unfold ns_jump. rewrite reads_alone. destruct (get_by_pk (ns_rows db) n) as [nd|e]; [|reflexivity]. cbn [bind].
  cbn [ConcAlone.alone ns_alter]. rewrite reads_alone. unfold close_gap, alter_gap, jump_rows. cbn [ns_rows]. cbv zeta.
  match goal with |- context [get_by_pk ?t n] => destruct (get_by_pk t n) end; [|reflexivity]. cbn [bind]. rewrite reads_alone. reflexivity.
Qed.

Lemma hole_alone db gap parent tg p c :
  alone (ns_rows db) (ns_hole gap parent tg p c) =
  do '(db1, tree, newpos) <- make_hole db gap parent tg p; alone (ns_rows db1) (c tree newpos).
Proof.
  unfold ns_hole, make_hole. cbv zeta. destruct p; try (destruct parent; reflexivity); destruct (is_root (o_row tg)); try reflexivity.
  - rewrite reads_alone. destruct (get_siblings (ns_rows db) (o_row tg)) as [l|]; [|reflexivity]. cbn [bind]. destruct (last_opt l); reflexivity.
  - rewrite reads_alone. destruct (parent_rgt (ns_rows db) tg); reflexivity.
Qed.

Lemma move_alone db n q p :
  alone (ns_rows db) (ns_move o n q p) =
  do n <- get_by_pk (ns_rows db) n; do t <- get_by_pk (ns_rows db) q;
  do r <- move o db (fresh n) (fresh t) p; Ok (ns_rows (fst (fst r))).
Proof.
  unfold ns_move, move. rewrite reads_alone. destruct (get_by_pk (ns_rows db) n) as [nd|e] eqn:En; [|reflexivity]. cbn [bind].
  rewrite reads_alone. destruct (get_by_pk (ns_rows db) q) as [target|e] eqn:Eq; [|reflexivity]. cbn [bind fresh o_row].
  destruct (prepare_pos_move (is_sorted o) p) as [P|e]; [|reflexivity]. cbn [bind or_raise].
  rewrite reads_alone. destruct (move_target (ns_rows db) nd (fresh target) P) as [[[parent tg] P']|e]; [|reflexivity]. cbn [bind].
  destruct (is_descendant_of (o_row tg) nd); [reflexivity|].
  rewrite reads_alone. destruct (move_is_noop (ns_rows db) nd tg P') as [[|]|e]; [reflexivity| |reflexivity]. cbn [bind].
  rewrite reads_alone. unfold read_sorted.
  destruct (match P' with SortedSibling => _ | _ => _ end) as [[P2 tg2]|e]; [|reflexivity]. cbn [bind].
  rewrite reads_alone. destruct (normalize (ns_rows db) P2 tg2) as [[P3 tg3]|e]; [|reflexivity]. cbn [bind].
  rewrite hole_alone. destruct (make_hole db _ parent tg3 P3) as [[[db1 T] np]|e]; [|reflexivity]. cbn [bind].
  rewrite jump_alone.
  assert (Pn : n_pk nd = n /\ n_pk target = q).
  { clear - En Eq. unfold get_by_pk in *.
    assert (G : forall k (r : nsrow), match filter (fun r => (n_pk r =? k)%nat) (ns_rows db) with [] => Err DoesNotExist | r :: _ => Ok r end = Ok r -> n_pk r = k).
    { intros k r. destruct (filter (fun r => (n_pk r =? k)%nat) (ns_rows db)) as [|a l] eqn:E; [discriminate|]. intros H. injection H as <-.
      assert (Ha : In a (filter (fun r => (n_pk r =? k)%nat) (ns_rows db))) by (rewrite E; left; auto). apply filter_In in Ha. apply Nat.eqb_eq. tauto. }
    split; apply G; auto. }
  destruct Pn as [-> ->].
  destruct (get_by_pk (ns_rows db1) n) as [nd1|e]; [|reflexivity]. cbn [bind].
  match goal with |- context [get_by_pk ?t n] => destruct (get_by_pk t n) end; [|reflexivity]. cbn [bind].
  match goal with |- context [get_by_pk ?t q] => destruct (get_by_pk t q) end; reflexivity.
Qed.

Lemma child_alone db k x : ~ In (nid x) (map n_pk (ns_rows db)) ->
  alone (ns_rows db) (ns_add_child_by o k x) = do t <- get_by_pk (ns_rows db) k; do r <- add_child o db t x; Ok (ns_rows (fst (fst r))).
Proof.
  intros N. unfold ns_add_child_by, add_child. cbn [ConcAlone.alone]. unfold get_by_pk at 1.
  destruct (filter (fun r => (n_pk r =? k)%nat) (ns_rows db)) as [|nd l] eqn:E; [reflexivity|]. cbn [hd_error else_raise bind].
  assert (Ek : n_pk nd = k).
  { assert (Ha : In nd (filter (fun r => (n_pk r =? k)%nat) (ns_rows db))) by (rewrite E; left; auto). apply filter_In in Ha. apply Nat.eqb_eq. tauto. }
  unfold get_by_pk. rewrite Ek, E. cbn [bind]. destruct (is_leaf nd); cbn [negb].
  - rewrite alter_alone, save_alone; [reflexivity|]. rewrite alter_pks. auto.
  - rewrite reads_alone. cbn [bind]. destruct (get_last_child (ns_rows db) nd) as [last|]; cbn [else_raise]; [|reflexivity].
    rewrite sibling_alone by auto. destruct (is_sorted o); destruct (add_sibling _ _ _ _ _) as [[db' r]|e]; reflexivity.
Qed.

Definition ns_exec_rows (t : ns_table) (c : call) : res ns_table := do db <- ns_exec o (mkNSDB t []) c; Ok (ns_rows db).
Definition all_ready (t : ns_table) (c : call) : Prop := forall i, In i (new_ids c) -> ~ In i (map n_pk t).

(** For any table whatsoever. *)
Theorem all_same_call t c : all_ready t c -> alone t (ns_tx o c) = ns_exec_rows t c.
Proof.
  intros N. unfold ns_exec_rows. destruct c as [x|k x|k p x|n q p|l]; cbn [ns_tx ns_exec ns_rows].
  - assert (Nx : ~ In (nid x) (map n_pk t)) by (apply N; left; auto).
    unfold ns_add_root_by, add_root. cbn [ns_rows]. rewrite reads_alone. cbn [bind].
    assert (Sv := fun tree lft rgt depth => save_alone (mkNSDB t []) x tree lft rgt depth Nx).
    destruct (get_last_root_node t) as [lr|].
    + destruct (is_sorted o).
      * assert (Sb := sibling_alone (mkNSDB t []) (fresh lr) (Some "sorted-sibling"%string) x Nx). cbn [ns_rows] in Sb. rewrite Sb. destruct (add_sibling _ _ _ _ _); reflexivity.
      * exact (Sv _ _ _ _).
    + exact (Sv _ _ _ _).
  - assert (Nx : ~ In (nid x) (map n_pk t)) by (apply N; left; auto).
    assert (C := child_alone (mkNSDB t []) k x Nx). cbn [ns_rows] in C. rewrite C. destruct (get_by_pk t k); [|reflexivity]. cbn [bind].
    destruct (add_child _ _ _ _) as [[[db r] t']|e]; reflexivity.
  - assert (Nx : ~ In (nid x) (map n_pk t)) by (apply N; left; auto).
    unfold ns_add_sibling. rewrite reads_alone. destruct (get_by_pk t k) as [r|]; [|reflexivity]. cbn [bind].
    assert (Sb := sibling_alone (mkNSDB t []) (fresh r) p x Nx). cbn [ns_rows] in Sb. rewrite Sb. destruct (add_sibling _ _ _ _ _); reflexivity.
  - assert (M := move_alone (mkNSDB t []) n q p). cbn [ns_rows] in M. rewrite M. destruct (get_by_pk t n); [|reflexivity]. cbn [bind].
    destruct (get_by_pk t q); [|reflexivity]. cbn [bind]. destruct (move _ _ _ _ _) as [[[db r] t']|e]; reflexivity.
  - apply delete_alone.
Qed.
End NS.
