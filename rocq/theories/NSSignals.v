(** The signals of nested set trees describe every bulk update (C23). *)
From Coq Require Import String List Arith ZArith Lia Bool Permutation Sorted.
From Verif Require Import Prelude Forest SpecFacts CommonModel Order History NSModel NSInv NSReads NSAdd NSMoveOk NSCheck NSDelete.
Import ListNotations.
Local Open Scope Z_scope.

(** ** A listener
    It keeps a copy of the columns and applies each signal as documented in
    /repo/docs/source/ns_tree.rst:104-187; post_save of the new node (after the
    bulk updates) adds its row. *)
Definition shift_from (start offset x : Z) : Z := if start <=? x then x + offset else x.

Definition hear (t : ns_table) (s : ns_sig) : ns_table :=
  match s with
  | GapAltered tree start offset =>
      map (fun r => if n_tree r =? tree
                    then mkNS (n_pk r) (n_tree r) (shift_from start offset (n_lft r)) (shift_from start offset (n_rgt r))
                              (n_depth r) (n_data r)
                    else r) t
  | TreeIdsIncremented m =>
      map (fun r => mkNS (n_pk r) (shift_from m 1 (n_tree r)) (n_lft r) (n_rgt r) (n_depth r) (n_data r)) t
  | SubtreeMoved tree lft rgt tree' i d =>
      map (fun r => if (n_tree r =? tree) && (lft <=? n_lft r) && (n_rgt r <=? rgt)
                    then mkNS (n_pk r) tree' (n_lft r + i) (n_rgt r + i) (n_depth r + d) (n_data r) else r) t
  | NodesDeleted ranges =>
      filter (fun r => negb (existsb (fun x => (n_tree r =? fst (fst x)) && (snd (fst x) <=? n_lft r) && (n_rgt r <=? snd x)) ranges)) t
  end.

(** The listener hears the new signals of [db'] after [db] and gets from the rows of [db] to [rows']. *)
Definition heard (db db' : ns_db) (rows' : ns_table) : Prop :=
  exists new, ns_sigs db' = ns_sigs db ++ new /\ fold_left hear new (ns_rows db) = rows'.

Lemma heard_refl db : heard db db (ns_rows db).
Proof. exists []. rewrite app_nil_r. auto. Qed.

Lemma heard_trans a b c rows : heard a b (ns_rows b) -> heard b c rows -> heard a c rows.
Proof.
  intros (n1 & E1 & H1) (n2 & E2 & H2). exists (n1 ++ n2). rewrite E2, E1, app_assoc, fold_left_app, H1. auto.
Qed.

(** Intervals that start before they end. *)
Definition real (t : ns_table) : Prop := forall r, In r t -> n_lft r < n_rgt r.

Lemma nsrow_eta r : mkNS (n_pk r) (n_tree r) (n_lft r) (n_rgt r) (n_depth r) (n_data r) = r.
Proof. destruct r; auto. Qed.

Lemma gap_row tree start offset r : n_lft r < n_rgt r ->
  (if n_tree r =? tree then mkNS (n_pk r) (n_tree r) (shift_from start offset (n_lft r)) (shift_from start offset (n_rgt r))
     (n_depth r) (n_data r) else r) =
  (if alter_sel tree start r then alter_row start offset r else r).
Proof.
  intros L. unfold alter_sel, alter_row, shift_from. destruct (n_tree r =? tree); rewrite ?andb_true_r, ?andb_false_r; auto.
  destruct (Z.leb_spec start (n_rgt r)); auto. destruct (Z.leb_spec start (n_lft r)); [lia|]. apply nsrow_eta.
Qed.

Lemma heard_gap db tree start offset : real (ns_rows db) ->
  heard db (alter_gap db tree start offset) (ns_rows (alter_gap db tree start offset)).
Proof.
  intros R. unfold heard. eexists. split; [reflexivity|]. cbn [alter_gap ns_rows].
  destruct (existsb (alter_sel tree start) (ns_rows db)) eqn:E; cbn [fold_left hear].
  - apply map_ext_in. intros r Hr. apply gap_row. auto.
  - rewrite <- (map_id (ns_rows db)) at 1. apply map_ext_in. intros r Hr. rewrite existsb_false in E. rewrite E; auto.
Qed.

Lemma heard_tree db m : heard db (move_tree_right db m) (ns_rows (move_tree_right db m)).
Proof.
  unfold heard. eexists. split; [reflexivity|]. cbn [move_tree_right ns_rows].
  destruct (existsb _ (ns_rows db)) eqn:E; cbn [fold_left hear].
  - apply map_ext. intros r. unfold shift_from, inc_tree. destruct (m <=? n_tree r); auto. apply nsrow_eta.
  - rewrite <- (map_id (ns_rows db)) at 1. apply map_ext_in. intros r Hr. rewrite existsb_false in E. rewrite (E r); auto.
Qed.

(** The moved rows are given by both bounds, as the intervals are nested. *)
Definition nests (t : ns_table) (n : nsrow) : Prop :=
  forall r, In r t -> n_tree r = n_tree n -> (n_lft n <= n_lft r <= n_rgt n <-> n_lft n <= n_lft r /\ n_rgt r <= n_rgt n).

Lemma heard_jump db n tree jump d : nests (ns_rows db) n ->
  heard db (jump_rows db n tree jump d) (ns_rows (jump_rows db n tree jump d)).
Proof.
  intros N. assert (Eq : forall r, In r (ns_rows db) ->
      (n_tree r =? n_tree n) && (n_lft n <=? n_lft r) && (n_rgt r <=? n_rgt n) = jump_sel n r).
  { intros r Hr. unfold jump_sel. apply eq_true_iff_eq. rewrite !andb_true_iff, Z.eqb_eq, !Z.leb_le.
    split; intros H.
    - assert (Hn := N r Hr ltac:(tauto)). tauto.
    - assert (Hn := N r Hr ltac:(tauto)). tauto. }
  unfold heard. eexists. split; [reflexivity|]. cbn [jump_rows ns_rows].
  destruct (existsb (jump_sel n) (ns_rows db)) eqn:E; cbn [fold_left hear].
  - apply map_ext_in. intros r Hr. rewrite (Eq r Hr). auto.
  - rewrite <- (map_id (ns_rows db)) at 1. apply map_ext_in. intros r Hr. rewrite existsb_false in E. rewrite E; auto.
Qed.

(** ** What keeps intervals real and nested *)
Lemma stores_real t F : stores t F -> real t.
Proof. intros S r Hr. apply (wn_real _ _ (stores_well_nested t F S)). auto. Qed.

Lemma stores_nests t F n : stores t F -> In n t -> nests t n.
Proof.
  intros S Hn r Hr Et. assert (W := stores_well_nested t F S). assert (Rr := wn_real _ _ W r Hr).
  assert (Rn := wn_real _ _ W n Hn). destruct (Nat.eq_dec (n_pk r) (n_pk n)) as [E|E].
  - assert (r = n); [|subst; lia]. destruct S as (Wf & ts & I & P). apply (row_eq t F ts Wf I P); auto.
  - destruct (wn_nested _ _ W r n Hr Hn) as [[H|H]|[H|H]]; auto; [congruence|..]; unfold encloses in *; lia.
Qed.

Lemma shift_lt s k x y : 0 <= k -> x < y -> shift_from s k x < shift_from s k y.
Proof. unfold shift_from. intros. destruct (Z.leb_spec s x), (Z.leb_spec s y); lia. Qed.

Lemma shift_le s k x y : 0 <= k -> (shift_from s k x <= shift_from s k y <-> x <= y).
Proof. unfold shift_from. intros. destruct (Z.leb_spec s x), (Z.leb_spec s y); lia. Qed.

Definition gap_of tree start k r := if alter_sel tree start r then alter_row start k r else r.

Lemma gap_fields tree start k r : n_lft r < n_rgt r -> let r' := gap_of tree start k r in
  n_pk r' = n_pk r /\ n_tree r' = n_tree r /\
  n_lft r' = (if n_tree r =? tree then shift_from start k (n_lft r) else n_lft r) /\
  n_rgt r' = (if n_tree r =? tree then shift_from start k (n_rgt r) else n_rgt r).
Proof.
  intros L. unfold gap_of. rewrite <- gap_row by auto. destruct (n_tree r =? tree); auto.
Qed.

Lemma gap_real db tree start k : 0 <= k -> real (ns_rows db) -> real (ns_rows (alter_gap db tree start k)).
Proof.
  intros Hk R r Hr. cbn [alter_gap ns_rows] in Hr. apply in_map_iff in Hr. destruct Hr as (x & <- & Hx).
  destruct (gap_fields tree start k x (R x Hx)) as (_ & _ & H1 & H2). unfold gap_of in *. rewrite H1, H2.
  assert (H := R x Hx). destruct (n_tree x =? tree); auto. apply shift_lt; auto.
Qed.

Lemma gap_nests db tree start k n : 0 <= k -> real (ns_rows db) -> In n (ns_rows db) -> nests (ns_rows db) n ->
  nests (ns_rows (alter_gap db tree start k)) (gap_of tree start k n).
Proof.
  intros Hk R Hn N r Hr. cbn [alter_gap ns_rows] in Hr. apply in_map_iff in Hr. destruct Hr as (x & <- & Hx).
  destruct (gap_fields tree start k x (R x Hx)) as (_ & X1 & X2 & X3).
  destruct (gap_fields tree start k n (R n Hn)) as (_ & N1 & N2 & N3). unfold gap_of in *.
  rewrite X1, X2, X3, N1, N2, N3. intros Et. rewrite Et. destruct (n_tree n =? tree); [|apply N; auto].
  rewrite !shift_le by auto. apply N; auto.
Qed.

Lemma tree_real db m : real (ns_rows db) -> real (ns_rows (move_tree_right db m)).
Proof.
  intros R r Hr. cbn [move_tree_right ns_rows] in Hr. apply in_map_iff in Hr. destruct Hr as (x & <- & Hx).
  assert (H := R x Hx). destruct (m <=? n_tree x); auto.
Qed.

Lemma tree_nests db m n : nests (ns_rows db) n ->
  nests (ns_rows (move_tree_right db m)) (if m <=? n_tree n then inc_tree n else n).
Proof.
  intros N r Hr. cbn [move_tree_right ns_rows] in Hr. apply in_map_iff in Hr. destruct Hr as (x & <- & Hx).
  assert (H := N x Hx). destruct (Z.leb_spec m (n_tree x)), (Z.leb_spec m (n_tree n)); unfold inc_tree; cbn [n_tree n_lft n_rgt];
    intros Et; apply H; lia.
Qed.

Lemma jump_real db n tree jump d : real (ns_rows db) -> real (ns_rows (jump_rows db n tree jump d)).
Proof.
  intros R r Hr. cbn [jump_rows ns_rows] in Hr. apply in_map_iff in Hr. destruct Hr as (x & <- & Hx).
  assert (H := R x Hx). destruct (jump_sel n x); auto. unfold jump_row. cbn [n_lft n_rgt]. lia.
Qed.

(** ** Adding *)
Lemma save_fresh db r : ~ In (n_pk r) (map n_pk (ns_rows db)) -> save_row db r = mkNSDB (r :: ns_rows db) (ns_sigs db).
Proof.
  intros H. unfold save_row. replace (existsb _ (ns_rows db)) with false; auto. symmetry. apply existsb_false.
  intros x Hx. apply Nat.eqb_neq. intros E. apply H. rewrite <- E. apply in_map. auto.
Qed.

(** The bulk update before a row is saved. *)
Inductive prepared (db : ns_db) : ns_db -> Prop :=
| PNone : prepared db db
| PTree m : prepared db (move_tree_right db m)
| PGap tree start k : 0 <= k -> prepared db (alter_gap db tree start k).

Lemma add_sibling_shape o db target p x db' r : add_sibling o db target p x = Ok (db', r) ->
  n_pk r = nid x /\ exists db0, prepared db db0 /\ db' = save_row db0 r.
Proof.
  unfold add_sibling. destruct (prepare_pos_add (is_sorted o) p) as [P|]; cbn [bind]; [|discriminate].
  destruct (is_root (o_row target)).
  - destruct (match P with SortedSibling => _ | _ => _ end) as [[P' tg]|]; cbn [bind]; [|discriminate].
    destruct (match P' with LastSibling => true | _ => _ end).
    + destruct (get_last_root_node (ns_rows db)) as [lr|]; [|discriminate]. intros E. injection E as <- <-.
      split; auto. exists db. split; auto. constructor.
    + destruct (match P' with FirstSibling => _ | _ => _ end) as [m|]; [|discriminate]. intros E. injection E as <- <-.
      split; auto. eexists. split; [apply PTree|reflexivity].
  - destruct (match P with SortedSibling => _ | _ => _ end) as [[P' tg]|]; cbn [bind]; [|discriminate].
    destruct (normalize _ _ _) as [[P2 tg2]|]; cbn [bind]; [|discriminate].
    destruct (match P2 with LastSibling => _ | _ => _ end) as [np|]; cbn [bind]; [|discriminate].
    intros E. injection E as <- <-. split; auto. eexists. split; [apply PGap|reflexivity]. lia.
Qed.

Lemma add_root_shape o db x db' r : add_root o db x = Ok (db', r) ->
  n_pk r = nid x /\ exists db0, prepared db db0 /\ db' = save_row db0 r.
Proof.
  unfold add_root. destruct (get_last_root_node (ns_rows db)) as [lr|].
  - destruct (is_sorted o); [apply add_sibling_shape|]. intros E. injection E as <- <-.
    split; auto. exists db. split; auto. constructor.
  - intros E. injection E as <- <-. split; auto. exists db. split; auto. constructor.
Qed.

Lemma add_child_shape o db target x db' r tg : add_child o db target x = Ok (db', r, tg) ->
  n_pk r = nid x /\ exists db0, prepared db db0 /\ db' = save_row db0 r.
Proof.
  unfold add_child. destruct (get_by_pk _ _) as [nd|]; cbn [bind]; [|discriminate]. destruct (is_leaf nd); cbn [negb].
  - intros E. injection E as <- <- _. split; auto. eexists. split; [apply PGap|reflexivity]. lia.
  - destruct (get_last_child _ _) as [lc|]; [|discriminate].
    destruct (add_sibling o db _ _ x) as [[db1 r1]|] eqn:E; cbn [bind]; [|discriminate].
    intros E1. injection E1 as <- <- _. eapply add_sibling_shape; eauto.
Qed.

Lemma prepared_heard db db0 : real (ns_rows db) -> prepared db db0 -> heard db db0 (ns_rows db0).
Proof. intros R [| |]; [apply heard_refl|apply heard_tree|apply heard_gap; auto]. Qed.

Lemma prepared_pks db db0 : prepared db db0 -> map n_pk (ns_rows db0) = map n_pk (ns_rows db).
Proof.
  intros [|m|T s k Hk]; auto; cbn [move_tree_right alter_gap ns_rows]; rewrite map_map; apply map_ext; intros r.
  - destruct (m <=? n_tree r); auto.
  - destruct (alter_sel T s r); auto.
Qed.

Lemma added_heard db db0 r : real (ns_rows db) -> prepared db db0 -> ~ In (n_pk r) (map n_pk (ns_rows db)) ->
  exists rows, heard db (save_row db0 r) rows /\ ns_rows (save_row db0 r) = r :: rows.
Proof.
  intros R P Fr. exists (ns_rows db0). rewrite save_fresh by (rewrite (prepared_pks _ _ P); auto). split; auto.
  destruct (prepared_heard db db0 R P) as (n & E & H). exists n. auto.
Qed.

Section Signals.
Variable o : ordering.
Variables (db : ns_db) (F : forest node).
Hypothesis St : stores (ns_rows db) F.

Lemma fresh_pk i : ~ In i (ids F) -> ~ In i (map n_pk (ns_rows db)).
Proof.
  intros H Hi. apply H. destruct St as (W & ts & I & P). apply (Permutation_in _ (pks _ F ts I P) Hi).
Qed.

Theorem add_sibling_heard target p x db' r : ~ In (nid x) (ids F) ->
  add_sibling o db target p x = Ok (db', r) -> exists rows, heard db db' rows /\ ns_rows db' = r :: rows.
Proof.
  intros Fr E. apply add_sibling_shape in E. destruct E as (Ep & db0 & P & ->).
  apply added_heard; auto; [eapply stores_real; eauto|]. rewrite Ep. apply fresh_pk. auto.
Qed.

Theorem add_root_heard x db' r : ~ In (nid x) (ids F) ->
  add_root o db x = Ok (db', r) -> exists rows, heard db db' rows /\ ns_rows db' = r :: rows.
Proof.
  intros Fr E. apply add_root_shape in E. destruct E as (Ep & db0 & P & ->).
  apply added_heard; auto; [eapply stores_real; eauto|]. rewrite Ep. apply fresh_pk. auto.
Qed.

Theorem add_child_heard target x db' r tg : ~ In (nid x) (ids F) ->
  add_child o db target x = Ok (db', r, tg) -> exists rows, heard db db' rows /\ ns_rows db' = r :: rows.
Proof.
  intros Fr E. apply add_child_shape in E. destruct E as (Ep & db0 & P & ->).
  apply added_heard; auto; [eapply stores_real; eauto|]. rewrite Ep. apply fresh_pk. auto.
Qed.

(** ** Moving *)
Lemma hole_shape gap parent tg P db1 T np : 0 <= gap -> make_hole db gap parent tg P = Ok (db1, T, np) -> prepared db db1.
Proof.
  intros G. unfold make_hole. destruct P; try discriminate;
    try (destruct parent as [q|]; [|discriminate]; intros E; injection E as <- _ _; constructor; auto; fail);
    destruct (is_root (o_row tg)); try discriminate; try (intros E; injection E as <- _ _; constructor; auto; fail).
  - destruct (get_siblings _ _) as [sibs|]; cbn [bind]; [|discriminate]. destruct (last_opt sibs); [|discriminate].
    intros E; injection E as <- _ _; constructor; auto.
  - destruct (parent_rgt _ _); cbn [bind]; [|discriminate]. intros E; injection E as <- _ _; constructor; auto.
Qed.

Lemma prepared_nests db1 n n1 : In n (ns_rows db) -> prepared db db1 -> get_by_pk (ns_rows db1) (n_pk n) = Ok n1 ->
  real (ns_rows db1) /\ nests (ns_rows db1) n1.
Proof.
  intros Hn P G. assert (R := stores_real _ _ St). assert (N := stores_nests _ _ n St Hn).
  assert (NDp : NoDup (map n_pk (ns_rows db1))).
  { rewrite (prepared_pks _ _ P). destruct St as (W & ts & I & Pm).
    eapply Permutation_NoDup; [apply Permutation_sym, (pks _ F ts I Pm)|exact W]. }
  assert (Im : forall n', In n' (ns_rows db1) -> n_pk n' = n_pk n -> n1 = n').
  { intros n' H' E'. rewrite <- E' in G. rewrite (get_by_pk_list _ _ NDp H') in G. congruence. }
  destruct P as [|m|T s k Hk].
  - split; auto. rewrite (Im n Hn eq_refl). auto.
  - split; [apply tree_real; auto|].
    rewrite (Im (if m <=? n_tree n then inc_tree n else n)); [apply tree_nests; auto| |destruct (m <=? n_tree n); auto].
    cbn [move_tree_right ns_rows]. apply in_map_iff. exists n. auto.
  - split; [apply gap_real; auto|].
    rewrite (Im (gap_of T s k n)); [apply gap_nests; auto| |unfold gap_of; destruct (alter_sel T s n); auto].
    cbn [alter_gap ns_rows]. apply in_map_iff. exists n. auto.
Qed.

Theorem move_heard node target p db' node' target' : In (o_row node) (ns_rows db) ->
  move o db node target p = Ok (db', node', target') -> heard db db' (ns_rows db').
Proof.
  intros Hn. assert (R := stores_real _ _ St). assert (Rn := R _ Hn).
  unfold move. destruct (prepare_pos_move (is_sorted o) p) as [P|]; cbn [bind]; [|discriminate].
  destruct (move_target _ _ _ _) as [[[parent tg] P1]|]; cbn [bind]; [|discriminate].
  destruct (is_descendant_of _ _); [discriminate|].
  destruct (move_is_noop _ _ _ _) as [b|]; cbn [bind]; [|discriminate]. destruct b.
  { intros E. injection E as <- _ _. apply heard_refl. }
  destruct (match P1 with SortedSibling => _ | _ => _ end) as [[P2 tg2]|]; cbn [bind]; [|discriminate].
  destruct (normalize _ _ _) as [[P3 tg3]|]; cbn [bind]; [|discriminate].
  destruct (make_hole _ _ _ _ _) as [[[db1 T] np]|] eqn:Eh; cbn [bind]; [|discriminate].
  apply hole_shape in Eh; [|lia].
  destruct (get_by_pk (ns_rows db1) (n_pk (o_row node))) as [n1|] eqn:E1; cbn [bind]; [|discriminate].
  destruct (prepared_nests db1 _ n1 Hn Eh E1) as [R1 N1].
  cbv zeta. set (db2 := jump_rows db1 n1 _ _ _). set (db3 := close_gap db2 _ _ _).
  destruct (get_by_pk (ns_rows db3) (n_pk (o_row node))) as [n2|]; cbn [bind]; [|discriminate].
  destruct (get_by_pk (ns_rows db3) (n_pk (o_row target))) as [n3|]; cbn [bind]; [|discriminate].
  intros E. injection E as <- _ _.
  apply (heard_trans _ db1); [apply prepared_heard; auto|].
  apply (heard_trans _ db2); [apply heard_jump; exact N1|].
  apply heard_gap. apply jump_real. auto.
Qed.

(** ** Deleting *)
Definition off (x l g : Z) : Prop := x < l \/ g < x.
Definition clear_of (t : ns_table) (rs : list (Z * Z * Z)) : Prop :=
  forall r T l g, In r t -> In (T, l, g) rs -> n_tree r = T -> off (n_lft r) l g /\ off (n_rgt r) l g.

Lemma close_heard rs : forall db, StronglySorted (fun x y => tr_lt y x) rs ->
  (forall T l g T' l' g', In (T, l, g) rs -> In (T', l', g') rs -> T = T' -> (T', l', g') = (T, l, g) \/ g < l' \/ g' < l) ->
  (forall T l g, In (T, l, g) rs -> l < g) ->
  real (ns_rows db) -> clear_of (ns_rows db) rs ->
  heard db (fold_left close1 rs db) (ns_rows (fold_left close1 rs db)).
Proof.
  induction rs as [|[[T l] g] rs IH]; intros d Hs Hd Hl R C; cbn [fold_left]; [apply heard_refl|].
  inversion Hs; subst. rewrite Forall_forall in H2.
  assert (Lg := Hl T l g ltac:(simpl; auto)).
  cbn [close1]. unfold close_gap. set (k := - (g - l + 1)).
  assert (Hg : heard d (alter_gap d T l k) (ns_rows (alter_gap d T l k))) by (apply heard_gap; auto).
  eapply heard_trans; [exact Hg|]. 
  assert (Fld : forall r, In r (ns_rows d) -> let r' := gap_of T l k r in n_tree r' = n_tree r /\
      n_lft r' = (if n_tree r =? T then shift_from l k (n_lft r) else n_lft r) /\
      n_rgt r' = (if n_tree r =? T then shift_from l k (n_rgt r) else n_rgt r)).
  { intros r Hr. destruct (gap_fields T l k r (R r Hr)) as (_ & A & B & C'). auto. }
  apply IH; auto.
  - intros T1 l1 g1 T2 l2 g2 H1' H2'. apply Hd; simpl; auto.
  - intros T1 l1 g1 H1'. apply (Hl T1). simpl. auto.
  - intros r Hr. cbn [alter_gap ns_rows] in Hr. apply in_map_iff in Hr. destruct Hr as (x & <- & Hx).
    destruct (Fld x Hx) as (A & B & C'). unfold gap_of in *. rewrite B, C'. assert (Rx := R x Hx).
    destruct (Z.eqb_spec (n_tree x) T) as [Et|]; auto.
    destruct (C x T l g Hx ltac:(simpl; auto) Et) as [O1 O2]. unfold off, shift_from in *. subst k.
    destruct (Z.leb_spec l (n_lft x)), (Z.leb_spec l (n_rgt x)); lia.
  - intros r T1 l1 g1 Hr Hi Et. cbn [alter_gap ns_rows] in Hr. apply in_map_iff in Hr. destruct Hr as (x & <- & Hx).
    destruct (Fld x Hx) as (A & B & C'). unfold gap_of in *. rewrite A in Et. rewrite B, C'.
    destruct (C x T1 l1 g1 Hx ltac:(simpl; auto) Et) as [O1 O2].
    destruct (Z.eqb_spec (n_tree x) T) as [Et'|]; auto.
    destruct (C x T l g Hx ltac:(simpl; auto) Et') as [O3 O4].
    assert (Lt := H2 _ Hi). apply tr_lt_iff in Lt. cbn [fst snd] in Lt.
    destruct (Hd T l g T1 l1 g1 ltac:(simpl; auto) ltac:(simpl; auto) ltac:(congruence)) as [E|E].
    { injection E as <- <- <-. lia. }
    assert (L1 := Hl T1 l1 g1 ltac:(simpl; auto)).
    unfold off, shift_from in *. subst k. destruct (Z.leb_spec l (n_lft x)), (Z.leb_spec l (n_rgt x)); lia.
Qed.

Lemma rngs_row S T f : forall d b x, In x (rngs S T b f) ->
  exists r, In r (number T d b f) /\ x = (n_tree r, n_lft r, n_rgt r).
Proof.
  induction f as [|a k IHk r IHr]; intros d b x; cbn [rngs number]; [intros []|]. rewrite in_app_iff. intros [H|H].
  - destruct (S (nid a)).
    + destruct H as [<-|[]]. eexists. split; [left; reflexivity|]. auto.
    + destruct (IHk (d + 1) _ _ H) as (y & Hy & E). exists y. split; auto. right. apply in_app_iff. auto.
  - destruct (IHr d _ _ H) as (y & Hy & E). exists y. split; auto. right. apply in_app_iff. auto.
Qed.

Lemma rngs_all_row S ts G x : In x (rngs_all S ts G) -> exists r, In r (layout ts G) /\ x = (n_tree r, n_lft r, n_rgt r).
Proof.
  revert ts. induction G as [|a k _ r IH]; intros [|T ts]; cbn [rngs_all layout]; try (intros []; fail).
  rewrite in_app_iff. intros [H|H].
  - destruct (rngs_row S T _ 1 1 x H) as (y & Hy & E). exists y. split; auto. apply in_app_iff. auto.
  - destruct (IH ts H) as (y & Hy & E). exists y. split; auto. apply in_app_iff. auto.
Qed.

Lemma rngs_apart S T f : forall b x y, In x (rngs S T b f) -> In y (rngs S T b f) -> x = y \/ snd x < snd (fst y) \/ snd y < snd (fst x).
Proof.
  induction f as [|a k IHk r IHr]; intros b x y; cbn [rngs]; [intros []|]. rewrite !in_app_iff.
  assert (H1 : forall z, In z (if S (nid a) then [(T, b, b + 2 * Z.of_nat (size k) + 1)] else rngs S T (b + 1) k) -> snd z < b + 2 * Z.of_nat (size k) + 2).
  { intros z. destruct (S (nid a)); [intros [<-|[]]; cbn [snd]; lia|intros Hz; apply rngs_in in Hz; lia]. }
  assert (H2 : forall z, In z (rngs S T (b + 2 * Z.of_nat (size k) + 2) r) -> b + 2 * Z.of_nat (size k) + 2 <= snd (fst z)).
  { intros z Hz. apply rngs_in in Hz. lia. }
  intros [Hx|Hx] [Hy|Hy]; eauto.
  - destruct (S (nid a)); [|eauto]. destruct Hx as [<-|[]], Hy as [<-|[]]. auto.
  - apply H1 in Hx. apply H2 in Hy. lia.
  - apply H2 in Hx. apply H1 in Hy. lia.
Qed.

Lemma rngs_all_apart S ts G : NoDup ts -> forall x y, In x (rngs_all S ts G) -> In y (rngs_all S ts G) -> fst (fst x) = fst (fst y) ->
  x = y \/ snd x < snd (fst y) \/ snd y < snd (fst x).
Proof.
  revert ts. induction G as [|a k _ r IH]; intros [|T ts] ND x y; cbn [rngs_all]; try (intros []; fail).
  apply NoDup_cons_iff in ND. destruct ND as [N1 N2]. rewrite !in_app_iff. intros [Hx|Hx] [Hy|Hy] E.
  - eapply rngs_apart; eauto.
  - apply rngs_in in Hx. apply rngs_all_tree in Hy. exfalso. apply N1. destruct Hx as [<- _]. rewrite E. auto.
  - apply rngs_in in Hy. apply rngs_all_tree in Hx. exfalso. apply N1. destruct Hy as [<- _]. rewrite <- E. auto.
  - eapply IH; eauto.
Qed.

Theorem delete_queryset_heard sel : heard db (delete_queryset db sel) (ns_rows (delete_queryset db sel)).
Proof.
  assert (R := stores_real _ _ St). assert (Wn := stores_well_nested _ _ St).
  assert (St' := St). destruct St' as (W & ts & I & P).
  assert (ND : NoDup ts) by (apply sorted_NoDup, I).
  set (S := fun i => existsb (fun r => (n_pk r =? i)%nat && sel r) (ns_rows db)).
  assert (Hsel : forall r, In r (ns_rows db) -> sel r = S (n_pk r)).
  { intros r Hr. unfold S. apply eq_true_iff_eq. rewrite existsb_exists. split.
    - intros E. exists r. rewrite Nat.eqb_refl, E. auto.
    - intros (x & Hx & E). apply andb_true_iff in E. destruct E as [E1 E2]. apply Nat.eqb_eq in E1.
      assert (x = r) by (apply (row_eq _ F ts W I P); auto). subst. auto. }
  assert (Er : delete_ranges None (order_rows (filter sel (ns_rows db))) = rngs_all S ts F).
  { rewrite (filter_ext_In sel (fun r => S (n_pk r)) _ Hsel), (query _ F ts I P).
    apply (del_layout S ts F None ND (proj1 I)). discriminate. }
  unfold delete_queryset. rewrite Er. remember (rngs_all S ts F) as rs eqn:Ers. clear Er.
  destruct rs as [|x l]; [apply heard_refl|]. remember (x :: l) as rs eqn:Exl. clear Exl x l.
  assert (Rows : forall y, In y rs -> exists r, In r (ns_rows db) /\ y = (n_tree r, n_lft r, n_rgt r)).
  { intros y Hy. rewrite Ers in Hy. apply rngs_all_row in Hy. destruct Hy as (r & Hr & E). exists r. split; auto. apply (in_t _ F ts P). auto. }
  set (kept := filter (fun r => negb (existsb (in_del_range r) rs)) (ns_rows db)).
  assert (Nst : forall r s, In r (ns_rows db) -> In s (ns_rows db) -> n_tree r = n_tree s ->
      (n_lft s <= n_lft r <= n_rgt s -> n_rgt r <= n_rgt s) /\
      (~ (n_lft s <= n_lft r <= n_rgt s) -> off (n_lft r) (n_lft s) (n_rgt s) /\ off (n_rgt r) (n_lft s) (n_rgt s))).
  { intros r s Hr Hs Et. assert (Rr := R r Hr). assert (Rs := R s Hs). destruct (Nat.eq_dec (n_pk r) (n_pk s)) as [E|E].
    - assert (r = s) by (apply (row_eq _ F ts W I P); auto). subst. unfold off. lia.
    - destruct (wn_nested _ _ Wn r s Hr Hs) as [[H|H]|[H|H]]; auto; [congruence|..]; unfold encloses, off in *; lia. }
  assert (Hh : heard db (mkNSDB kept (ns_sigs db ++ [NodesDeleted rs])) kept).
  { exists [NodesDeleted rs]. split; auto. cbn [fold_left hear]. unfold kept. apply filter_ext_In. intros r Hr. f_equal.
    apply eq_true_iff_eq. rewrite !existsb_exists. split; intros (y & Hy & E); exists y; split; auto;
      destruct (Rows y Hy) as (s & Hs & ->); unfold in_del_range in *; cbn [fst snd] in *;
      rewrite ?andb_true_iff, ?Z.eqb_eq, ?Z.leb_le in *.
    - assert (Rr := R r Hr). lia.
    - destruct (Nst r s Hr Hs ltac:(lia)) as [H _]. lia. }
  fold kept.
  change (fun (d : ns_db) (x : Z * Z * Z) => let '(tree, lft, rgt) := x in close_gap d lft rgt tree) with close1.
  assert (Srt : StronglySorted tr_lt rs) by (rewrite Ers; apply rngs_all_sorted, I).
  rewrite (sort_rev rs Srt).
  eapply heard_trans; [exact Hh|]. cbn [ns_rows]. apply close_heard.
  - apply SS_rev. auto.
  - intros T l0 g T' l' g' H1 H2 E. apply in_rev in H1, H2. rewrite Ers in H1, H2.
    destruct (rngs_all_apart S ts F ND _ _ H1 H2 E) as [E1|E1]; auto.
  - intros T l0 g H1. apply in_rev in H1. destruct (Rows _ H1) as (r & Hr & E). injection E as _ -> ->. auto.
  - intros r Hr. cbn [ns_rows] in Hr. apply filter_In in Hr. apply R. tauto.
  - intros r T l0 g Hr Hi Et. cbn [ns_rows] in Hr. apply filter_In in Hr. destruct Hr as [Hr Hk].
    apply in_rev in Hi. destruct (Rows _ Hi) as (s & Hs & E). injection E as -> -> ->.
    apply (Nst r s Hr Hs Et). intros H. apply negb_true_iff in Hk. rewrite existsb_false in Hk.
    specialize (Hk _ Hi). unfold in_del_range in Hk. rewrite !andb_false_iff, !Z.leb_gt, Z.eqb_neq in Hk. lia.
Qed.
End Signals.
