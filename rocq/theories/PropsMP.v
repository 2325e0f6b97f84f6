(** Theorems about materialized path trees, mp_tree.py (C03-C10, C14 and the
    materialized path parts of C15, C24, C37, C38, C44). *)
From Coq Require Import String List Arith Lia Bool ZArith Sorted Permutation.
From Verif Require Import Prelude Forest SpecFacts SpecSane NumConv PathTab CommonModel Order History SpecRun
  MPModel MPStep MPInv MPCount MPAdd MPMove MPMoveOk MPDelete MPReads MPHist MPFixModel MPCheck MPSignals MPRoom Fixture.
Import ListNotations.
Local Open Scope string_scope.
Local Open Scope list_scope.
Local Open Scope nat_scope.

Lemma stores_wf cfg t F : stores cfg t F -> wf_ids F.
Proof. intros (f & _ & _ & _ & W). exact W. Qed.

Lemma stores_ids cfg t F r : stores cfg t F -> In r t -> In (m_pk r) (ids F).
Proof.
  intros (f & L & _ & <- & _) Hr. apply (Permutation_in _ (lay_pks cfg _ _ L)). apply in_map. auto.
Qed.

(** ** The example tables *)
Definition c10 : mp_cfg := mkCfg 10 2 40 [].
Definition s10 : mp_cfg := mkCfg 10 2 40 so.
Definition mp_empty : mp_db := mkDB [] [].
Definition ex_db : mp_db := Eval vm_compute in fst (run (mp_exec c10) mp_empty ex_calls).
Definition so_db : mp_db := Eval vm_compute in fst (run (mp_exec s10) mp_empty so_calls).
Definition row (db : mp_db) (i : nat) : mprow :=
  match get_by_pk (db_rows db) i with Ok r => r | Err _ => mkMP 0 [] 0 0 [] end.

(** The rows: 7 at 01, 1 at 02, 2 at 03, 3 at 0201, 5 at 0202, 4 at 0301, 9 at 0303,
    6 at 030101, 10 at 030301 (a hole at 0302). *)
Example ex_rows : map (fun r => (m_pk r, m_path r, m_depth r, m_nc r)) (get_tree (db_rows ex_db) None None) =
  [(7, [0;1], 1, 0); (1, [0;2], 1, 2); (3, [0;2;0;1], 2, 0); (5, [0;2;0;2], 2, 0); (2, [0;3], 1, 2);
   (4, [0;3;0;1], 2, 1); (6, [0;3;0;1;0;1], 3, 0); (9, [0;3;0;3], 2, 1); (10, [0;3;0;3;0;1], 3, 0)].
Proof. vm_compute. reflexivity. Qed.

Lemma lt_b a b : Nat.ltb a b = true -> a < b.
Proof. apply Nat.ltb_lt. Qed.
Lemma le_b a b : Nat.leb a b = true -> a <= b.
Proof. apply Nat.leb_le. Qed.

Lemma ex_stores : stores c10 (db_rows ex_db) ex_F.
Proof.
  assert (H := mp_history_room c10 (le_b 2 10 eq_refl) (le_b 1 2 eq_refl) ex_calls (lt_b 13 100 eq_refl) (le_b 24 40 eq_refl) ex_new).
  fold mp_empty in H. 
  assert (E : run (mp_exec c10) mp_empty ex_calls = (ex_db, ex_calls)) by (vm_compute; reflexivity).
  rewrite E in H. change (order_by c10) with (@nil (nat * bool)) in H. rewrite ex_calls_F in H. apply H. congruence.
Qed.
Lemma so_stores : stores s10 (db_rows so_db) so_F /\ ordered so so_F.
Proof.
  assert (H := mp_history_room s10 (le_b 2 10 eq_refl) (le_b 1 2 eq_refl) so_calls (lt_b 11 100 eq_refl) (le_b 20 40 eq_refl) so_new (fun _ => so_values)).
  fold mp_empty in H.
  assert (E : fst (run (mp_exec s10) mp_empty so_calls) = so_db) by (vm_compute; reflexivity).
  destruct (run (mp_exec s10) mp_empty so_calls) as [d c]. cbn in E. subst d.
  change (order_by s10) with so in H. rewrite so_calls_F in H. apply H.
Qed.

Section MP.
Variable cfg : mp_cfg.
Hypothesis radix2 : 2 <= radix cfg.
Hypothesis step1 : 1 <= steplen cfg.
Notation stores := (stores cfg).
Notation o := (order_by cfg).

(** ** C03: histories *)

(** The invariant, read off the rows. *)
Theorem C03_invariant (t : mp_table) : (exists F, stores t F) <->
  NoDup (map m_pk t) /\ NoDup (map m_path t) /\
  forall r, In r t ->
    Forall (fun c => c < radix cfg) (m_path r) /\
    (exists n, length (m_path r) = S n * steplen cfg) /\
    1 <= undigits (radix cfg) (last_step cfg (m_path r)) /\
    (length (m_path r) = steplen cfg \/ exists r', In r' t /\ m_path r' = get_parent_path cfg (m_path r)) /\
    m_depth r = length (m_path r) / steplen cfg /\
    m_nc r = length (filter (fun r' => ppre (m_path r) (m_path r') && (length (m_path r') =? length (m_path r) + steplen cfg)) t).
Proof.
  rewrite stores_iff by auto. split.
  - intros (P & D & C & N). split; auto. split; [apply P|]. intros r Hr.
    split; [apply (po_chars _ _ P); auto|]. split; [apply (po_len _ _ P); auto|].
    split; [apply (po_step _ _ P); auto|]. split; [apply (po_par _ _ P); auto|].
    split; [apply D; auto|apply C; auto].
  - intros (N & U & H). split; [|split; [|split]]; auto.
    + constructor; auto; intros r Hr; apply (H r Hr).
    + intros r Hr. apply (H r Hr).
    + intros r Hr. apply (H r Hr).
Qed.

(** A table stores at most one forest. *)
Theorem C03_unique (t : mp_table) F F' : stores t F -> stores t F' -> F = F'.
Proof. apply stores_functional; auto. Qed.

(** Any sequence of calls, with failed ones, as long as every move is made while two
    steps are free at the end of the sibling lists (see C03_room_refuted). *)
Theorem C03_histories (cs : list call) :
  NoDup (flat_map new_ids cs) -> (o <> [] -> Forall (call_values o) cs) ->
  roomy_run cfg mp_empty cs ->
  let (db', ok) := run (mp_exec cfg) mp_empty cs in
  stores (db_rows db') (fold_left (sp_call o) ok Nil) /\ ordered o (fold_left (sp_call o) ok Nil) /\
  find_problems cfg (db_rows db') None = [].
Proof.
  intros ND V Rm. assert (H := mp_history cfg radix2 step1 cs ND V Rm). fold mp_empty in H.
  destruct (run (mp_exec cfg) mp_empty cs) as [db' ok]. destruct H as (S & O).
  split; auto. split; auto. apply (find_problems_clean cfg radix2 step1 _ _ None S).
Qed.

(** Fewer calls than steps and levels: the same calls succeed as on the forest. *)
Theorem C03_histories_room (cs : list call) :
  length cs + 1 < radix cfg ^ steplen cfg -> steplen cfg * length cs <= maxlen cfg ->
  NoDup (flat_map new_ids cs) -> (o <> [] -> Forall (call_values o) cs) ->
  let (db', done) := run (mp_exec cfg) mp_empty cs in
  let (F', done') := run (sp_exec o) Nil cs in
  done = done' /\ stores (db_rows db') F' /\ ordered o F'.
Proof. apply mp_history_room; auto. Qed.

(** ** C04: adding *)
Definition new_node (x : newobj) : node := mkNode (new_pk x) (new_data x).
Definition gt_new (x : newobj) (n : node) : bool := sorted_after o (new_data x) (ndata n).

Theorem C04_add_root db F x :
  stores (db_rows db) F -> ~ In (new_pk x) (ids F) -> new_nc x = 0 ->
  (o <> [] -> splits (gt_new x) (roots F)) ->
  (exists db' r G L1 L2, add_root cfg db x = Ok (db', r) /\ In r (db_rows db') /\ node_of r = new_node x /\
     stores (db_rows db') G /\ added F G None (new_node x) L1 L2 /\
     (if is_sorted cfg then ins_split (PSorted (gt_new x)) L1 L2 else L2 = [])) \/
  (add_root cfg db x = Err PathOverflow /\ step_taken cfg (db_rows db) []).
Proof.
  intros S Hx Nc Sp.
  destruct (add_root_ok cfg radix2 step1 db F x S Hx Nc) as [(db' & r & E & Hr & E1 & E2 & S')|H]; auto.
  { intros Hs. apply Sp. apply (sorts_true o). auto. }
  left. destruct (add_root_sane (opt_gt cfg x) (new_node x) F (stores_wf _ _ _ S) Hx) as (L1 & L2 & A & M).
  exists db', r, (sp_add_root (opt_gt cfg x) (new_node x) F), L1, L2.
  split; auto. split; auto. split; [unfold node_of, new_node; congruence|]. split; auto. split; auto.
  unfold opt_gt in M. destruct (is_sorted cfg); auto.
Qed.

Theorem C04_add_child db F target x :
  stores (db_rows db) F -> In (m_pk target) (ids F) -> ~ In (new_pk x) (ids F) -> new_nc x = 0 ->
  (o <> [] -> forall L, kid_list (Some (m_pk target)) F = Some L -> splits (gt_new x) L) ->
  exists here, In here (db_rows db) /\ m_pk here = m_pk target /\
  ((exists db' r target' G L1 L2, add_child cfg db target x = Ok (db', r, target') /\
      In r (db_rows db') /\ node_of r = new_node x /\
      stores (db_rows db') G /\ added F G (Some (m_pk target)) (new_node x) L1 L2 /\
      (if is_sorted cfg then ins_split (PSorted (gt_new x)) L1 L2 else L2 = [])) \/
   (add_child cfg db target x = Err PathOverflow /\
    (step_taken cfg (db_rows db) (m_path here) \/
     m_nc here = 0 /\ maxlen cfg < length (m_path here) + steplen cfg))).
Proof.
  intros S Ht Hx Nc Sp.
  destruct (add_child_ok cfg radix2 step1 db F target x S Ht Hx Nc) as (here & Hh & Eh & H).
  { intros Hs. assert (No := proj1 (sorts_true o) Hs). specialize (Sp No). unfold kid_list in Sp.
    destruct (kids_of (Some (m_pk target)) F) as [l|]; [apply Sp; auto|]. exists [], []. cbn. tauto. }
  exists here. split; auto. split; auto. destruct H as [(db' & r & t' & E & Hr & E1 & E2 & _ & S')|H]; auto.
  left. destruct (add_child_sane (opt_gt cfg x) (m_pk target) (new_node x) F (stores_wf _ _ _ S) Ht Hx) as (L1 & L2 & A & M).
  exists db', r, t', (sp_add_child (opt_gt cfg x) (m_pk target) (new_node x) F), L1, L2.
  split; auto. split; auto. split; [unfold node_of, new_node; congruence|]. split; auto. split; auto.
  unfold opt_gt in M. destruct (is_sorted cfg); auto.
Qed.

Theorem C04_add_sibling db F target p P x :
  stores (db_rows db) F -> In target (db_rows db) -> ~ In (new_pk x) (ids F) -> new_nc x = 0 ->
  prepare_pos_add (is_sorted cfg) p = Ok P ->
  (P = SortedSibling -> splits (gt_new x) (siblings_of (m_pk target) F)) ->
  (exists db' r G up L1 L2, add_sibling cfg db target p x = Ok (db', r) /\
     In r (db_rows db') /\ node_of r = new_node x /\
     stores (db_rows db') G /\ parent_of (m_pk target) F = Some up /\ added F G up (new_node x) L1 L2 /\
     ins_split (sib_place P (m_pk target) (gt_new x)) L1 L2) \/
  (add_sibling cfg db target p x = Err PathOverflow /\
   step_taken cfg (db_rows db) (get_parent_path cfg (m_path target))).
Proof.
  intros S Ht Hx Nc EP Sp.
  destruct (add_sibling_ok cfg radix2 step1 db F target p P x S Ht Hx Nc EP Sp) as [(db' & r & E & Hr & E1 & E2 & S')|H]; auto.
  left. destruct (add_sibling_sane (m_pk target) P (gt_new x) (new_node x) F (stores_wf _ _ _ S)
    (stores_ids _ _ _ _ S Ht) Hx (prepare_add_sib _ _ _ EP)) as (up & L1 & L2 & Ep & A & Sp').
  exists db', r, (sp_add_sibling (m_pk target) P (gt_new x) (new_node x) F), up, L1, L2.
  split; auto. split; auto. split; [unfold node_of, new_node; congruence|]. auto.
Qed.

(** A position the model refuses changes nothing (C34 says which). *)
Theorem C04_add_sibling_position db target p x e :
  prepare_pos_add (is_sorted cfg) p = Err e -> add_sibling cfg db target p x = Err e.
Proof. intros E. unfold add_sibling. rewrite E. auto. Qed.

(** ** C05, C38: moving *)
Theorem C05_move db F n target p P :
  stores (db_rows db) F -> In n (db_rows db) -> In target (db_rows db) ->
  prepare_pos_move (is_sorted cfg) p = Ok P ->
  let gt := fun x : node => sorted_after o (m_data n) (ndata x) in
  (P = SortedSibling -> splits gt (siblings_of (m_pk target) F)) ->
  (P = SortedChild -> forall L, kid_list (Some (m_pk target)) F = Some L -> splits gt L) ->
  temp_room cfg (db_rows db) (new_base cfg P target) (m_path n) ->
  ~ inside F (m_pk n) (m_pk target) P ->
  (exists db' n' target' G, move cfg db n target p = Ok (db', n', target') /\ stores (db_rows db') G /\
     (m_pk n = m_pk target /\ (P = Left \/ P = Right) /\ G = F \/
      exists up a L1 L2,
        (if is_child_pos P then up = Some (m_pk target) else parent_of (m_pk target) F = Some up) /\
        nid a = m_pk n /\ moved F G up a L1 L2 /\ ins_split (sib_place P (m_pk target) gt) L1 L2)) \/
  (move cfg db n target p = Err PathOverflow /\ step_taken cfg (db_rows db) (new_base cfg P target)).
Proof.
  intros S Hn Ht EP gt Sp1 Sp2 Rm NI.
  destruct (move_ok cfg radix2 step1 db F n target p P S Hn Ht EP Sp1) as [[H _]|[_ H]]; auto; [|tauto|].
  { intros EQ. specialize (Sp2 EQ). unfold kid_list in Sp2.
    destruct (kids_of (Some (m_pk target)) F) as [l|]; [apply Sp2; auto|]. exists [], []. cbn. tauto. }
  destruct H as [(db' & n' & t' & E & S' & _)|H]; auto. left.
  exists db', n', t', (sp_move (m_pk n) (m_pk target) P gt F). split; auto. split; auto.
  destruct (move_sane (m_pk n) (m_pk target) P gt F (stores_wf _ _ _ S) (stores_ids _ _ _ _ S Hn)
    (stores_ids _ _ _ _ S Ht) NI) as [H|H]; auto.
Qed.

Theorem C38_mp_no_move_inside db F n target p P :
  stores (db_rows db) F -> In n (db_rows db) -> In target (db_rows db) ->
  prepare_pos_move (is_sorted cfg) p = Ok P ->
  let gt := fun x : node => sorted_after o (m_data n) (ndata x) in
  (P = SortedSibling -> splits gt (siblings_of (m_pk target) F)) ->
  (P = SortedChild -> forall L, kid_list (Some (m_pk target)) F = Some L -> splits gt L) ->
  temp_room cfg (db_rows db) (new_base cfg P target) (m_path n) ->
  move cfg db n target p = Err InvalidMoveToDescendant <->
  descends F (m_pk n) (m_pk target) \/ (m_pk n = m_pk target /\ is_child_pos P = true).
Proof.
  intros S Hn Ht EP gt Sp1 Sp2 Rm.
  assert (H := move_ok cfg radix2 step1 db F n target p P S Hn Ht EP Sp1). cbv zeta in H.
  change (descends F (m_pk n) (m_pk target) \/ (m_pk n = m_pk target /\ is_child_pos P = true)) with (inside F (m_pk n) (m_pk target) P).
  destruct H as [[H1 H2]|[H1 H2]]; auto.
  - intros EQ. specialize (Sp2 EQ). unfold kid_list in Sp2.
    destruct (kids_of (Some (m_pk target)) F) as [l|]; [apply Sp2; auto|]. exists [], []. cbn. tauto.
  - tauto.
  - split; [|tauto]. intros E. exfalso. destruct H2 as [(a & b & c & E' & _)|(E' & _)]; congruence.
Qed.

(** ** C06: deleting *)
Theorem C06_delete t F (sel : mprow -> bool) : stores t F ->
  let S i := existsb (fun r => (m_pk r =? i) && sel r) t in
  exists G, stores (delete_queryset cfg t sel) G /\
    kid_list None G = option_map (filter (fun x => negb (S (nid x)))) (kid_list None F) /\
    (forall q A, ancestors_of q F = Some A -> kid_list (Some q) G =
       if S q || existsb (fun a => S (nid a)) A then None
       else option_map (filter (fun x => negb (S (nid x)))) (kid_list (Some q) F)).
Proof.
  intros St S. exists (remove_all S F). split; [apply delete_queryset_ok; auto|].
  split; [apply SpecSane.remove_all_roots|]. intros q A E. apply remove_all_sane; auto. apply (stores_wf _ _ _ St).
Qed.

Theorem C06_delete_node t F n : stores t F -> In n t -> stores (delete_node cfg t n) (remove (m_pk n) F).
Proof. apply delete_node_ok; auto. Qed.

(** ** C07, C37, C44: reading *)
Theorem C07_tree t F d : stores t F -> map node_of (get_tree t None d) = preorder (prune_opt d F).
Proof. intros (f & L & N & <- & W). apply (tree_read cfg); auto. Qed.

Lemma hd_map {A B} (f : A -> B) l : option_map f (hd_error l) = hd_error (map f l).
Proof. destruct l; auto. Qed.
Lemma last_map {A B} (f : A -> B) l : option_map f (last_opt l) = last_opt (map f l).
Proof. unfold last_opt. rewrite <- map_rev. apply hd_map. Qed.

Theorem C07_roots t F : stores t F ->
  map node_of (get_root_nodes t) = roots F /\
  option_map node_of (get_first_root_node t) = hd_error (roots F) /\
  option_map node_of (get_last_root_node t) = last_opt (roots F).
Proof.
  intros (f & L & N & <- & W). assert (E := roots_read cfg radix2 step1 t f L). split; auto.
  unfold get_first_root_node, get_last_root_node. rewrite hd_map, last_map, E. auto.
Qed.

Theorem C07_children t F r : stores t F -> In r t -> exists k, kid_list (Some (m_pk r)) F = Some k /\
  map node_of (get_children cfg t r) = k /\
  get_children_count r = length k /\ (is_leaf r = true <-> k = []) /\
  option_map node_of (get_first_child cfg t r) = hd_error k /\
  option_map node_of (get_last_child cfg t r) = last_opt k.
Proof.
  intros (f & L & N & <- & W) Hr. destruct (children_read cfg radix2 step1 t f L N W r Hr) as (k & E & E1 & E2 & E3).
  exists (roots k). unfold kid_list. cbn [kids_of]. rewrite E. split; auto. split; auto. split; auto.
  split.
  - rewrite E3. destruct k; cbn; split; congruence.
  - unfold get_first_child, get_last_child. rewrite hd_map, last_map, E1. auto.
Qed.

Theorem C07_siblings t F r : stores t F -> In r t ->
  map node_of (get_siblings cfg t r) = siblings_of (m_pk r) F /\
  option_map node_of (get_first_sibling cfg t r) = hd_error (siblings_of (m_pk r) F) /\
  option_map node_of (get_last_sibling cfg t r) = last_opt (siblings_of (m_pk r) F) /\
  option_map node_of (get_next_sibling cfg t r) = next_of (m_pk r) (siblings_of (m_pk r) F) /\
  option_map node_of (get_prev_sibling cfg t r) = prev_of (m_pk r) (siblings_of (m_pk r) F).
Proof.
  intros (f & L & N & <- & W) Hr. assert (E := siblings_read cfg radix2 step1 t f L W r Hr).
  unfold get_first_sibling, get_last_sibling. rewrite hd_map, last_map, E.
  split; auto. split; auto. split; auto. apply (neighbours_read cfg); auto.
Qed.

(** A move of a node to where it is writes nothing and sends no signal. *)
Theorem C05_stays db F n p P : stores (db_rows db) F -> In n (db_rows db) ->
  prepare_pos_move (is_sorted cfg) p = Ok P ->
  let S := siblings_of (m_pk n) F in
  P = Left \/ (P = Right \/ P = LastSibling) /\ option_map nid (last_opt S) = Some (m_pk n) \/
  P = FirstSibling /\ option_map nid (hd_error S) = Some (m_pk n) ->
  move cfg db n n p = Ok (db, n, n).
Proof.
  intros St Hn EP S H. unfold move. rewrite EP. cbn [bind].
  destruct (C07_siblings (db_rows db) F n St Hn) as (_ & E1 & E2 & _). fold S in E1, E2.
  assert (D : is_descendant_of n n = false) by (unfold is_descendant_of; rewrite Nat.ltb_irrefl, andb_false_r; auto).
  assert (R : forall a, option_map nid (option_map node_of a) = Some (m_pk n) -> same_pk n a = true).
  { intros [a|] Q; [|discriminate]. cbn in Q. injection Q as Q. cbn. rewrite Q. apply Nat.eqb_refl. }
  assert (K : move_to_child_vars cfg (db_rows db) n n P = Ok (n, m_depth n, [], None, P, n) /\
    move_prepare cfg (db_rows db) n n (m_depth n) P None [] = Ok None).
  { destruct H as [->|[[[->| ->] H]|[-> H]]]; split; auto; unfold move_prepare; cbn [bind]; rewrite !Nat.eqb_refl; cbn [andb]; auto;
      rewrite <- ?E1, <- ?E2 in H; rewrite (R _ H); auto. }
  destruct K as [K1 K2]. rewrite K1. cbn [bind]. rewrite D, K2. reflexivity.
Qed.

(** With [max_depth], also 0. *)
Theorem C07_descendants t F r d : stores t F -> In r t -> exists k, children_of (m_pk r) F = Some k /\
  map node_of (get_tree t (Some r) d) = node_of r :: preorder (prune_opt d k) /\
  map node_of (get_descendants t r true d) = node_of r :: preorder (prune_opt d k) /\
  map node_of (get_descendants t r false d) = preorder (prune_opt d k) /\
  get_descendant_count t r d = size (prune_opt d k).
Proof. intros (f & L & N & <- & W) Hr. apply (descendants_read cfg); auto. Qed.

Theorem C07_ancestors t F r : stores t F -> In r t -> exists l, ancestors_of (m_pk r) F = Some l /\
  map node_of (get_ancestors cfg t r) = l /\ m_depth r = S (length l) /\ (is_root r = true <-> l = []) /\
  (exists x, get_root cfg t r = Ok x /\ In x t /\ node_of x = hd (node_of r) l).
Proof.
  intros (f & L & N & <- & W) Hr. destruct (ancestors_read cfg radix2 step1 t f L W r Hr) as (l & E & E1 & E2 & E3).
  exists l. split; auto. split; auto. split; auto. split; auto.
  destruct (root_read cfg radix2 step1 t f L W r Hr) as (x & l' & R1 & R2 & R3 & R4). exists x. split; auto. split; auto.
  congruence.
Qed.

Theorem C07_parent t F r : stores t F -> In r t -> exists q, get_parent cfg t r = Ok q /\
  parent_of (m_pk r) F = Some (option_map m_pk q) /\ (forall x, q = Some x -> In x t).
Proof. intros (f & L & N & <- & W) Hr. apply (parent_read cfg); auto. Qed.

Theorem C07_predicates t F r n : stores t F -> In r t -> In n t ->
  (is_child_of r n = true <-> parent_of (m_pk r) F = Some (Some (m_pk n))) /\
  (is_sibling_of cfg r n = true <-> parent_of (m_pk r) F = parent_of (m_pk n) F) /\
  (is_descendant_of r n = true <-> descends F (m_pk n) (m_pk r)).
Proof.
  intros (f & L & N & <- & W) Hr Hn. split; [apply (child_read cfg radix2 step1 t f L W)|split; [apply (sibling_read cfg radix2 step1 t f L W)|apply (descendant_read cfg radix2 step1 t f L W)]]; auto.
Qed.

Theorem C44_mp_group_counts t F parent : stores t F -> (forall p, parent = Some p -> In p t) ->
  exists l, kid_list (option_map m_pk parent) F = Some l /\
  map (fun x => (node_of (fst x), snd x)) (get_descendants_group_count cfg t parent) =
  map (fun a => (a, match children_of (nid a) F with Some k => size k | None => 0 end)) l.
Proof.
  intros (f & L & N & <- & W) Hp. destruct (group_count_read cfg radix2 step1 t f L N W parent Hp) as (l & E & G).
  exists (roots l). unfold kid_list. rewrite E. auto.
Qed.

(** ** C08: overflow *)

(** Whatever the call, a table with room for everything else answers a full list with
    PathOverflow only when the last step is taken or the path column is too short, and
    in that case nothing is stored (an error result carries no table).  Successful calls
    keep the invariant (C04, C05), in particular no path occurs twice or has the wrong
    width (C03_invariant). *)
Theorem C08_overflow db F c :
  stores (db_rows db) F /\ ordered o F -> (o <> [] -> call_values o c) -> fresh_call F c ->
  match c with CMove _ _ _ => roomy cfg (db_rows db) | _ => True end ->
  match mp_exec cfg db c, sp_exec o F c with
  | Ok db', Ok G => stores (db_rows db') G /\ ordered o G
  | Err e, Err e' => e = e'
  | Err e, Ok G => e = PathOverflow /\ mp_full cfg (db_rows db)
  | Ok _, Err _ => False
  end.
Proof.
  intros S V Fr Rm. destruct (mp_call_ok cfg radix2 step1 db F c S V Fr Rm) as [A|(E & Fu & G & EG)].
  - unfold agree in A. destruct (mp_exec cfg db c), (sp_exec o F c); auto. destruct A.
  - rewrite E, EG. auto.
Qed.

(** ** C09: find_problems *)
Theorem C09_clean t F parent : stores t F -> find_problems cfg t parent = [].
Proof. apply find_problems_clean; auto. Qed.

(** Partial: rows with an empty path or a last step of zero are not reported
    (C09_exact_refuted). *)
Theorem C09_exact_partial t : NoDup (map m_path t) -> NoDup (map m_pk t) ->
  (forall r, In r t -> m_path r <> [] /\ 1 <= undigits (radix cfg) (last_step cfg (m_path r))) ->
  find_problems cfg t None = [] <-> exists F, stores t F.
Proof. apply find_problems_exact_partial; auto. Qed.

(** ** C10: fix_tree *)
Theorem C10_fix_tree db : paths_ok cfg (db_rows db) -> NoDup (map m_pk (db_rows db)) ->
  exists db', fix_tree cfg db false None = Ok db' /\ db_sig db' = db_sig db /\
    map (fun r => (m_pk r, m_path r, m_data r)) (db_rows db') = map (fun r => (m_pk r, m_path r, m_data r)) (db_rows db) /\
    (exists F, stores (db_rows db') F) /\ fix_tree cfg db' false None = Ok db'.
Proof.
  intros P N. destruct (fix_tree_ok cfg radix2 step1 db P N) as (db' & E & E1 & E2 & F & S).
  exists db'. split; auto. split; auto. split; auto. split; [eauto|]. apply (fix_tree_id cfg radix2 step1 _ F); auto.
Qed.

Theorem C10_fix_branch db p : paths_ok cfg (db_rows db) ->
  exists db', fix_tree cfg db false (Some p) = Ok db' /\
    map (fun r => (m_pk r, m_path r, m_data r)) (db_rows db') = map (fun r => (m_pk r, m_path r, m_data r)) (db_rows db) /\
    (forall r, In r (db_rows db') -> ppre (m_path p) (m_path r) = true ->
       m_depth r = length (m_path r) / steplen cfg /\
       m_nc r = length (filter (fun r' => ppre (m_path r) (m_path r') && (length (m_path r') =? length (m_path r) + steplen cfg)) (db_rows db'))) /\
    (forall r, ppre (m_path p) (m_path r) = false -> In r (db_rows db') <-> In r (db_rows db)).
Proof. apply fix_tree_branch. Qed.

(** ** C14: signals *)
Theorem C14_add_sibling db target p x db' r :
  ~ In (new_pk x) (map m_pk (db_rows db)) -> add_sibling cfg db target p x = Ok (db', r) -> heard_new cfg db db' r.
Proof. apply add_sibling_heard. Qed.
Theorem C14_add_root db x db' r :
  ~ In (new_pk x) (map m_pk (db_rows db)) -> add_root cfg db x = Ok (db', r) -> heard_new cfg db db' r.
Proof. apply add_root_heard. Qed.
Theorem C14_add_child db target x db' r tg :
  ~ In (new_pk x) (map m_pk (db_rows db)) -> add_child cfg db target x = Ok (db', r, tg) -> heard_new cfg db db' r.
Proof. apply add_child_heard. Qed.
Theorem C14_move db n target p db' n' target' :
  move cfg db n target p = Ok (db', n', target') -> heard cfg db db'.
Proof. apply move_heard. Qed.
Theorem C14_fix_tree db fp parent db' : fix_tree cfg db fp parent = Ok db' -> heard_p db db'.
Proof. apply fix_tree_heard. Qed.
Theorem C14_delete t sel : copy_of (delete_queryset cfg t sel) = hear_deleted (del_signal cfg t sel) (copy_of t).
Proof. apply delete_heard. Qed.

(** ** C24: the caller's objects *)
Theorem C24_mp_add_child db F target x db' r target' : stores (db_rows db) F -> In target (db_rows db) ->
  ~ In (new_pk x) (ids F) -> new_nc x = 0 ->
  (o <> [] -> forall L, kid_list (Some (m_pk target)) F = Some L -> splits (gt_new x) L) ->
  add_child cfg db target x = Ok (db', r, target') ->
  In r (db_rows db') /\ m_pk target' = m_pk target /\ m_nc target' = S (m_nc target) /\
  m_path target' = m_path target /\ m_depth target' = m_depth target /\ m_data target' = m_data target.
Proof.
  intros S Ht Hx Nc Sp E.
  destruct (add_child_ok cfg radix2 step1 db F target x S (stores_ids _ _ _ _ S Ht) Hx Nc) as (here & Hh & Eh & H).
  { intros Hs. assert (No := proj1 (sorts_true o) Hs). specialize (Sp No). unfold kid_list in Sp.
    destruct (kids_of (Some (m_pk target)) F) as [l|]; [apply Sp; auto|]. exists [], []. cbn. tauto. }
  destruct H as [(db1 & r1 & t1 & E1 & Hr & _ & _ & Et & _)|(E1 & _)]; [|congruence].
  rewrite E in E1. injection E1 as <- <- <-. rewrite (Et Ht). cbn. repeat split; auto.
Qed.

Theorem C24_mp_move db F n target p P db' n' target' :
  stores (db_rows db) F -> In n (db_rows db) -> In target (db_rows db) ->
  prepare_pos_move (is_sorted cfg) p = Ok P ->
  let gt := fun x : node => sorted_after o (m_data n) (ndata x) in
  (P = SortedSibling -> splits gt (siblings_of (m_pk target) F)) ->
  (P = SortedChild -> forall L, kid_list (Some (m_pk target)) F = Some L -> splits gt L) ->
  temp_room cfg (db_rows db) (new_base cfg P target) (m_path n) ->
  move cfg db n target p = Ok (db', n', target') ->
  In n' (db_rows db') /\ m_pk n' = m_pk n /\ m_pk target' = m_pk target /\
  (is_child_pos P = false \/ m_nc target = 0 -> In target' (db_rows db')).
Proof.
  intros S Hn Ht EP gt Sp1 Sp2 Rm E.
  destruct (move_ok cfg radix2 step1 db F n target p P S Hn Ht EP Sp1) as [[_ H]|[_ H]]; auto; [|congruence|].
  { intros EQ. specialize (Sp2 EQ). unfold kid_list in Sp2.
    destruct (kids_of (Some (m_pk target)) F) as [l|]; [apply Sp2; auto|]. exists [], []. cbn. tauto. }
  destruct H as [(db1 & n1 & t1 & E1 & _ & H1 & H2 & H3 & H4 & _)|(H & _)]; [|congruence].
  rewrite E in E1. injection E1 as <- <- <-. auto.
Qed.
End MP.

(** ** Examples: the hypotheses are met and the conclusions have content *)
Local Ltac pick := vm_compute; repeat (first [left; reflexivity | right]).
Lemma no_b (i : nat) l : existsb (Nat.eqb i) l = false -> ~ In i l.
Proof. intros E H. assert (existsb (Nat.eqb i) l = true) by (apply existsb_exists; exists i; rewrite Nat.eqb_refl; auto). congruence. Qed.

Definition nobj (i : nat) (z : Z) : newobj := mkNew i 0 [Some z].
Arguments nobj _ _%Z_scope.

(** C03: the history of the fixture succeeds and has room; the sorted one has failing
    calls (the second and the last). *)
Example C03_example : roomy_run c10 mp_empty ex_calls /\ fst (run (mp_exec c10) mp_empty ex_calls) = ex_db /\
  fold_left (sp_call []) ex_calls Nil = ex_F /\ length (snd (run (mp_exec s10) mp_empty so_calls)) = 8.
Proof.
  split; [|repeat split; vm_compute; reflexivity].
  cbn [roomy_run ex_calls]. repeat split; vm_compute; intros r H; repeat (destruct H as [<-|H]; [apply lt_b; reflexivity|]); destruct H.
Qed.

(** C04: a new node before 5, between 3 and 5; a new child at the end; a new root. *)
Example C04_example :
  In (row ex_db 5) (db_rows ex_db) /\ ~ In 11 (ids ex_F) /\ prepare_pos_add (is_sorted c10) (Some "left") = Ok Left /\
  (exists db' r, add_sibling c10 ex_db (row ex_db 5) (Some "left") (nobj 11 1) = Ok (db', r) /\ m_path r = [0;2;0;2] /\
     map (fun r => (m_pk r, m_path r)) (get_children c10 (db_rows db') (row db' 1)) =
       [(3, [0;2;0;1]); (11, [0;2;0;2]); (5, [0;2;0;3])]) /\
  (exists db' r t', add_child c10 ex_db (row ex_db 2) (nobj 11 1) = Ok (db', r, t') /\ m_path r = [0;3;0;4]) /\
  (exists db' r, add_root c10 ex_db (nobj 11 1) = Ok (db', r) /\ m_path r = [0;4]).
Proof.
  split; [pick|]. split; [apply no_b; vm_compute; reflexivity|]. split; [reflexivity|].
  split; [eexists; eexists|split; [eexists; eexists; eexists|eexists; eexists]]; vm_compute; auto.
Qed.

(** ... and in the sorted tree: 8 goes between 1 (10) and 3 (5) because the order is
    descending. *)
Example C04_sorted_example :
  In (row so_db 3) (db_rows so_db) /\ ~ In 11 (ids so_F) /\ prepare_pos_add (is_sorted s10) None = Ok SortedSibling /\
  splits (gt_new s10 (nobj 11 8)) (siblings_of 3 so_F) /\
  exists db' r, add_sibling s10 so_db (row so_db 3) None (nobj 11 8) = Ok (db', r) /\
    map m_pk (get_children s10 (db_rows db') (row db' 6)) = [1; 11; 3].
Proof.
  split; [pick|]. split; [apply no_b; vm_compute; reflexivity|]. split; [reflexivity|]. split.
  - exists [nd 1 10], [nd 3 5]. split; [reflexivity|]. split; intros x [<-|[]]; reflexivity.
  - eexists; eexists; vm_compute; auto.
Qed.

(** C05: moving the subtree 4(6) from below 2 to the left of 5; moving 9(10) before its
    sibling 4 (uses the temporary path); C38: 2 cannot go below 10. *)
Lemma ex_temp_room q np : temp_room c10 (db_rows ex_db) q np.
Proof.
  intros _ r H _. vm_compute in H. repeat (destruct H as [<-|H]; [apply lt_b; reflexivity|]). destruct H.
Qed.
Example C05_stays_example :
  map nid (siblings_of 9 ex_F) = [4; 9] /\ map nid (siblings_of 2 ex_F) = [7; 1; 2] /\
  move c10 ex_db (row ex_db 9) (row ex_db 9) (Some "right") = Ok (ex_db, row ex_db 9, row ex_db 9) /\
  move c10 ex_db (row ex_db 1) (row ex_db 1) (Some "left") = Ok (ex_db, row ex_db 1, row ex_db 1) /\
  move c10 ex_db (row ex_db 2) (row ex_db 2) (Some "last-sibling") = Ok (ex_db, row ex_db 2, row ex_db 2) /\
  move c10 ex_db (row ex_db 4) (row ex_db 4) (Some "first-sibling") = Ok (ex_db, row ex_db 4, row ex_db 4).
Proof. vm_compute. auto 10. Qed.

Example C05_example :
  In (row ex_db 4) (db_rows ex_db) /\ In (row ex_db 9) (db_rows ex_db) /\ In (row ex_db 5) (db_rows ex_db) /\
  prepare_pos_move (is_sorted c10) (Some "left") = Ok Left /\
  ~ inside ex_F 4 5 Left /\ ~ inside ex_F 9 4 Left /\
  (exists db' n' t', move c10 ex_db (row ex_db 4) (row ex_db 5) (Some "left") = Ok (db', n', t') /\
     map (fun r => (m_pk r, m_path r)) (get_tree (db_rows db') (Some (row db' 1)) None) =
       [(1, [0;2]); (3, [0;2;0;1]); (4, [0;2;0;2]); (6, [0;2;0;2;0;1]); (5, [0;2;0;3])]) /\
  (exists db' n' t', move c10 ex_db (row ex_db 9) (row ex_db 4) (Some "left") = Ok (db', n', t') /\
     map (fun r => (m_pk r, m_path r)) (get_tree (db_rows db') (Some (row db' 2)) None) =
       [(2, [0;3]); (9, [0;3;0;1]); (10, [0;3;0;1;0;1]); (4, [0;3;0;2]); (6, [0;3;0;2;0;1])]).
Proof.
  split; [pick|]. split; [pick|]. split; [pick|]. split; [reflexivity|].
  split; [apply insideb_false; reflexivity|]. split; [apply insideb_false; reflexivity|].
  split; eexists; eexists; eexists; vm_compute; auto.
Qed.
Example C38_mp_example : inside ex_F 2 10 LastChild /\ inside ex_F 2 10 Left /\ inside ex_F 2 2 FirstChild /\
  move c10 ex_db (row ex_db 2) (row ex_db 10) (Some "last-child") = Err InvalidMoveToDescendant /\
  move c10 ex_db (row ex_db 2) (row ex_db 10) (Some "left") = Err InvalidMoveToDescendant /\
  move c10 ex_db (row ex_db 2) (row ex_db 2) (Some "first-child") = Err InvalidMoveToDescendant.
Proof.
  split; [apply insideb_spec; reflexivity|]. split; [apply insideb_spec; reflexivity|].
  split; [apply insideb_spec; reflexivity|]. repeat split; vm_compute; reflexivity.
Qed.

(** C06: deleting 2, its descendant 6 and 5 in one queryset. *)
Example C06_example : let t' := delete_queryset c10 (db_rows ex_db) (fun r => existsb (Nat.eqb (m_pk r)) [2; 6; 5]) in
  map (fun r => (m_pk r, m_path r, m_nc r)) (get_tree t' None None) =
    [(7, [0;1], 0); (1, [0;2], 1); (3, [0;2;0;1], 0)] /\
  map m_pk (get_tree (delete_node c10 (db_rows ex_db) (row ex_db 4)) None None) = [7; 1; 3; 5; 2; 9; 10].
Proof. vm_compute. auto. Qed.

(** C07, C37, C44 *)
Example C07_example : let t := db_rows ex_db in
  map m_pk (get_tree t None (Some 2)) = [7; 1; 3; 5; 2; 4; 9] /\ map m_pk (get_tree t None (Some 0)) = [] /\
  map m_pk (get_descendants t (row ex_db 2) false (Some 1)) = [4; 9] /\
  map m_pk (get_ancestors c10 t (row ex_db 10)) = [2; 9] /\
  option_map m_pk (get_next_sibling c10 t (row ex_db 4)) = Some 9 /\
  option_map m_pk (get_prev_sibling c10 t (row ex_db 1)) = Some 7 /\
  map (fun x => (m_pk (fst x), snd x)) (get_descendants_group_count c10 t None) = [(7, 0); (1, 2); (2, 4)].
Proof. vm_compute. repeat split. Qed.

(** C08: with one character per step and two digits a third child does not fit; neither does
    a grandchild when the column holds two characters. *)
Definition c3 : mp_cfg := mkCfg 3 1 2 [].
Definition c3_db : mp_db := Eval vm_compute in
  fst (run (mp_exec c3) mp_empty [CAddRoot (nd 1 0); CAddRoot (nd 2 0); CAddChild 1 (nd 3 0)]).
Example C08_example :
  add_root c3 c3_db (nobj 9 0) = Err PathOverflow /\ step_taken c3 (db_rows c3_db) [] /\
  add_child c3 c3_db (row c3_db 3) (nobj 9 0) = Err PathOverflow /\ mp_full c3 (db_rows c3_db).
Proof.
  split; [vm_compute; reflexivity|]. split; [exists (row c3_db 2); split; [pick|reflexivity]|].
  split; [vm_compute; reflexivity|]. left. exists [], (row c3_db 2). split; [pick|reflexivity].
Qed.

(** C09, C10: a table with intact paths, wrong depth and numchild. *)
Definition broken : mp_db :=
  mkDB (map (fun r => if m_pk r =? 4 then mkMP 4 (m_path r) 7 5 (m_data r) else set_nc r 0) (db_rows ex_db)) [].
Example C10_example :
  paths_ok c10 (db_rows broken) /\ NoDup (map m_pk (db_rows broken)) /\
  length (find_problems c10 (db_rows broken) None) = 4 /\
  fix_tree c10 broken false None = Ok (mkDB (db_rows ex_db) []).
Proof.
  destruct (proj1 (stores_iff c10 (le_b 2 10 eq_refl) (le_b 1 2 eq_refl) (db_rows ex_db)) (ex_intro _ _ ex_stores)) as (P & _).
  assert (E : map m_path (db_rows broken) = map m_path (db_rows ex_db)) by (vm_compute; reflexivity).
  assert (B : forall r, In r (db_rows broken) -> exists r', In r' (db_rows ex_db) /\ m_path r' = m_path r).
  { intros r Hr. apply (in_map m_path) in Hr. rewrite E in Hr. apply in_map_iff in Hr. destruct Hr as (r' & H1 & H2). eauto. }
  assert (B' : forall r, In r (db_rows ex_db) -> exists r', In r' (db_rows broken) /\ m_path r' = m_path r).
  { intros r Hr. apply (in_map m_path) in Hr. rewrite <- E in Hr. apply in_map_iff in Hr. destruct Hr as (r' & H1 & H2). eauto. }
  split; [|split; [apply nodup_b; vm_compute; reflexivity|split; vm_compute; reflexivity]].
  constructor.
  - intros r Hr. destruct (B r Hr) as (r' & H & <-). apply (po_chars _ _ P); auto.
  - intros r Hr. destruct (B r Hr) as (r' & H & <-). apply (po_len _ _ P); auto.
  - rewrite E. apply (po_uniq _ _ P).
  - intros r Hr. destruct (B r Hr) as (r' & H & <-). apply (po_step _ _ P); auto.
  - intros r Hr. destruct (B r Hr) as (r' & H & <-). destruct (po_par _ _ P r' H) as [|(q & H1 & H2)]; auto.
    right. destruct (B' q H1) as (q' & H3 & H4). exists q'. split; congruence.
Qed.

(** C14: the move of 9 before 4 sends three signals. *)
Example C14_example : exists db' n' t', move c10 ex_db (row ex_db 9) (row ex_db 4) (Some "left") = Ok (db', n', t') /\
  skipn (length (db_sig ex_db)) (db_sig db') =
    [([0;3;0;3], [0;3;0;5]); ([0;3;0;1], [0;3;0;2]); ([0;3;0;5], [0;3;0;1])].
Proof. eexists; eexists; eexists. vm_compute. auto. Qed.

(** C24: the parent of a first child and the moved node. *)
Example C24_mp_example :
  (exists db' r t', add_child c10 ex_db (row ex_db 3) (nobj 11 1) = Ok (db', r, t') /\ t' = row db' 3 /\ m_nc t' = 1) /\
  (exists db' n' t', move c10 ex_db (row ex_db 9) (row ex_db 4) (Some "left") = Ok (db', n', t') /\
     n' = row db' 9 /\ t' = row db' 4 /\ n' <> row ex_db 9).
Proof.
  split; eexists; eexists; eexists; vm_compute; repeat split; try reflexivity. intros H. discriminate.
Qed.

Print Assumptions C03_invariant.
Print Assumptions C03_unique.
Print Assumptions C03_histories.
Print Assumptions C03_histories_room.
Print Assumptions C04_add_root.
Print Assumptions C04_add_child.
Print Assumptions C04_add_sibling.
Print Assumptions C04_add_sibling_position.
Print Assumptions C05_move.
Print Assumptions C38_mp_no_move_inside.
Print Assumptions C06_delete.
Print Assumptions C06_delete_node.
Print Assumptions C07_tree.
Print Assumptions C07_roots.
Print Assumptions C07_children.
Print Assumptions C07_siblings.
Print Assumptions C07_descendants.
Print Assumptions C07_ancestors.
Print Assumptions C07_parent.
Print Assumptions C07_predicates.
Print Assumptions C44_mp_group_counts.
Print Assumptions C08_overflow.
Print Assumptions C09_clean.
Print Assumptions C09_exact_partial.
Print Assumptions C10_fix_tree.
Print Assumptions C10_fix_branch.
Print Assumptions C14_add_sibling.
Print Assumptions C14_add_root.
Print Assumptions C14_add_child.
Print Assumptions C14_move.
Print Assumptions C14_fix_tree.
Print Assumptions C14_delete.
Print Assumptions C24_mp_add_child.
Print Assumptions C24_mp_move.
Print Assumptions C05_stays.
