(** Theorems about nested set trees, ns_tree.py (C16-C21, C23 and the nested set parts of
    C24, C37, C38, C44). *)
From Coq Require Import String List Arith Lia Bool ZArith Sorted Permutation.
From Verif Require Import Prelude Forest SpecFacts SpecSane CommonModel Order History SpecRun
  NSModel NSInv NSReads NSUpd NSAdd NSCut NSMove NSMoveOk NSDelete NSHist NSCheck NSSignals Fixture.
Import ListNotations.
Local Open Scope string_scope.
Local Open Scope list_scope.
Local Open Scope nat_scope.

Lemma stores_wf t F : stores t F -> wf_ids F.
Proof. intros (W & _). exact W. Qed.

Lemma stores_ids t F r : stores t F -> In r t -> In (n_pk r) (ids F).
Proof. intros (W & ts & I & P) Hr. apply (Permutation_in _ (pks _ F ts I P)). apply in_map. auto. Qed.

(** ** The example tables *)
Definition ns_empty : ns_db := mkNSDB [] [].
Definition ex_db : ns_db := Eval vm_compute in fst (run (ns_exec []) ns_empty ex_calls).
Definition so_db : ns_db := Eval vm_compute in fst (run (ns_exec so) ns_empty so_calls).
Definition row (db : ns_db) (i : nat) : nsrow :=
  match get_by_pk (ns_rows db) i with Ok r => r | Err _ => mkNS 0 0 0 0 0 [] end.

Example ex_rows : map (fun r => (n_pk r, (n_tree r, n_lft r, n_rgt r, n_depth r))) (get_tree (ns_rows ex_db) None None) =
  [(7, (1, 1, 2, 1)%Z); (1, (2, 1, 6, 1)%Z); (3, (2, 2, 3, 2)%Z); (5, (2, 4, 5, 2)%Z); (2, (3, 1, 10, 1)%Z);
   (4, (3, 2, 5, 2)%Z); (6, (3, 3, 4, 3)%Z); (9, (3, 6, 9, 2)%Z); (10, (3, 7, 8, 3)%Z)].
Proof. vm_compute. reflexivity. Qed.

Lemma ex_stores : stores (ns_rows ex_db) ex_F.
Proof.
  assert (H := ns_history [] ex_calls ex_new). fold ns_empty in H.
  assert (E : run (ns_exec []) ns_empty ex_calls = (ex_db, ex_calls)) by (vm_compute; reflexivity).
  rewrite E, ex_calls_F in H. apply H.
Qed.
Lemma so_stores : stores (ns_rows so_db) so_F.
Proof.
  assert (H := ns_history so so_calls so_new). fold ns_empty in H.
  assert (E : fst (run (ns_exec so) ns_empty so_calls) = so_db) by (vm_compute; reflexivity).
  destruct (run (ns_exec so) ns_empty so_calls) as [d c]. cbn in E. subst d. rewrite so_calls_F in H. apply H.
Qed.

(** ** C16: histories *)

(** Every history, sorted or not, with failing calls: the same calls succeed as on the
    forest and the table is the numbering of the forest. *)
Theorem C16_histories (o : ordering) (cs : list call) :
  NoDup (flat_map new_ids cs) ->
  let (db, done) := run (ns_exec o) ns_empty cs in
  let (F, done') := run (sp_exec o) Nil cs in
  done = done' /\ stores (ns_rows db) F /\ find_problems (ns_rows db) None = ([], [], [], []).
Proof.
  intros ND. assert (H := ns_history o cs ND). fold ns_empty in H.
  destruct (run (ns_exec o) ns_empty cs) as [db d]. destruct (run (sp_exec o) Nil cs) as [F d'].
  destruct H as (E & S). split; auto. split; auto. apply stores_no_problems with F. auto.
Qed.

(** Each call has exactly the outcome it has on the forest, errors included. *)
Theorem C16_call (o : ordering) db F c : stores (ns_rows db) F -> fresh_call F c ->
  match ns_exec o db c, sp_exec o F c with
  | Ok db', Ok G => stores (ns_rows db') G
  | Err e, Err e' => e = e'
  | _, _ => False
  end.
Proof. intros S Fr. assert (H := ns_call_ok o db F c S Fr). exact H. Qed.

(** ** C17: adding *)
Section NSProps.
Variable o : ordering.
Definition gt_new (x n : node) : bool := sorted_after o (ndata x) (ndata n).

Lemma gt_opt_shape x L1 L2 :
  match gt_opt o (ndata x) with None => L2 = [] | Some g => ins_split (PSorted g) L1 L2 end ->
  if is_sorted o then ins_split (PSorted (gt_new x)) L1 L2 else L2 = [].
Proof. unfold gt_opt. change (is_sorted o) with (sorts o). destruct (sorts o); auto. Qed.

Theorem C17_add_root db F x : stores (ns_rows db) F -> ~ In (nid x) (ids F) ->
  exists db' r G L1 L2, add_root o db x = Ok (db', r) /\ In r (ns_rows db') /\ row_node r = x /\
    stores (ns_rows db') G /\ added F G None x L1 L2 /\
    (if is_sorted o then ins_split (PSorted (gt_new x)) L1 L2 else L2 = []).
Proof.
  intros S Hx. destruct (add_root_ok o db F x S Hx) as (db' & r & E & Hr & Er & S').
  destruct (add_root_sane (gt_opt o (ndata x)) x F (stores_wf _ _ S) Hx) as (L1 & L2 & A & M).
  exists db', r, (sp_add_root (gt_opt o (ndata x)) x F), L1, L2. repeat (split; auto). apply gt_opt_shape. auto.
Qed.

Theorem C17_add_child db F target x : stores (ns_rows db) F -> In (n_pk target) (ids F) -> ~ In (nid x) (ids F) ->
  exists db' r target' G L1 L2, add_child o db target x = Ok (db', r, target') /\ In r (ns_rows db') /\ row_node r = x /\
    stores (ns_rows db') G /\ added F G (Some (n_pk target)) x L1 L2 /\
    (if is_sorted o then ins_split (PSorted (gt_new x)) L1 L2 else L2 = []).
Proof.
  intros S Ht Hx. destruct (add_child_ok o db F target x S Ht Hx) as (db' & r & t' & E & Hr & Er & S' & _).
  destruct (add_child_sane (gt_opt o (ndata x)) (n_pk target) x F (stores_wf _ _ S) Ht Hx) as (L1 & L2 & A & M).
  exists db', r, t', (sp_add_child (gt_opt o (ndata x)) (n_pk target) x F), L1, L2. repeat (split; auto).
  apply gt_opt_shape. auto.
Qed.

(** The target may carry a cached parent, if it is the current row of the parent. *)
Theorem C17_add_sibling db F target p P x : stores (ns_rows db) F -> good_obj (ns_rows db) target ->
  ~ In (nid x) (ids F) -> prepare_pos_add (is_sorted o) p = Ok P ->
  let t := n_pk (o_row target) in
  exists db' r G up L1 L2, add_sibling o db target p x = Ok (db', r) /\ In r (ns_rows db') /\ row_node r = x /\
    stores (ns_rows db') G /\ parent_of t F = Some up /\ added F G up x L1 L2 /\
    ins_split (sib_place P t (gt_new x)) L1 L2.
Proof.
  intros S Ht Hx EP t. destruct (add_sibling_ok o db F target p P x S Ht Hx EP) as (db' & r & E & Hr & Er & S').
  destruct (add_sibling_sane t P (gt_new x) x F (stores_wf _ _ S) (stores_ids _ _ _ S (proj1 Ht)) Hx
    (prepare_add_sib _ _ _ EP)) as (up & L1 & L2 & Ep & A & Sp).
  exists db', r, (sp_add_sibling t P (gt_new x) x F), up, L1, L2. auto 10.
Qed.

(** ** C18, C38, C24: moving *)
Theorem C18_move db F n target p P : stores (ns_rows db) F -> good_obj (ns_rows db) n -> good_obj (ns_rows db) target ->
  prepare_pos_move (is_sorted o) p = Ok P ->
  let i := n_pk (o_row n) in let t := n_pk (o_row target) in
  let gt := fun x : node => sorted_after o (n_data (o_row n)) (ndata x) in
  ~ inside F i t P ->
  exists db' n' target' G, move o db n target p = Ok (db', n', target') /\ stores (ns_rows db') G /\
    (i = t /\ (P = Left \/ P = Right) /\ G = F \/
     exists up a L1 L2,
       (if is_child_pos P then up = Some t else parent_of t F = Some up) /\
       nid a = i /\ SpecSane.moved F G up a L1 L2 /\ ins_split (sib_place P t gt) L1 L2).
Proof.
  intros S Hn Ht EP i t gt NI.
  destruct (move_ok o db F n target p P S Hn Ht EP) as [[H _]|[_ (db' & n' & t' & E & S' & _)]]; [tauto|].
  exists db', n', t', (sp_move i t P gt F). split; auto. split; auto.
  destruct (move_sane i t P gt F (stores_wf _ _ S) (stores_ids _ _ _ S (proj1 Hn)) (stores_ids _ _ _ S (proj1 Ht)) NI); auto.
Qed.

Theorem C38_ns_no_move_inside db F n target p P : stores (ns_rows db) F -> good_obj (ns_rows db) n ->
  good_obj (ns_rows db) target -> prepare_pos_move (is_sorted o) p = Ok P ->
  move o db n target p = Err InvalidMoveToDescendant <->
  descends F (n_pk (o_row n)) (n_pk (o_row target)) \/
  (n_pk (o_row n) = n_pk (o_row target) /\ is_child_pos P = true).
Proof.
  intros S Hn Ht EP. assert (H := move_ok o db F n target p P S Hn Ht EP). cbv zeta in H. unfold inside in H.
  destruct H as [[H1 H2]|[H1 (a & b & c & E & _)]]; [tauto|]. rewrite E. split; [discriminate|tauto].
Qed.

(** After a move the caller's two objects are current, cached parents included. *)
Theorem C24_ns_move db F n target p db' n' target' : stores (ns_rows db) F -> good_obj (ns_rows db) n ->
  good_obj (ns_rows db) target -> move o db n target p = Ok (db', n', target') ->
  good_obj (ns_rows db') n' /\ n_pk (o_row n') = n_pk (o_row n) /\
  good_obj (ns_rows db') target' /\ n_pk (o_row target') = n_pk (o_row target).
Proof.
  intros S Hn Ht E. destruct (prepare_pos_move (is_sorted o) p) as [P|e] eqn:EP.
  - assert (H := move_ok o db F n target p P S Hn Ht EP). cbv zeta in H.
    destruct H as [[_ H]|[_ (d1 & n1 & t1 & E1 & _ & H)]]; [congruence|]. rewrite E in E1. injection E1 as <- <- <-. tauto.
  - unfold move in E. rewrite EP in E. discriminate.
Qed.

(** The parent object given to add_child is current afterwards if it was a leaf
    (otherwise its rgt is wrong, C24_ns_add_child_refuted). *)
Theorem C24_ns_add_child_partial db F target x db' r target' : stores (ns_rows db) F -> In target (ns_rows db) ->
  ~ In (nid x) (ids F) -> is_leaf target = true -> add_child o db target x = Ok (db', r, target') ->
  In target' (ns_rows db') /\ In r (ns_rows db').
Proof.
  intros S Ht Hx Lf E.
  destruct (add_child_ok o db F target x S (stores_ids _ _ _ S Ht) Hx) as (d1 & r1 & t1 & E1 & Hr & _ & _ & H).
  rewrite E in E1. injection E1 as <- <- <-. auto.
Qed.
End NSProps.

(** ** C19: deleting *)
Theorem C19_delete db F (sel : nsrow -> bool) : stores (ns_rows db) F ->
  let S i := existsb (fun r => (n_pk r =? i) && sel r) (ns_rows db) in
  exists G, stores (ns_rows (delete_queryset db sel)) G /\
    kid_list None G = option_map (filter (fun x => negb (S (nid x)))) (kid_list None F) /\
    (forall q A, ancestors_of q F = Some A -> kid_list (Some q) G =
       if S q || existsb (fun a => S (nid a)) A then None
       else option_map (filter (fun x => negb (S (nid x)))) (kid_list (Some q) F)).
Proof.
  intros St S. exists (remove_all S F). split; [apply delete_queryset_ok; auto|].
  split; [apply SpecSane.remove_all_roots|]. intros q A E. apply remove_all_sane; auto. apply (stores_wf _ _ St).
Qed.

Theorem C19_delete_node db F n : stores (ns_rows db) F -> In n (ns_rows db) ->
  stores (ns_rows (delete_node db n)) (remove (n_pk n) F).
Proof. apply delete_node_ok. Qed.

(** ** C20, C37, C44: reading *)
Theorem C20_tree t F d : stores t F ->
  map row_node (get_tree t None (option_map Z.of_nat d)) = preorder (prune_opt (levels d) F) /\
  (forall r, In r (get_tree t None (option_map Z.of_nat d)) -> In r t).
Proof. apply tree_read. Qed.

Theorem C20_roots t F : stores t F ->
  map row_node (get_root_nodes t) = roots F /\ (forall x, In x (get_root_nodes t) -> In x t) /\
  option_map row_node (get_first_root_node t) = hd_error (roots F) /\
  option_map row_node (get_last_root_node t) = last_opt (roots F).
Proof. apply roots_read. Qed.

Lemma hd_map {A B} (f : A -> B) l : option_map f (hd_error l) = hd_error (map f l).
Proof. destruct l; auto. Qed.
Lemma last_map {A B} (f : A -> B) l : option_map f (last_opt l) = last_opt (map f l).
Proof. unfold last_opt. rewrite <- map_rev. apply hd_map. Qed.

Theorem C20_children t F r : stores t F -> In r t -> exists k, kid_list (Some (n_pk r)) F = Some k /\
  map row_node (get_children t r) = k /\ get_children_count t r = length k /\ (is_leaf r = true <-> k = []) /\
  option_map row_node (get_first_child t r) = hd_error k /\ option_map row_node (get_last_child t r) = last_opt k /\
  (forall x, In x (get_children t r) -> In x t).
Proof.
  intros S Hr. destruct (children_read t F r S Hr) as (k & E & E1 & E2 & E3 & E4).
  exists (roots k). unfold kid_list. cbn [kids_of]. rewrite E. repeat (split; auto).
  - rewrite E3. destruct k; cbn; congruence.
  - rewrite E3. destruct k; cbn; congruence.
  - unfold get_first_child. rewrite hd_map, E1. auto.
  - unfold get_last_child. rewrite last_map, E1. auto.
Qed.

Theorem C20_siblings t F r : stores t F -> In r t ->
  exists L first last next prev,
    get_siblings t r = Ok L /\ map row_node L = siblings_of (n_pk r) F /\
    get_first_sibling t r = Ok first /\ option_map row_node first = hd_error (siblings_of (n_pk r) F) /\
    get_last_sibling t r = Ok last /\ option_map row_node last = last_opt (siblings_of (n_pk r) F) /\
    get_next_sibling t r = Ok next /\ option_map row_node next = next_of (n_pk r) (siblings_of (n_pk r) F) /\
    get_prev_sibling t r = Ok prev /\ option_map row_node prev = prev_of (n_pk r) (siblings_of (n_pk r) F).
Proof.
  intros S Hr. destruct (siblings_read t F r S Hr) as (L & E & EL & _).
  destruct (neighbours_read t F r S Hr) as ((n & N1 & N2 & _) & (q & P1 & P2 & _)).
  exists L, (hd_error L), (last_opt L), n, q. unfold get_first_sibling, get_last_sibling. rewrite E. cbn [bind].
  rewrite hd_map, last_map, EL. auto 12.
Qed.

(** A move of a node to where it is writes nothing and sends no signal. *)
Theorem C18_stays o db F n p P : stores (ns_rows db) F -> In (o_row n) (ns_rows db) ->
  prepare_pos_move (is_sorted o) p = Ok P ->
  let i := n_pk (o_row n) in let S := siblings_of i F in
  P = Left \/ (P = Right \/ P = LastSibling) /\ option_map nid (last_opt S) = Some i \/
  P = FirstSibling /\ option_map nid (hd_error S) = Some i ->
  move o db n n p = Ok (db, n, n).
Proof.
  intros St Hn EP i S H. unfold move. rewrite EP. cbn [bind].
  destruct (C20_siblings (ns_rows db) F (o_row n) St Hn) as (_ & first & last & _ & _ & _ & _ & E1 & E2 & E3 & E4 & _).
  assert (D : is_descendant_of (o_row n) (o_row n) = false) by (unfold is_descendant_of; rewrite Z.ltb_irrefl, andb_false_r; auto).
  assert (R : forall a, option_map nid (option_map row_node a) = Some i -> same_pk (o_row n) a = true).
  { intros [a|] Q; [|discriminate]. cbn in Q. injection Q as Q. cbn. rewrite Q. apply Nat.eqb_refl. }
  fold i in E2, E4. fold S in E2, E4.
  assert (K : move_target (ns_rows db) (o_row n) n P = Ok (None, n, P) /\ move_is_noop (ns_rows db) (o_row n) n P = Ok true).
  { unfold move_is_noop. rewrite Nat.eqb_refl, E1, E3. cbn [bind].
    destruct H as [->|[[[->| ->] H]|[-> H]]]; split; auto; rewrite <- ?E2, <- ?E4 in H; rewrite (R _ H); auto. }
  destruct K as [K1 K2]. rewrite K1. cbn [bind]. rewrite D, K2. reflexivity.
Qed.

Theorem C20_descendants t F r d : stores t F -> In r t -> exists k, children_of (n_pk r) F = Some k /\
  let m := option_map Z.of_nat d in let K := preorder (prune_opt (levels d) k) in
  map row_node (get_tree t (Some r) m) = row_node r :: K /\
  map row_node (get_descendants t r true m) = row_node r :: K /\
  map row_node (get_descendants t r false m) = K /\
  get_descendant_count t r m = Z.of_nat (size (prune_opt (levels d) k)) /\
  (forall x, In x (get_tree t (Some r) m) -> In x t).
Proof. apply descendants_read. Qed.

Theorem C20_ancestors t F r : stores t F -> In r t -> exists L, ancestors_of (n_pk r) F = Some L /\
  map row_node (get_ancestors t r) = L /\ n_depth r = (1 + Z.of_nat (length L))%Z /\ (is_root r = true <-> L = []) /\
  (exists x, get_root t r = Ok x /\ In x t /\ row_node x = hd (row_node r) L).
Proof.
  intros S Hr. destruct (ancestors_read t F r S Hr) as (L & E & E1 & E2 & E3 & _).
  exists L. do 4 (split; auto).
  destruct (root_read t F r S Hr) as (x & L' & R1 & R2 & R3 & R4). exists x. split; auto. split; auto. congruence.
Qed.

Theorem C20_parent t F r : stores t F -> In r t -> exists q, get_parent t (fresh r) = Ok q /\
  parent_of (n_pk r) F = Some (option_map n_pk q) /\ (forall x, q = Some x -> In x t).
Proof. apply parent_read. Qed.

Theorem C20_predicates t F r n : stores t F -> In r t -> In n t ->
  (is_child_of t r n = true <-> parent_of (n_pk r) F = Some (Some (n_pk n))) /\
  (exists b, is_sibling_of t r n = Ok b /\ (b = true <-> parent_of (n_pk r) F = parent_of (n_pk n) F)) /\
  (is_descendant_of r n = true <-> descends F (n_pk n) (n_pk r)).
Proof. intros S Hr Hn. split; [apply child_read|split; [apply sibling_read|apply (descendant_read t)]]; auto. Qed.

Theorem C44_ns_group_counts t F parent : stores t F -> (forall p, parent = Some p -> In p t) ->
  exists l, kid_list (option_map n_pk parent) F = Some l /\
  map (fun x => (row_node (fst x), snd x)) (get_descendants_group_count t parent) =
  map (fun a => (a, match children_of (nid a) F with Some k => Z.of_nat (size k) | None => 0%Z end)) l.
Proof.
  intros S Hp. destruct (group_count_read t F parent S Hp) as (l & E & G).
  exists (roots l). unfold kid_list. rewrite E. auto.
Qed.

(** ** C21: find_problems *)
Theorem C21_exact t parent : NoDup (map n_pk t) ->
  find_problems t parent = ([], [], [], []) <-> well_nested (fp_base t parent) (fp_rows t parent).
Proof. apply find_problems_exact. Qed.

Theorem C21_no_false_alarm t F : stores t F -> find_problems t None = ([], [], [], []) /\ well_nested 0 t.
Proof. intros S. split; [apply (stores_no_problems t F S)|apply (stores_well_nested t F S)]. Qed.

(** ** C23: signals *)
Theorem C23_add_sibling o db F target p x db' r : stores (ns_rows db) F -> ~ In (nid x) (ids F) ->
  add_sibling o db target p x = Ok (db', r) -> exists rows, heard db db' rows /\ ns_rows db' = r :: rows.
Proof. intros S. apply (add_sibling_heard o db F S). Qed.
Theorem C23_add_root o db F x db' r : stores (ns_rows db) F -> ~ In (nid x) (ids F) ->
  add_root o db x = Ok (db', r) -> exists rows, heard db db' rows /\ ns_rows db' = r :: rows.
Proof. intros S. apply (add_root_heard o db F S). Qed.
Theorem C23_add_child o db F target x db' r tg : stores (ns_rows db) F -> ~ In (nid x) (ids F) ->
  add_child o db target x = Ok (db', r, tg) -> exists rows, heard db db' rows /\ ns_rows db' = r :: rows.
Proof. intros S. apply (add_child_heard o db F S). Qed.
Theorem C23_move o db F n target p db' n' target' : stores (ns_rows db) F -> In (o_row n) (ns_rows db) ->
  move o db n target p = Ok (db', n', target') -> heard db db' (ns_rows db').
Proof. intros S. apply (move_heard o db F S). Qed.
Theorem C23_delete db F sel : stores (ns_rows db) F ->
  heard db (delete_queryset db sel) (ns_rows (delete_queryset db sel)).
Proof. intros S. apply (delete_queryset_heard db F S). Qed.

(** ** Examples *)
Local Ltac pick := vm_compute; repeat (first [left; reflexivity | right]).
Lemma no_b (i : nat) l : existsb (Nat.eqb i) l = false -> ~ In i l.
Proof. intros E H. assert (existsb (Nat.eqb i) l = true) by (apply existsb_exists; exists i; rewrite Nat.eqb_refl; auto). congruence. Qed.

Example C16_example : run (ns_exec []) ns_empty ex_calls = (ex_db, ex_calls) /\
  length (snd (run (ns_exec so) ns_empty so_calls)) = 8.
Proof. split; vm_compute; reflexivity. Qed.

Example C17_example :
  good_obj (ns_rows ex_db) (fresh (row ex_db 4)) /\ good_obj (ns_rows ex_db) (mkObj (row ex_db 4) (Some (row ex_db 2))) /\
  ~ In 11 (ids ex_F) /\
  (exists db' r, add_sibling [] ex_db (fresh (row ex_db 4)) (Some "right") (nd 11 1) = Ok (db', r) /\
     map n_pk (get_tree (ns_rows db') (Some (row db' 2)) None) = [2; 4; 6; 11; 9; 10]) /\
  (exists db' r, add_sibling so so_db (fresh (row so_db 3)) None (nd 11 8) = Ok (db', r) /\
     map n_pk (get_tree (ns_rows db') None None) = [2; 6; 1; 4; 5; 11; 3]) /\
  (exists db' r t', add_child [] ex_db (row ex_db 2) (nd 11 1) = Ok (db', r, t') /\
     map n_pk (get_children (ns_rows db') (row db' 2)) = [4; 9; 11]) /\
  (exists db' r, add_root [] ex_db (nd 11 1) = Ok (db', r) /\ map n_pk (get_root_nodes (ns_rows db')) = [7; 1; 2; 11]).
Proof.
  split; [split; [pick|discriminate]|]. split.
  { split; [pick|]. intros y E. injection E as <-. vm_compute. reflexivity. }
  split; [apply no_b; vm_compute; reflexivity|].
  split; [eexists; eexists|split; [eexists; eexists|split; [eexists; eexists; eexists|eexists; eexists]]]; vm_compute; auto.
Qed.

(** Within a tree to the left, to another tree, to the root level. *)
Example C18_stays_example :
  map nid (siblings_of 9 ex_F) = [4; 9] /\ map nid (siblings_of 4 ex_F) = [4; 9] /\ map nid (siblings_of 2 ex_F) = [7; 1; 2] /\
  move [] ex_db (fresh (row ex_db 9)) (fresh (row ex_db 9)) (Some "right") = Ok (ex_db, fresh (row ex_db 9), fresh (row ex_db 9)) /\
  move [] ex_db (fresh (row ex_db 1)) (fresh (row ex_db 1)) (Some "left") = Ok (ex_db, fresh (row ex_db 1), fresh (row ex_db 1)) /\
  move [] ex_db (fresh (row ex_db 2)) (fresh (row ex_db 2)) (Some "last-sibling") = Ok (ex_db, fresh (row ex_db 2), fresh (row ex_db 2)) /\
  move [] ex_db (fresh (row ex_db 4)) (fresh (row ex_db 4)) (Some "first-sibling") = Ok (ex_db, fresh (row ex_db 4), fresh (row ex_db 4)).
Proof. vm_compute. auto 10. Qed.

Example C18_example :
  ~ inside ex_F 9 4 Left /\ ~ inside ex_F 4 5 FirstSibling /\ ~ inside ex_F 4 7 Right /\
  (exists db' n' t', move [] ex_db (fresh (row ex_db 9)) (fresh (row ex_db 4)) (Some "left") = Ok (db', n', t') /\
     map n_pk (get_tree (ns_rows db') None None) = [7; 1; 3; 5; 2; 9; 10; 4; 6]) /\
  (exists db' n' t', move [] ex_db (fresh (row ex_db 4)) (fresh (row ex_db 5)) (Some "first-sibling") = Ok (db', n', t') /\
     map n_pk (get_tree (ns_rows db') None None) = [7; 1; 4; 6; 3; 5; 2; 9; 10]) /\
  (exists db' n' t', move [] ex_db (fresh (row ex_db 4)) (fresh (row ex_db 7)) (Some "right") = Ok (db', n', t') /\
     map n_pk (get_root_nodes (ns_rows db')) = [7; 4; 1; 2] /\ o_row n' = row db' 4).
Proof.
  split; [apply insideb_false; reflexivity|]. split; [apply insideb_false; reflexivity|].
  split; [apply insideb_false; reflexivity|].
  split; [|split]; eexists; eexists; eexists; vm_compute; auto.
Qed.

Example C38_ns_example : inside ex_F 2 10 Left /\
  move [] ex_db (fresh (row ex_db 2)) (fresh (row ex_db 10)) (Some "left") = Err InvalidMoveToDescendant /\
  move [] ex_db (fresh (row ex_db 2)) (fresh (row ex_db 2)) (Some "last-child") = Err InvalidMoveToDescendant.
Proof. split; [apply insideb_spec; reflexivity|]. split; vm_compute; reflexivity. Qed.

Example C19_example :
  map (fun r => (n_pk r, (n_tree r, n_lft r, n_rgt r)%Z))
    (get_tree (ns_rows (delete_queryset ex_db (fun r => existsb (Nat.eqb (n_pk r)) [4; 6; 5]))) None None) =
    [(7, (1, 1, 2)%Z); (1, (2, 1, 4)%Z); (3, (2, 2, 3)%Z); (2, (3, 1, 6)%Z); (9, (3, 2, 5)%Z); (10, (3, 3, 4)%Z)] /\
  map n_pk (get_tree (ns_rows (delete_node ex_db (row ex_db 2))) None None) = [7; 1; 3; 5].
Proof. split; vm_compute; reflexivity. Qed.

Example C20_example : let t := ns_rows ex_db in
  map n_pk (get_tree t None (Some 2%Z)) = [7; 1; 3; 5; 2; 4; 9] /\
  map n_pk (get_descendants t (row ex_db 2) false (Some 1%Z)) = [4; 9] /\
  map n_pk (get_ancestors t (row ex_db 10)) = [2; 9] /\
  map (fun x => (n_pk (fst x), snd x)) (get_descendants_group_count t None) = [(7, 0%Z); (1, 2%Z); (2, 4%Z)].
Proof. vm_compute. repeat split. Qed.

(** A table with problems: 6 sticks out of 4. *)
Example C21_example :
  let t := map (fun r => if n_pk r =? 6 then set_rgt r 7 else r) (ns_rows ex_db) in
  NoDup (map n_pk t) /\ find_problems t None <> ([], [], [], []).
Proof. split; [apply nodup_b; vm_compute; reflexivity|]. vm_compute. discriminate. Qed.

Example C23_example : exists db' n' t',
  move [] ex_db (fresh (row ex_db 9)) (fresh (row ex_db 4)) (Some "left") = Ok (db', n', t') /\
  skipn (length (ns_sigs ex_db)) (ns_sigs db') =
    [GapAltered 3 2 4; SubtreeMoved 3 10 13 3 (-8) 0; GapAltered 3 10 (-4)].
Proof. eexists; eexists; eexists. vm_compute. auto. Qed.

Example C24_ns_example : exists db' r t', add_child [] ex_db (row ex_db 3) (nd 11 1) = Ok (db', r, t') /\
  is_leaf (row ex_db 3) = true /\ t' = row db' 3 /\ n_rgt t' = 5%Z.
Proof. eexists; eexists; eexists. vm_compute. auto. Qed.

Print Assumptions C16_histories.
Print Assumptions C16_call.
Print Assumptions C17_add_root.
Print Assumptions C17_add_child.
Print Assumptions C17_add_sibling.
Print Assumptions C18_move.
Print Assumptions C38_ns_no_move_inside.
Print Assumptions C24_ns_move.
Print Assumptions C24_ns_add_child_partial.
Print Assumptions C19_delete.
Print Assumptions C19_delete_node.
Print Assumptions C20_tree.
Print Assumptions C20_roots.
Print Assumptions C20_children.
Print Assumptions C20_siblings.
Print Assumptions C20_descendants.
Print Assumptions C20_ancestors.
Print Assumptions C20_parent.
Print Assumptions C20_predicates.
Print Assumptions C44_ns_group_counts.
Print Assumptions C21_exact.
Print Assumptions C21_no_false_alarm.
Print Assumptions C23_add_sibling.
Print Assumptions C23_add_root.
Print Assumptions C23_add_child.
Print Assumptions C23_move.
Print Assumptions C23_delete.
Print Assumptions C18_stays.
