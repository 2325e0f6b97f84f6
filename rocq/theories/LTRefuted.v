(** Claims that are false of the ltree model, with computed witnesses. *)
From Coq Require Import String Ascii List Arith Lia Bool ZArith Permutation.
From Verif Require Import Prelude Forest SpecFacts CommonModel Order History SpecKids SpecPerm
  LTModel LTLabel LTInv LTAdd LTMove LTReads LTHist LTCalm LTCheck LTText LTTextFacts Fixture PropsLT.
Import ListNotations.
Local Open Scope string_scope.
Local Open Scope list_scope.
Local Open Scope nat_scope.

Lemma fresh_b (F : forest node) i : existsb (Nat.eqb i) (ids F) = false -> ~ In i (ids F).
Proof. apply no_b. Qed.

(** What a history from the empty table stores. *)
Lemma run_stores cfg cs db ok : 2 <= label_max cfg -> NoDup (flat_map new_ids cs) -> run (lt_exec cfg) lt_empty cs = (db, ok) ->
  exists G, stores cfg (lt_rows db) G.
Proof.
  intros M ND E. assert (H := C30_histories_partial cfg cs M ND). rewrite E in H. destruct H as (G & H & _). eauto.
Qed.

(** ** add_root after a deletion, /repo/treebeard/ltree/__init__.py:162-189
    The generator fills the first free letter: the new root is the first one. *)
Definition hole_calls : list call := [CAddRoot (nd 1 0); CAddRoot (nd 2 0); CDelete [1]].
Theorem C30_add_root_refuted : exists db F x db' r G,
  stores c0 (lt_rows db) F /\ ~ In (nid x) (ids F) /\ roots F = [nd 2 0] /\
  add_root c0 db (new_of x) = Ok (db', r) /\ stores c0 (lt_rows db') G /\ roots G = [x; nd 2 0].
Proof.
  destruct (run_stores c0 hole_calls _ _ ltac:(cbn; lia) ltac:(apply nodup_b; vm_compute; reflexivity) eq_refl) as (F & St).
  set (db := fst (run (lt_exec c0) lt_empty hole_calls)).
  assert (St' : stores c0 (lt_rows db) F) by exact St. clear St.
  assert (E : roots F = [nd 2 0]) by (rewrite <- (C32_roots c0 _ _ St'); vm_compute; reflexivity).
  assert (Hx : ~ In 3 (ids F)).
  { intros H. assert (X : In 3 (map l_pk (lt_rows db))).
    { destruct St' as (f & L & <- & _). apply (Permutation_in _ (Permutation_sym (lay_pks c0 _ _ L))). auto. }
    revert X. apply no_b. vm_compute. reflexivity. }
  destruct (C30_add_root_partial c0 ltac:(cbn; lia) db F (nd 3 0) St' Hx) as [(db' & r & G & S & L1 & L2 & E1 & _ & _ & _ & _ & SG & _)|[[H _]|[H _]]].
  - exists db, F, (nd 3 0), db', r, G. split; auto. split; auto. split; auto. split; auto. split; auto.
    rewrite <- (C32_roots c0 _ _ SG). vm_compute in E1. injection E1 as <- _. vm_compute. reflexivity.
  - vm_compute in H. discriminate.
  - vm_compute in H. discriminate.
Qed.

(** The same with node_order_by, at the end of the list: 1 and 3 were added in order, 1 is
    deleted, and 5 lands before 3. *)
Definition up1 : ordering := [(0, false)].
Definition c1 : lt_cfg := mkLTCfg up1 255.
Definition hole_calls_sorted : list call := [CAddRoot (nd 1 1); CAddRoot (nd 2 3); CDelete [1]].
Theorem C30_sorted_refuted : exists db F x db' r G a b,
  stores c1 (lt_rows db) F /\ ~ In (nid x) (ids F) /\ ordered up1 F /\
  add_root c1 db (new_of x) = Ok (db', r) /\ stores c1 (lt_rows db') G /\
  roots G = [a; b] /\ sorted_after up1 (ndata b) (ndata a) = true.
Proof.
  destruct (run_stores c1 hole_calls_sorted _ _ ltac:(cbn; lia) ltac:(apply nodup_b; vm_compute; reflexivity) eq_refl) as (F & St).
  set (db := fst (run (lt_exec c1) lt_empty hole_calls_sorted)).
  assert (St' : stores c1 (lt_rows db) F) by exact St. clear St.
  assert (St2 : stores c1 (lt_rows db) (Cons (nd 2 3) Nil Nil)).
  { exists (Cons ([[11]], nd 2 3) Nil Nil). split; [|split; [reflexivity|repeat constructor; intros []]].
    split; [|split]; [repeat split; repeat constructor| |vm_compute; auto].
    repeat constructor; discriminate. }
  assert (F = Cons (nd 2 3) Nil Nil) by (eapply C30_unique; eauto). subst F.
  destruct (C30_add_root_partial c1 ltac:(cbn; lia) db _ (nd 3 5) St' ltac:(apply no_b; reflexivity))
    as [(db' & r & G & S & L1 & L2 & E1 & _ & _ & _ & _ & SG & _)|[[H _]|[H _]]].
  - exists db, (Cons (nd 2 3) Nil Nil), (nd 3 5), db', r, G, (nd 3 5), (nd 2 3). split; auto.
    split; [apply no_b; reflexivity|]. split; [intros _; split; [cbn; repeat split; constructor|]; repeat constructor; intros i d [E|[]]; injection E as <- <-; discriminate|]. split; auto. split; auto.
    split; [|reflexivity]. rewrite <- (C32_roots c1 _ _ SG). vm_compute in E1. injection E1 as <- _. vm_compute. reflexivity.
  - vm_compute in H. discriminate.
  - vm_compute in H. discriminate.
Qed.

(** ** Making room swaps siblings, /repo/treebeard/ltree/__init__.py:434-475
    Appending "A" to the labels "0" and "00" gives "0A" and "00A", which are in the other
    order.  Five calls without any deletion. *)
Definition swap_calls : list call :=
  [CAddRoot (nd 1 0); CAddSibling 1 (Some "left") (nd 2 0); CAddSibling 2 (Some "left") (nd 3 0);
   CAddSibling 3 (Some "right") (nd 4 0); CAddSibling 3 (Some "left") (nd 5 0)].
Theorem C30_add_sibling_refuted : exists db F target x db' r G,
  stores c0 (lt_rows db) F /\ In target (lt_rows db) /\ ~ In (nid x) (ids F) /\
  map nid (roots F) = [3; 4; 2; 1] /\ l_pk target = 3 /\ nid x = 5 /\
  add_sibling c0 db target (Some "left") (new_of x) = Ok (db', r) /\ stores c0 (lt_rows db') G /\
  map nid (roots G) = [5; 4; 3; 2; 1].
Proof.
  destruct (run_stores c0 (firstn 4 swap_calls) _ _ ltac:(cbn; lia) ltac:(apply nodup_b; vm_compute; reflexivity) eq_refl) as (F & St).
  set (db := fst (run (lt_exec c0) lt_empty (firstn 4 swap_calls))).
  assert (St' : stores c0 (lt_rows db) F) by exact St. clear St.
  assert (E : map nid (roots F) = [3; 4; 2; 1]) by (rewrite <- (C32_roots c0 _ _ St'); vm_compute; reflexivity).
  assert (Hx : ~ In 5 (ids F)).
  { intros H. assert (X : In 5 (map l_pk (lt_rows db))).
    { destruct St' as (f & L & <- & _). apply (Permutation_in _ (Permutation_sym (lay_pks c0 _ _ L))). auto. }
    revert X. apply no_b. vm_compute. reflexivity. }
  assert (Ht : In (row db 3) (lt_rows db)) by (vm_compute; tauto).
  destruct (C30_add_sibling_partial c0 ltac:(cbn; lia) db F (row db 3) (Some "left") Left (nd 5 0) St' Ht Hx eq_refl)
    as [(db' & r & G & S & up & L1 & L2 & E1 & _ & _ & _ & _ & _ & SG & _)|[[H _]|[H _]]].
  - exists db, F, (row db 3), (nd 5 0), db', r, G. split; auto. split; auto. split; auto. split; auto. split; [reflexivity|].
    split; [reflexivity|]. split; auto. split; auto.
    rewrite <- (C32_roots c0 _ _ SG). vm_compute in E1. injection E1 as <- _. vm_compute. reflexivity.
  - vm_compute in H. discriminate.
  - vm_compute in H. discriminate.
Qed.

(** Hence a history of successful additions need not give the documented forest. *)
Theorem C30_histories_refuted : exists cs db F, NoDup (flat_map new_ids cs) /\
  run (lt_exec c0) lt_empty cs = (db, cs) /\ run (sp_exec []) Nil cs = (F, cs) /\ ~ stores c0 (lt_rows db) F.
Proof.
  exists swap_calls. eexists. eexists. split; [apply nodup_b; vm_compute; reflexivity|].
  split; [vm_compute; reflexivity|]. split; [vm_compute; reflexivity|]. intros St.
  assert (X := C32_roots c0 _ _ St). vm_compute in X. discriminate.
Qed.

(** ... and moving before the first sibling swaps the others. *)
Theorem C31_move_refuted : exists db F n target db' n' G,
  stores c0 (lt_rows db) F /\ In n (lt_rows db) /\ In target (lt_rows db) /\ ~ inside F (l_pk n) (l_pk target) Left /\
  map nid (roots F) = [3; 4; 2; 1] /\ l_pk n = 1 /\ l_pk target = 3 /\
  move c0 db n target (Some "left") = Ok (db', n') /\ stores c0 (lt_rows db') G /\
  map nid (roots G) = [1; 4; 3; 2].
Proof.
  destruct (run_stores c0 (firstn 4 swap_calls) _ _ ltac:(cbn; lia) ltac:(apply nodup_b; vm_compute; reflexivity) eq_refl) as (F & St).
  set (db := fst (run (lt_exec c0) lt_empty (firstn 4 swap_calls))).
  assert (St' : stores c0 (lt_rows db) F) by exact St. clear St.
  assert (E : map nid (roots F) = [3; 4; 2; 1]) by (rewrite <- (C32_roots c0 _ _ St'); vm_compute; reflexivity).
  assert (Hn : In (row db 1) (lt_rows db)) by (vm_compute; tauto).
  assert (Ht : In (row db 3) (lt_rows db)) by (vm_compute; tauto).
  assert (NI : ~ inside F (l_pk (row db 1)) (l_pk (row db 3)) Left).
  { intros [H|[_ H]]; [|discriminate]. apply (C32_predicates c0 _ _ _ _ St' Ht Hn) in H. vm_compute in H. discriminate. }
  destruct (C31_move_partial c0 ltac:(cbn; lia) db F (row db 1) (row db 3) (Some "left") Left St' Hn Ht eq_refl NI)
    as [(db' & r & G & S & E1 & _ & _ & _ & SG & _)|[[H _]|[H _]]].
  - exists db, F, (row db 1), (row db 3), db', r, G. do 4 (split; [assumption|]). split; auto. split; [reflexivity|].
    split; [reflexivity|]. split; auto. split; auto.
    rewrite <- (C32_roots c0 _ _ SG). vm_compute in E1. injection E1 as <- _. vm_compute. reflexivity.
  - vm_compute in H. discriminate.
  - vm_compute in H. discriminate.
Qed.

(** ** The letters run out: the 27th label is after the first, the 703rd is refused,
    /repo/treebeard/ltree/__init__.py:30-78 *)
Theorem C29_order_refuted :
  generate_label (map (fun c => [c]) upper26) None None = Ok [10; 10] /\
  lblt [10; 10] [11] = true /\ In [11] (map (fun c => [c]) upper26).
Proof. split; [vm_compute; reflexivity|]. split; [reflexivity|]. vm_compute. tauto. Qed.

Theorem C29_roots_refuted : exists skip : list label, length skip = 702 /\ NoDup skip /\
  Forall (fun l => l <> [] /\ Forall (fun c => c < 36) l) skip /\ generate_label skip None None = Err ValueError.
Proof.
  exists all_letters. split; [vm_compute; reflexivity|]. split; [apply all_letters_nodup|]. split; [|vm_compute; reflexivity].
  apply Forall_forall. intros l Hl. apply all_letters_letters in Hl. destruct Hl as [H1 H2]. split.
  - intros ->. destruct H1; discriminate.
  - eapply Forall_impl; [|exact H2]. intros c Hc. cbn in Hc. lia.
Qed.

(** ** Each insertion before the first sibling lengthens all labels: with a limit of m
    the (m+2)nd call fails (computed for m = 6; PostgreSQL has 255 or 1000). *)
Definition first_calls (n : nat) : list call :=
  CAddRoot (nd 1 0) :: map (fun i => CAddSibling i (Some "left") (nd (S i) 0)) (seq 1 n).
Theorem C30_room_refuted : exists db, NoDup (flat_map new_ids (first_calls 7)) /\
  run (lt_exec (mkLTCfg [] 6)) lt_empty (first_calls 7) = (db, first_calls 6) /\
  lt_exec (mkLTCfg [] 6) db (CAddSibling 7 (Some "left") (nd 8 0)) = Err DataError.
Proof. eexists. split; [apply nodup_b; vm_compute; reflexivity|]. split; vm_compute; reflexivity. Qed.

(** ** max_depth=0 is no limit, and a negative one leaves out even the node itself,
    /repo/treebeard/ltree/__init__.py:141-160 *)
Theorem C37_lt_zero_refuted : exists t F r, stores c0 t F /\ In r t /\
  map l_pk (get_tree t (Some r) (Some 0%Z)) = [2; 4; 6; 9; 10] /\
  get_tree t (Some r) (Some (-1)%Z) = [].
Proof.
  exists (lt_rows ex_db), ex_F, (row ex_db 2). split; [apply ex_stores|]. split; [vm_compute; tauto|].
  split; vm_compute; reflexivity.
Qed.

(** ** A blank text is the path of one empty label, whose text is read as the empty path,
    /repo/treebeard/ltree/fields.py:22-31 *)
Theorem C33_blank_refuted : exists s p, path_value (VStr s) = Ok p /\ path_value (VStr (path_str p)) <> Ok p.
Proof. exists (txt "  "), [[]]. split; [reflexivity|]. vm_compute. discriminate. Qed.

(** The validator accepts a trailing newline, /repo/treebeard/ltree/fields.py:15-19. *)
Theorem C33_newline_refuted : exists s, accepted s /\ exists c, In c s /\ label_char c = false /\ c <> dot.
Proof.
  exists (txt "A" ++ [newline]). split.
  - apply C33_validator. exists [txt "A"]. split; [discriminate|]. split; [|right; reflexivity].
    repeat constructor; try discriminate; intros c Hc; cbn in Hc; repeat destruct Hc as [<-|Hc]; try reflexivity; destruct Hc.
  - exists newline. split; [vm_compute; auto|]. split; [reflexivity|discriminate].
Qed.

Print Assumptions C30_add_root_refuted.
Print Assumptions C30_sorted_refuted.
Print Assumptions C30_add_sibling_refuted.
Print Assumptions C30_histories_refuted.
Print Assumptions C31_move_refuted.
Print Assumptions C29_order_refuted.
Print Assumptions C29_roots_refuted.
Print Assumptions C30_room_refuted.
Print Assumptions C37_lt_zero_refuted.
Print Assumptions C33_blank_refuted.
Print Assumptions C33_newline_refuted.
