(** Theorems about crashes in the middle of a call (C40). *)
From Coq Require Import String List Arith Lia Bool ZArith Sorted Permutation.
From Verif Require Import Prelude Forest SpecFacts SpecSane CommonModel Order History SpecRun Fixture CrashModel CrashFacts.
From Verif Require MPModel MPFixModel MPInv MPCheck MPDelete MPHist PropsMP.
From Verif Require NSModel NSInv NSReads NSCheck NSDelete NSHist PropsNS.
From Verif Require ALModel ALInv ALHist PropsAL.
From Verif Require LTModel LTInv LTHist SpecPerm PropsLT.
Import ListNotations.
Local Open Scope string_scope.
Local Open Scope list_scope.
Local Open Scope nat_scope.

Local Ltac pick := vm_compute; repeat (first [left; reflexivity | right]).
Definition is_delete (c : call) : bool := match c with CDelete _ => true | _ => false end.

Lemma last_commit {A} (gs : list (list (A -> A))) : forall s d,
  last (commits s gs) d = fold_left (fun s g => fold_left (fun s f => f s) g s) gs s.
Proof.
  induction gs as [|g gs IH]; intros s d; auto. cbn [commits fold_left]. rewrite <- (IH _ d).
  destruct gs; reflexivity.
Qed.

(** ** Materialized paths *)
Section MP.
Import MPModel MPFixModel MPInv MPCheck MPHist.
Variable cfg : mp_cfg.
Hypothesis radix2 : 2 <= radix cfg.
Hypothesis step1 : 1 <= steplen cfg.
Notation o := (order_by cfg).

(** Adding and moving: the tree before or the tree after. *)
Theorem C40_mp db F c s : mp_rel cfg db F -> (o <> [] -> call_values o c) -> fresh_call F c ->
  (match c with CMove _ _ _ => roomy cfg (db_rows db) | _ => True end) ->
  is_delete c = false -> In s (mp_commits cfg db c) ->
  s = db \/ exists G, sp_exec o F c = Ok G /\ stores cfg (db_rows s) G.
Proof.
  intros R V Fr Rm D H. assert (H' : In s (one_transaction db (mp_exec cfg db c))) by (destruct c; auto; discriminate).
  clear H. unfold one_transaction in H'. destruct H' as [<-|H]; [left; auto|]. right.
  assert (K := mp_call_ok cfg radix2 step1 db F c R V Fr Rm). destruct K as [K|(K & _)].
  - destruct (mp_exec cfg db c) as [db'|e]; [|destruct H]. destruct H as [<-|[]].
    destruct (sp_exec o F c) as [G|e]; cbn [agree] in K; [|destruct K]. exists G. split; auto. apply K.
  - rewrite K in H. destruct H.
Qed.

(** A delete ends with the table of [delete_queryset] (C06), but the states in between
    are committed as well: all rows are still there, with their paths, depths and data, and
    only numchild differs.  fix_tree() then restores exactly the table before the call.
    (Partial: the claim asks for the tree before or after.) *)
Theorem C40_mp_delete_partial t F sel s sig : stores cfg t F -> In s (mp_delete_commits cfg t sel) ->
  s = delete_queryset cfg t sel \/
  (map (fun r => (m_pk r, m_path r, m_depth r, m_data r)) s = map (fun r => (m_pk r, m_path r, m_depth r, m_data r)) t /\
   fix_tree cfg (mkDB s sig) false None = Ok (mkDB t sig)).
Proof.
  intros St H. apply mp_delete_states in H. destruct H as [H|H]; auto. right. split; auto.
  apply (fix_back cfg radix2 step1 s t F); auto. apply key_ident. exact H.
Qed.

Theorem C40_mp_delete_end t sel d : hd d (mp_delete_commits cfg t sel) = t /\
  last (mp_delete_commits cfg t sel) d = delete_queryset cfg t sel.
Proof.
  split; [unfold mp_delete_commits; destruct (map _ _); reflexivity|].
  unfold mp_delete_commits, delete_queryset, run_statements. rewrite last_commit. apply singles_fold.
Qed.

Lemma minimal_incl l : forall A x, In x (minimal_removed cfg A l) -> In x A \/ In x l.
Proof.
  induction l as [|y l IH]; intros A x; cbn [minimal_removed]; auto.
  destruct (has_removed_ancestor _ _ _); intros H; apply IH in H; [simpl; tauto|].
  rewrite in_app_iff in H. simpl in *. tauto.
Qed.

(** Deleting root nodes needs one statement only. *)
Theorem C40_mp_delete_roots t F sel s : stores cfg t F -> (forall r, In r t -> sel r = true -> is_root r = true) ->
  In s (mp_delete_commits cfg t sel) -> s = t \/ s = delete_queryset cfg t sel.
Proof.
  intros St Hs. unfold mp_delete_commits, delete_queryset, delete_statements.
  set (rm := minimal_removed cfg [] _).
  assert (E : parents_of_removed cfg rm = []).
  { unfold parents_of_removed. assert (G : filter (fun p : path => match p with [] => false | _ => true end) (map (parent_path_of cfg) rm) = []).
    { apply filter_none. intros p Hp. apply in_map_iff in Hp. destruct Hp as (r & <- & Hr). apply minimal_incl in Hr.
      destruct Hr as [[]|Hr]. apply (Permutation_in _ (isort_perm _ _)) in Hr. apply filter_In in Hr. destruct Hr as [H1 H2].
      specialize (Hs r H1 H2). unfold is_root in Hs. apply Nat.eqb_eq in Hs. unfold parent_path_of, get_basepath. rewrite Hs. reflexivity. }
    rewrite G. reflexivity. }
  rewrite E. cbn [map app commits fold_left run_statements]. intros [<-|[<-|[]]]; auto.
Qed.

(** Running fix_tree() again after a crash in the middle of it gives what it would have given. *)
Theorem C40_mp_fix t s sig : paths_ok cfg t -> NoDup (map m_pk t) -> In s (mp_fix_commits cfg t None) ->
  map (fun r => (m_pk r, m_path r, m_data r)) s = map (fun r => (m_pk r, m_path r, m_data r)) t /\
  fix_tree cfg (mkDB s sig) false None = fix_tree cfg (mkDB t sig) false None.
Proof. apply fix_states; auto. Qed.
End MP.

(** In between, a node can be unreachable: deleting 3 and 5, the only children of 1, first
    makes 1 a leaf. *)
Section MPRefuted.
Import MPModel MPFixModel MPInv MPHist PropsMP.
Definition mp_cut : mp_db := Eval vm_compute in nth 1 (mp_commits c10 ex_db (CDelete [3; 5])) mp_empty.
Theorem C40_mp_delete_refuted : exists db F s, stores c10 (db_rows db) F /\ In s (mp_commits c10 db (CDelete [3; 5])) /\
  (forall G, ~ stores c10 (db_rows s) G) /\ find_problems c10 (db_rows s) None = [(1, WrongNumchild)] /\
  map m_pk (get_tree (db_rows s) None None) = [7; 1; 3; 5; 2; 4; 6; 9; 10] /\
  get_children c10 (db_rows s) (row s 1) = [] /\ get_parent c10 (db_rows s) (row s 3) = Ok (Some (row s 1)).
Proof.
  exists ex_db, ex_F, mp_cut. split; [apply ex_stores|]. split; [vm_compute; tauto|]. split.
  - intros G H. apply (C09_clean c10 (le_b 2 10 eq_refl) (le_b 1 2 eq_refl) _ _ None) in H. vm_compute in H. discriminate.
  - vm_compute. repeat split.
Qed.

(** If the model lives in a database that is not the default one, the transaction does not
    cover the statements: the parent counts a child that is not there. *)
Theorem C40_other_database_refuted : exists db F s, stores c10 (db_rows db) F /\
  In s (mp_first_child_commits c10 true (db_rows db) (row db 3) (nobj 11 1)) /\
  (forall G, ~ stores c10 s G) /\ find_problems c10 s None = [(3, WrongNumchild)].
Proof.
  exists ex_db, ex_F. eexists. split; [apply ex_stores|]. split; [right; left; reflexivity|]. split; [|vm_compute; reflexivity].
  intros G H. apply (C09_clean c10 (le_b 2 10 eq_refl) (le_b 1 2 eq_refl) _ _ None) in H. vm_compute in H. discriminate.
Qed.

(** The two statements in one transaction give the table of add_child. *)
Theorem C40_default_database cfg db target node x db' r t' : get_by_pk (db_rows db) (m_pk target) = Ok node -> is_leaf node = true ->
  add_child cfg db target x = Ok (db', r, t') -> ~ In (new_pk x) (map m_pk (db_rows db)) ->
  mp_first_child_commits cfg false (db_rows db) node x = [db_rows db; db_rows db'].
Proof.
  intros E L A N. unfold add_child in A. rewrite E in A. cbn [bind] in A. rewrite L in A.
  rewrite andb_false_r in A. destruct (maxlen cfg <? _); [discriminate|]. cbn [bind] in A.
  unfold save_row in A. cbn [db_rows m_pk m_path] in A. destruct (existsb _ _); [discriminate|].
  assert (Ex : existsb (fun y => m_pk y =? new_pk x) (map (upd_nc_pk (m_pk node) S) (db_rows db)) = false).
  { apply existsb_false. intros y Hy. apply in_map_iff in Hy. destruct Hy as (z & <- & Hz).
    assert (Ez : m_pk (upd_nc_pk (m_pk node) S z) = m_pk z) by (unfold upd_nc_pk; destruct (m_pk z =? m_pk node); auto).
    rewrite Ez. apply Nat.eqb_neq. intros En. apply N. rewrite <- En. apply in_map. auto. }
  rewrite Ex in A. cbn [bind] in A. injection A as <- _ _. reflexivity.
Qed.

Example C40_mp_example :
  mp_rel c10 ex_db ex_F /\ fresh_call ex_F (CAddChild 3 (nd 11 1)) /\ fresh_call ex_F (CMove 9 4 (Some "left")) /\
  length (mp_commits c10 ex_db (CMove 9 4 (Some "left"))) = 2 /\ length (mp_commits c10 ex_db (CMove 2 10 (Some "left"))) = 1 /\
  length (mp_commits c10 ex_db (CDelete [3; 5; 10])) = 4 /\ length (mp_commits c10 ex_db (CDelete [1; 3; 7])) = 2 /\
  map (fun s => map (fun r => (m_pk r, m_nc r)) (get_tree s None None)) (mp_delete_commits c10 (db_rows ex_db) (fun r => existsb (Nat.eqb (m_pk r)) [3; 5; 10])) =
   [[(7, 0); (1, 2); (3, 0); (5, 0); (2, 2); (4, 1); (6, 0); (9, 1); (10, 0)];
    [(7, 0); (1, 0); (3, 0); (5, 0); (2, 2); (4, 1); (6, 0); (9, 1); (10, 0)];
    [(7, 0); (1, 0); (3, 0); (5, 0); (2, 2); (4, 1); (6, 0); (9, 0); (10, 0)];
    [(7, 0); (1, 0); (2, 2); (4, 1); (6, 0); (9, 0)]] /\
  fix_tree c10 mp_cut false None = Ok ex_db /\
  length (mp_fix_commits c10 (db_rows broken) None) = 3.
Proof.
  split; [split; [apply ex_stores|intros H; exfalso; apply H; reflexivity]|]. split; [intros i [<-|[]]; apply PropsNS.no_b; vm_compute; reflexivity|]. split; [intros i []|].
  vm_compute. repeat split.
Qed.
End MPRefuted.

(** ** Nested sets *)
Section NS.
Import NSModel NSInv NSReads NSCheck NSDelete NSHist.

Theorem C40_ns o db F c s : stores (ns_rows db) F -> fresh_call F c -> is_delete c = false -> In s (ns_commits o db c) ->
  s = db \/ exists G, sp_exec o F c = Ok G /\ stores (ns_rows s) G.
Proof.
  intros St Fr D H. assert (H' : In s (one_transaction db (ns_exec o db c))) by (destruct c; auto; discriminate).
  clear H. unfold one_transaction in H'. destruct H' as [<-|H]; [left; auto|]. right.
  assert (K := ns_call_ok o db F c St Fr). destruct (ns_exec o db c) as [db'|e]; [|destruct H]. destruct H as [<-|[]].
  destruct (sp_exec o F c) as [G|e]; cbn [agree] in K; [|destruct K]. exists G. auto.
Qed.

(** After the DELETE of a delete the rows are those of the tree after the call, with gaps
    in the numbering until the last UPDATE.  Gaps do no harm to find_problems, nor to reading
    the tree, the roots, children, ancestors and descendants.  (Partial: is_leaf,
    get_descendant_count and what relies on them can be wrong, see below.) *)
Theorem C40_ns_delete_partial db F sel s : stores (ns_rows db) F -> In s (ns_delete_commits db sel) ->
  s = db \/
  exists G, stores (ns_rows (delete_queryset db sel)) G /\
    find_problems (ns_rows s) None = ([], [], [], []) /\
    map row_node (get_tree (ns_rows s) None None) = preorder G /\
    map row_node (get_root_nodes (ns_rows s)) = roots G /\
    (forall r, In r (ns_rows s) ->
       ancestors_of (n_pk r) G = Some (map row_node (get_ancestors (ns_rows s) r)) /\
       kid_list (Some (n_pk r)) G = Some (map row_node (get_children (ns_rows s) r)) /\
       n_depth r = (1 + Z.of_nat (length (get_ancestors (ns_rows s) r)))%Z) /\
    (forall r n, In r (ns_rows s) -> In n (ns_rows s) -> (is_descendant_of r n = true <-> descends G (n_pk n) (n_pk r))).
Proof.
  intros St H. apply (ns_delete_states db F sel s St) in H. destruct H as [H|H]; [left; auto|right].
  assert (St' := delete_queryset_ok db F sel St). set (G := remove_all _ F) in St'. exists G. split; auto.
  destruct H as (phi & AI & E).
  assert (Wn := stores_well_nested _ G St').
  assert (U' : NoDup (map n_pk (ns_rows (delete_queryset db sel)))).
  { destruct St' as (W & ts & I & P). rewrite (pks _ G ts I P). exact W. }
  rewrite E in *.
  assert (U : NoDup (map n_pk (ns_rows s))).
  { rewrite map_map in U'. erewrite map_ext_in in U'; [exact U'|]. intros x Hx. apply (pk_phi _ _ AI x Hx). }
  assert (M : forall r, In r (ns_rows s) -> In (phi r) (map phi (ns_rows s))) by (intros; apply in_map; auto).
  split.
  { apply find_problems_exact; auto. cbn [fp_base fp_rows]. change (fp_rows (ns_rows s) None) with (ns_rows s).
    exact (nested_phi _ phi AI U Wn). }
  split.
  { rewrite <- (get_tree_phi _ phi AI). destruct (tree_read _ G None St') as (T & _). exact T. }
  split.
  { rewrite <- (roots_phi _ phi AI). destruct (roots_read _ G St') as (T & _). exact T. }
  split.
  - intros r Hr. destruct (ancestors_read _ G (phi r) St' (M r Hr)) as (L & A1 & A2 & A3 & _).
    destruct (PropsNS.C20_children _ G (phi r) St' (M r Hr)) as (k & K1 & K2 & _).
    rewrite (pk_phi _ phi AI r Hr) in *. rewrite (depth_phi _ phi AI r Hr) in A3.
    rewrite (ancestors_phi _ phi AI r Hr) in A2. rewrite (children_phi _ phi AI r Wn U Hr) in K2.
    split; [congruence|]. split; [congruence|]. rewrite A3, <- A2, map_length. auto.
  - intros r n Hr Hn. rewrite <- (descendant_phi _ phi AI r n Hr Hn).
    destruct (PropsNS.C20_predicates _ G (phi r) (phi n) St' (M r Hr) (M n Hn)) as (_ & _ & D).
    rewrite (pk_phi _ phi AI r Hr), (pk_phi _ phi AI n Hn) in D. exact D.
Qed.

Theorem C40_ns_delete_end db sel d : hd d (ns_delete_commits db sel) = db /\
  last (ns_delete_commits db sel) d = delete_queryset db sel.
Proof.
  split; [unfold ns_delete_commits; destruct (ns_delete_transactions db sel); reflexivity|].
  unfold ns_delete_commits. rewrite last_commit. unfold ns_delete_transactions, delete_queryset.
  destruct (delete_ranges _ _) as [|g l]; auto. cbn [fold_left]. generalize (sort_ranges (g :: l)).
  intros R. set (db0 := mkNSDB _ _). clearbody db0. revert db0. induction R as [|x R IH]; intros db0; auto.
  cbn [map fold_left]. apply IH.
Qed.
End NS.

(** A crash before the gaps are closed leaves a node without children that is no leaf: the
    number of its descendants is one, and add_child fails. *)
Section NSRefuted.
Import NSModel NSInv NSHist PropsNS.
Definition ns_cut : ns_db := Eval vm_compute in nth 1 (ns_commits [] ex_db (CDelete [6])) ns_empty.

Lemma no_gap t F r : stores t F -> In r t -> get_children t r = [] -> is_leaf r = true.
Proof.
  intros St Hr E. destruct (C20_children t F r St Hr) as (k & _ & K & _ & L & _). apply L. rewrite <- K, E. reflexivity.
Qed.

Theorem C40_ns_delete_refuted : exists db F s, stores (ns_rows db) F /\ In s (ns_commits [] db (CDelete [6])) /\
  (forall G, ~ stores (ns_rows s) G) /\ find_problems (ns_rows s) None = ([], [], [], []) /\
  get_children (ns_rows s) (row s 4) = [] /\ is_leaf (row s 4) = false /\
  get_descendant_count (ns_rows s) (row s 4) None = 1%Z /\
  add_child [] s (row s 4) (nd 11 1) = Err AttributeError.
Proof.
  exists ex_db, ex_F, ns_cut. split; [apply ex_stores|]. split; [vm_compute; tauto|]. split.
  - intros G H. assert (L := no_gap _ G (row ns_cut 4) H ltac:(pick) ltac:(vm_compute; reflexivity)). vm_compute in L. discriminate.
  - vm_compute. repeat split.
Qed.

Example C40_ns_example :
  stores (ns_rows ex_db) ex_F /\ fresh_call ex_F (CMove 9 4 (Some "left")) /\
  length (ns_commits [] ex_db (CMove 9 4 (Some "left"))) = 2 /\ length (ns_commits [] ex_db (CMove 2 10 (Some "left"))) = 1 /\
  map (fun s => map (fun r => (n_pk r, (n_tree r, n_lft r, n_rgt r))) (get_tree (ns_rows s) None None)) (ns_commits [] ex_db (CDelete [6; 5; 10])) =
   [[(7, (1, 1, 2)%Z); (1, (2, 1, 6)%Z); (3, (2, 2, 3)%Z); (5, (2, 4, 5)%Z); (2, (3, 1, 10)%Z); (4, (3, 2, 5)%Z); (6, (3, 3, 4)%Z); (9, (3, 6, 9)%Z); (10, (3, 7, 8)%Z)];
    [(7, (1, 1, 2)%Z); (1, (2, 1, 6)%Z); (3, (2, 2, 3)%Z); (2, (3, 1, 10)%Z); (4, (3, 2, 5)%Z); (9, (3, 6, 9)%Z)];
    [(7, (1, 1, 2)%Z); (1, (2, 1, 6)%Z); (3, (2, 2, 3)%Z); (2, (3, 1, 8)%Z); (4, (3, 2, 5)%Z); (9, (3, 6, 7)%Z)];
    [(7, (1, 1, 2)%Z); (1, (2, 1, 6)%Z); (3, (2, 2, 3)%Z); (2, (3, 1, 6)%Z); (4, (3, 2, 3)%Z); (9, (3, 4, 5)%Z)];
    [(7, (1, 1, 2)%Z); (1, (2, 1, 4)%Z); (3, (2, 2, 3)%Z); (2, (3, 1, 6)%Z); (4, (3, 2, 3)%Z); (9, (3, 4, 5)%Z)]].
Proof.
  split; [apply ex_stores|]. split; [intros i []|]. vm_compute. repeat split.
Qed.
End NSRefuted.

(** ** Adjacency lists and ltree: all calls, deletes included *)
Theorem C40_al o t F c s : ALInv.stores o t F -> fresh_call F c -> (o <> [] -> call_values o c) ->
  In s (al_commits o t c) -> s = t \/ exists G, sp_exec o F c = Ok G /\ ALInv.stores o s G.
Proof.
  intros St Fr V [<-|H]; [left; auto|right]. assert (K := ALHist.al_call_ok o t F c St Fr V).
  destruct (ALHist.al_exec o t c) as [t'|e]; [|destruct H]. destruct H as [<-|[]].
  destruct (sp_exec o F c) as [G|e]; cbn [agree] in K; [|destruct K]. exists G. auto.
Qed.

(** (For ltree "the tree after" is the one of C30: the specification up to the order of
    siblings.) *)
Theorem C40_lt cfg db F c s : 2 <= LTModel.label_max cfg -> LTInv.stores cfg (LTModel.lt_rows db) F -> fresh_call F c ->
  In s (lt_commits cfg db c) -> s = db \/
  exists G G', sp_exec (LTModel.lt_order cfg) F c = Ok G /\ SpecPerm.same_kids G G' /\ LTInv.stores cfg (LTModel.lt_rows s) G'.
Proof.
  intros L St Fr [<-|H]; [left; auto|right]. destruct (PropsLT.C30_call_partial cfg db F c L St Fr) as [(db' & F' & S & E & E1 & E2 & E3 & _)|[(e & E & _)|[(E & _)|(E & _)]]];
    rewrite E in H; [|destruct H..]. destruct H as [<-|[]]. exists S, F'. auto.
Qed.

Example C40_al_example : ALInv.stores [] PropsAL.ex_t ex_F /\
  length (al_commits [] PropsAL.ex_t (CDelete [2; 6; 3])) = 2 /\ length (al_commits [] PropsAL.ex_t (CMove 2 10 (Some "left"))) = 1.
Proof. split; [apply PropsAL.ex_stores|]. vm_compute. auto. Qed.
Example C40_lt_example : LTInv.stores PropsLT.c0 (LTModel.lt_rows PropsLT.ex_db) ex_F /\
  length (lt_commits PropsLT.c0 PropsLT.ex_db (CDelete [2; 6; 3])) = 2 /\ length (lt_commits PropsLT.c0 PropsLT.ex_db (CMove 2 10 (Some "left"))) = 1.
Proof. split; [apply PropsLT.ex_stores|]. vm_compute. auto. Qed.

Print Assumptions C40_mp.
Print Assumptions C40_mp_delete_partial.
Print Assumptions C40_mp_delete_end.
Print Assumptions C40_mp_delete_roots.
Print Assumptions C40_mp_fix.
Print Assumptions C40_mp_delete_refuted.
Print Assumptions C40_other_database_refuted.
Print Assumptions C40_default_database.
Print Assumptions C40_ns.
Print Assumptions C40_ns_delete_partial.
Print Assumptions C40_ns_delete_end.
Print Assumptions C40_ns_delete_refuted.
Print Assumptions C40_al.
Print Assumptions C40_lt.
