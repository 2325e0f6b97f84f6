(** Theorems about searching and ordering in the lists of the admin (C60). *)
From Coq Require Import String List Arith Lia Bool ZArith Sorted Permutation.
From Verif Require Import Prelude Forest NumConv SpecFacts SpecSane SpecKids CommonModel Order History Fixture AdminModel SearchModel BulkMP PropsAdmin SearchFacts.
From Verif Require MPModel MPStep MPInv MPReads MPHist MPFixModel MPFixLevel MPFixPaths PropsMP.
From Verif Require NSModel NSInv NSAdd NSMoveOk NSReads NSHist PropsNS.
From Verif Require ALModel ALInv ALReads ALAnswers ALOk ALHist PropsAL.
From Verif Require LTModel LTInv LTReads LTHist PropsLT SpecPerm.
Import ListNotations.
Local Open Scope string_scope.
Local Open Scope list_scope.
Local Open Scope nat_scope.

(** ** What should be shown

    [arrange found o L] is the list [L] with the nodes that are not found left out, in the order
    of the chosen columns; nodes that agree on these columns stay as they were in [L]. *)
Section Spec.
Variable found : fields -> bool.
Variable o : ordering.

(** Neither comes before the other. *)
Definition tied (a b : node) : bool := negb (MPFixModel.col_lt o (ndata a) (ndata b)) && negb (MPFixModel.col_lt o (ndata b) (ndata a)).

Theorem C60_tied a b : tied a b = true <-> MPFixPaths.in_order o (ndata a) (ndata b) /\ MPFixPaths.in_order o (ndata b) (ndata a).
Proof. unfold tied. rewrite andb_true_iff, !negb_true_iff, !MPFixPaths.in_order_col. tauto. Qed.

Theorem C60_arranged L :
  Permutation (arrange found o L) (filter (fun a => found (ndata a)) L) /\
  StronglySorted (fun a b => MPFixPaths.in_order o (ndata a) (ndata b)) (arrange found o L) /\
  (forall a, filter (tied a) (arrange found o L) = filter (tied a) (filter (fun a => found (ndata a)) L)).
Proof.
  unfold arrange, changelist. split; [apply isort_perm|]. split.
  - assert (H := MPFixLevel.isort_sorted (fun a b => negb (MPFixModel.col_lt o (ndata b) (ndata a)))).
    specialize (H (fun a b E => match negb_false_iff _ with conj f _ => proj2 (negb_true_iff _) (MPFixLevel.col_total o _ _ (f E)) end)).
    assert (T : forall a b c : node, negb (MPFixModel.col_lt o (ndata b) (ndata a)) = true -> negb (MPFixModel.col_lt o (ndata c) (ndata b)) = true ->
      negb (MPFixModel.col_lt o (ndata c) (ndata a)) = true).
    { intros a b c. rewrite !negb_true_iff. apply MPFixLevel.col_trans. }
    specialize (H T (filter (fun a => found (ndata a)) L)).
    induction H as [|x l _ IH Hx]; constructor; auto. apply Forall_forall. intros y Hy. rewrite Forall_forall in Hx.
    apply MPFixPaths.in_order_col. apply negb_true_iff. auto.
  - intros a. apply (isort_ties node (fun a b => MPFixModel.col_lt o (ndata a) (ndata b))).
    intros x y z. apply MPFixLevel.col_trans.
Qed.

(** Without a chosen column the order of the tree is kept. *)
Theorem C60_unordered L : o = [] -> arrange found o L = filter (fun a => found (ndata a)) L.
Proof.
  intros ->. unfold arrange, changelist. induction (filter (fun a => found (ndata a)) L) as [|x l IH]; auto. cbn [isort]. rewrite IH.
  destruct l; auto.
Qed.

(** [view found o F] is the tree of the nodes that can be reached: the roots that are found,
    arranged, and below each of them the children that are found, arranged, and so on. *)
Theorem C60_view F : wf_ids F -> wf_ids (view found o F) /\
  kid_list None (view found o F) = option_map (arrange found o) (kid_list None F) /\
  forall i, In i (ids (view found o F)) -> kid_list (Some i) (view found o F) = option_map (arrange found o) (kid_list (Some i) F).
Proof.
  intros W. split; [apply view_wf; auto|]. unfold kid_list. cbn [kids_of option_map]. rewrite roots_view. split; auto.
  intros i Hi. rewrite (children_view found o F i W Hi). destruct (children_of i F); auto. cbn [option_map]. rewrite roots_view. auto.
Qed.

(** A node can be reached when it and all its ancestors are found. *)
Theorem C60_reached F i : wf_ids F -> In i (ids (view found o F)) <->
  exists A x, ancestors_of i F = Some A /\ In x (preorder F) /\ nid x = i /\ Forall (fun a => found (ndata a) = true) (A ++ [x]).
Proof. intros W. apply view_in. auto. Qed.

(** The rows, when everything is opened: the nodes of the view in pre-order, each with its own
    level, its parent, and an expander when the tree has children for it, found or not. *)
Theorem C60_rows F : wf_ids F ->
  map e_node (outline F 0 1 (view found o F)) = ids (view found o F) /\
  forall e, In e (outline F 0 1 (view found o F)) ->
    (exists A, ancestors_of (e_node e) F = Some A /\ e_level e = Z.of_nat (S (length A))) /\
    (e_kids e = true <-> exists c, In c (ids F) /\ parent_of c F = Some (Some (e_node e))) /\
    exists up, parent_of (e_node e) F = Some up /\ e_parent e = match up with Some q => q | None => 0 end.
Proof.
  intros W. split; [apply outline_ids|]. intros e He.
  destruct (outline_listed found o F W e He) as (up & L & EL & H).
  destruct (C45_listed F up L W EL) as (_ & H2 & H3). destruct (H3 e H) as (A1 & A2 & A3). split; auto. split; auto. exists up. split; auto.
  apply H2. apply in_map. auto.
Qed.
End Spec.

(** ** Materialized paths *)
Section MP.
Import MPModel MPStep MPInv MPReads MPHist PropsMP.
Variable cfg : mp_cfg.
Hypothesis radix2 : 2 <= radix cfg.
Hypothesis step1 : 1 <= steplen cfg.
Variables (found : fields -> bool) (chosen : ordering).

Theorem C60_mp_list t F parent : stores cfg t F -> mp_search found chosen cfg t parent =
  match kid_list parent F with Some L => Ok (listed F parent (arrange found chosen L)) | None => Err DoesNotExist end.
Proof.
  intros S. assert (C := C45_mp_list cfg radix2 step1 t F parent S). unfold mp_context, mp_search, mp_list in *. destruct parent as [k|].
  - destruct (get_pk_cases cfg t F k S) as [[E H]|(p & E & Hp & Ep & _)]; rewrite E in *; cbn [bind] in *; [rewrite kid_none; auto|].
    destruct (C07_children cfg radix2 step1 t F p S Hp) as (L & El & Ec & _). rewrite Ep in *. rewrite El in *. injection C as C. f_equal.
    apply (search_rows found chosen m_data node_of); auto.
  - destruct (C07_roots cfg radix2 step1 t F S) as (Er & _). cbn [bind] in *. change (kid_list None F) with (Some (roots F)) in *.
    injection C as C. cbv iota. f_equal. apply (search_rows found chosen m_data node_of); auto.
Qed.

Theorem C60_mp_all t F fuel : stores cfg t F -> height F < fuel ->
  open_all fuel (mp_search found chosen cfg t) None = Ok (outline F 0 1 (view found chosen F)).
Proof.
  intros S H. apply (open_all_ok found chosen F _ (stores_wf _ _ _ S) (fun p => C60_mp_list t F p S) fuel None); auto.
Qed.
End MP.

(** ** Nested sets *)
Section NS.
Import NSModel NSInv NSAdd NSMoveOk NSReads NSHist PropsNS.
Variables (found : fields -> bool) (chosen : ordering).

Theorem C60_ns_list t F parent : stores t F -> ns_search found chosen t parent =
  match kid_list parent F with Some L => Ok (listed F parent (arrange found chosen L)) | None => Err DoesNotExist end.
Proof.
  intros S. assert (C := C45_ns_list t F parent S). unfold ns_context, ns_search, ns_list in *. destruct parent as [k|].
  - destruct (get_pk_cases t F k S) as [[E H]|(p & E & Hp & Ep & _)]; rewrite E in *; cbn [bind] in *.
    { rewrite kid_none; auto. intros X. apply has_spec in X. congruence. }
    destruct (C20_children t F p S Hp) as (L & El & Ec & _). rewrite Ep in *. rewrite El in *. injection C as C. f_equal.
    apply (search_rows found chosen n_data row_node); auto.
  - destruct (C20_roots t F S) as (Er & _). cbn [bind] in *. change (kid_list None F) with (Some (roots F)) in *.
    injection C as C. cbv iota. f_equal. apply (search_rows found chosen n_data row_node); auto.
Qed.

Theorem C60_ns_all t F fuel : stores t F -> height F < fuel ->
  open_all fuel (ns_search found chosen t) None = Ok (outline F 0 1 (view found chosen F)).
Proof.
  intros S H. apply (open_all_ok found chosen F _ (stores_wf _ _ S) (fun p => C60_ns_list t F p S) fuel None); auto.
Qed.
End NS.

(** ** Adjacency lists *)
Section AL.
Import ALModel ALInv ALReads ALAnswers ALOk ALHist PropsAL.
Variable o : ordering.
Variables (found : fields -> bool) (chosen : ordering).

Lemma al_search_answers t F parent : stores o t F -> answers o t F -> al_search found chosen o t parent =
  match kid_list parent F with Some L => Ok (listed F parent (arrange found chosen L)) | None => Err DoesNotExist end.
Proof.
  intros S An. assert (C := al_list_answers o t F parent S An). unfold al_context, al_search, al_list in *. destruct parent as [k|].
  - assert (S' := S). destruct S' as (W & _ & so & Fit & _).
    destruct (in_dec Nat.eq_dec k (ids F)) as [Hk|Hk].
    2:{ rewrite (get_none so t F W Fit k Hk). cbn [bind]. rewrite kid_none; auto. }
    destruct (fits_ex so t F W Fit k Hk) as (p & Hp & Ep). subst k. rewrite (get_in so t F W Fit p Hp) in *. cbn [bind] in *.
    destruct (an_children _ _ _ An p Hp) as (L & El & Ec & _).
    destruct (C27_ancestors o t F p S Hp) as (_ & A & _ & EA & _ & _ & _ & _ & (c & Ed)). rewrite Ed in *. cbn [bind] in *. rewrite El in *.
    injection C as C. f_equal. apply (search_rows found chosen a_data row_node); auto.
  - destruct (an_roots _ _ _ An) as (Er & _). cbn [bind] in *. change (kid_list None F) with (Some (roots F)) in *.
    injection C as C. cbv iota. f_equal. apply (search_rows found chosen a_data row_node); auto.
Qed.

Theorem C60_al_list t F parent : stores o t F -> o = [] \/ strict o F -> al_search found chosen o t parent =
  match kid_list parent F with Some L => Ok (listed F parent (arrange found chosen L)) | None => Err DoesNotExist end.
Proof. intros S H. apply al_search_answers; auto. apply C27_reads; auto. Qed.

Theorem C60_al_all t F fuel : stores o t F -> o = [] \/ strict o F -> height F < fuel ->
  open_all fuel (al_search found chosen o t) None = Ok (outline F 0 1 (view found chosen F)).
Proof.
  intros S St H. apply (open_all_ok found chosen F _ (stores_wf _ _ _ S) (fun p => C60_al_list t F p S St) fuel None); auto.
Qed.

(** With equal values in node_order_by the rows may be read in another order of these siblings. *)
Theorem C60_al_ties t F : stores o t F -> exists F', stores o t F' /\ SpecPerm.same_kids F F' /\
  forall fuel, height F' < fuel -> open_all fuel (al_search found chosen o t) None = Ok (outline F' 0 1 (view found chosen F')).
Proof.
  intros S. destruct (C27_ties o t F S) as (F' & S' & An & P). exists F'. split; auto. split; [exact P|]. intros fuel H.
  apply (open_all_ok found chosen F' _ (stores_wf _ _ _ S') (fun p => al_search_answers t F' p S' An) fuel None); auto.
Qed.
End AL.

(** ** Ltree *)
Section LT.
Import LTModel LTInv LTReads LTHist PropsLT.
Variable cfg : lt_cfg.
Hypothesis max2 : 2 <= label_max cfg.
Variables (found : fields -> bool) (chosen : ordering).

Theorem C60_lt_list t F parent : stores cfg t F -> lt_search found chosen t parent =
  match kid_list parent F with Some L => Ok (listed F parent (arrange found chosen L)) | None => Err DoesNotExist end.
Proof.
  intros S. assert (C := C45_lt_list cfg max2 t F parent S). unfold lt_context, lt_search, lt_list in *. destruct parent as [k|].
  - destruct (lt_pk_cases cfg t F k S) as [[E H]|(p & E & Hp & Ep)]; rewrite E in *; cbn [bind] in *; [rewrite kid_none; auto|].
    destruct (C32_children cfg t F p S Hp) as (L & El & Ec & _). rewrite Ep in *. rewrite El in *. injection C as C. f_equal.
    apply (search_rows found chosen l_data node_of); auto.
  - assert (Er := C32_roots cfg t F S). cbn [bind] in *. change (kid_list None F) with (Some (roots F)) in *.
    injection C as C. cbv iota. f_equal. apply (search_rows found chosen l_data node_of); auto.
Qed.

Theorem C60_lt_all t F fuel : stores cfg t F -> height F < fuel ->
  open_all fuel (lt_search found chosen t) None = Ok (outline F 0 1 (view found chosen F)).
Proof.
  intros S H. apply (open_all_ok found chosen F _ (stores_wf _ _ _ S) (fun p => C60_lt_list t F p S) fuel None); auto.
Qed.
End LT.

(** ** Examples

    A filter for values below 65, and the first column in descending order: of
    7(70), 1(10)(3(30), 5(50)), 2(20)(4(40)(6(60)), 9(90)(10(100))) the nodes 7, 9 and 10 go. *)
Definition below65 (d : fields) : bool := match fval d 0 with Some v => Z.ltb v 65 | None => false end.
Definition shown65 : list entry :=
  [mkEntry 2 0 1 true; mkEntry 4 2 2 true; mkEntry 6 4 3 false; mkEntry 1 0 1 true; mkEntry 5 1 2 false; mkEntry 3 1 2 false].

Example C60_spec_example : wf_ids ex_F /\
  map nid (arrange below65 so (roots ex_F)) = [2; 1] /\ map nid (arrange below65 [] (roots ex_F)) = [1; 2] /\
  tied so (nd 1 10) (nd 2 10) = true /\ tied so (nd 1 10) (nd 2 20) = false /\
  map nid (arrange below65 so [nd 1 10; nd 2 20; nd 3 10; nd 4 70; nd 5 20]) = [2; 5; 1; 3] /\
  ids (view below65 so ex_F) = [2; 4; 6; 1; 5; 3] /\
  map (fun i => option_map (map nid) (kid_list i (view below65 so ex_F))) [None; Some 1; Some 2; Some 4] = [Some [2; 1]; Some [5; 3]; Some [4]; Some [6]] /\
  outline ex_F 0 1 (view below65 so ex_F) = shown65.
Proof. split; [apply nodup_b; vm_compute; reflexivity|]. repeat split; vm_compute; reflexivity. Qed.

Section ExMP.
Import MPModel PropsMP.
Example C60_mp_example : MPInv.stores c10 (db_rows ex_db) ex_F /\ height ex_F < 4 /\
  mp_search below65 so c10 (db_rows ex_db) (Some 1) = Ok [mkEntry 5 1 2 false; mkEntry 3 1 2 false] /\
  mp_search below65 so c10 (db_rows ex_db) (Some 11) = Err DoesNotExist /\
  open_all 4 (mp_search below65 so c10 (db_rows ex_db)) None = Ok shown65.
Proof. split; [apply ex_stores|]. split; [vm_compute; repeat constructor|]. repeat split; vm_compute; reflexivity. Qed.

(** Node 10 has a value above 95; its parent 9 and the root 2 have not, and a search for such
    values shows nothing. *)
Theorem C60_missed_refuted : exists cfg t F (found : fields -> bool) chosen x, MPInv.stores cfg t F /\
  In x t /\ found (m_data x) = true /\ forall fuel, height F < fuel -> open_all fuel (mp_search found chosen cfg t) None = Ok [].
Proof.
  exists c10, (db_rows ex_db), ex_F, (fun d => match fval d 0 with Some v => Z.ltb 95 v | None => false end), [], (row ex_db 10).
  split; [apply ex_stores|]. split; [vm_compute; tauto|]. split; [vm_compute; reflexivity|].
  intros fuel H. rewrite (C60_mp_all c10 (le_b 2 10 eq_refl) (le_b 1 2 eq_refl) _ _ (db_rows ex_db) ex_F fuel ex_stores H). vm_compute. reflexivity.
Qed.

(** A row with an expander whose list of children is empty. *)
Theorem C60_expander_refuted : exists cfg t F (found : fields -> bool) e l, MPInv.stores cfg t F /\
  mp_search found [] cfg t None = Ok l /\ In e l /\ e_kids e = true /\ mp_search found [] cfg t (Some (e_node e)) = Ok [].
Proof.
  exists c10, (db_rows ex_db), ex_F, (fun d => match fval d 0 with Some v => Z.ltb v 25 | None => false end), (mkEntry 2 0 1 true),
    [mkEntry 1 0 1 true; mkEntry 2 0 1 true].
  split; [apply ex_stores|]. repeat split; vm_compute; auto.
Qed.

(** In a list ordered by a column, dragging 2 beside 7 is carried out (the tree changes), but
    the list stays the same and 2 is not beside 7. *)
Theorem C60_drag_refuted : exists cfg db db' F n t chosen l, MPInv.stores cfg (db_rows db) F /\ In n (db_rows db) /\ In t (db_rows db) /\
  mp_drag cfg db n t false = Done db' /\ mp_context cfg (db_rows db') None <> mp_context cfg (db_rows db) None /\
  mp_search (fun _ => true) chosen cfg (db_rows db) None = Ok l /\ mp_search (fun _ => true) chosen cfg (db_rows db') None = Ok l /\
  ~ exists l1 l2, map e_node l = l1 ++ m_pk n :: m_pk t :: l2.
Proof.
  exists c10, ex_db.
  destruct (mp_drag c10 ex_db (row ex_db 2) (row ex_db 7) false) as [db'| |] eqn:E; [|vm_compute in E; discriminate|vm_compute in E; discriminate].
  exists db', ex_F, (row ex_db 2), (row ex_db 7), [(0, true)], [mkEntry 7 0 1 false; mkEntry 2 0 1 true; mkEntry 1 0 1 true].
  split; [apply ex_stores|]. split; [vm_compute; tauto|]. split; [vm_compute; tauto|]. split; auto.
  vm_compute in E. injection E as <-. split; [vm_compute; discriminate|]. split; [vm_compute; reflexivity|]. split; [vm_compute; reflexivity|].
  intros (l1 & l2 & H). vm_compute in H. destruct l1 as [|? [|? [|? [|? ?]]]]; discriminate H.
Qed.
End ExMP.

Section ExNS.
Import NSModel PropsNS.
Example C60_ns_example : NSInv.stores (ns_rows ex_db) ex_F /\ height ex_F < 4 /\
  ns_search below65 so (ns_rows ex_db) (Some 1) = Ok [mkEntry 5 1 2 false; mkEntry 3 1 2 false] /\
  ns_search below65 so (ns_rows ex_db) (Some 11) = Err DoesNotExist /\
  open_all 4 (ns_search below65 so (ns_rows ex_db)) None = Ok shown65.
Proof. split; [apply ex_stores|]. split; [vm_compute; repeat constructor|]. repeat split; vm_compute; reflexivity. Qed.
End ExNS.

Section ExAL.
Import ALModel PropsAL.
Example C60_al_example : ALInv.stores [] ex_t ex_F /\ height ex_F < 4 /\
  al_search below65 so [] ex_t (Some 1) = Ok [mkEntry 5 1 2 false; mkEntry 3 1 2 false] /\
  al_search below65 so [] ex_t (Some 11) = Err DoesNotExist /\
  open_all 4 (al_search below65 so [] ex_t) None = Ok shown65.
Proof. split; [apply ex_stores|]. split; [vm_compute; repeat constructor|]. repeat split; vm_compute; reflexivity. Qed.
(** the same for a table with node_order_by *)
Example C60_al_sorted : ALInv.stores so so_t so_F /\ ids so_F = [2; 6; 1; 4; 5; 3]%nat /\
  option_map (map e_node) (match open_all 4 (al_search (fun _ => true) [(0, false)] so so_t) None with Ok l => Some l | Err _ => None end) =
    Some [6; 3; 1; 5; 4; 2]%nat.
Proof. split; [apply so_stores|]. split; vm_compute; reflexivity. Qed.
End ExAL.

Section ExLT.
Import LTModel PropsLT.
Example C60_lt_example : LTInv.stores c0 (lt_rows ex_db) ex_F /\ height ex_F < 4 /\
  lt_search below65 so (lt_rows ex_db) (Some 1) = Ok [mkEntry 5 1 2 false; mkEntry 3 1 2 false] /\
  lt_search below65 so (lt_rows ex_db) (Some 11) = Err DoesNotExist /\
  open_all 4 (lt_search below65 so (lt_rows ex_db)) None = Ok shown65.
Proof. split; [apply ex_stores|]. split; [vm_compute; repeat constructor|]. repeat split; vm_compute; reflexivity. Qed.
End ExLT.

Print Assumptions C60_tied.
Print Assumptions C60_arranged.
Print Assumptions C60_unordered.
Print Assumptions C60_view.
Print Assumptions C60_reached.
Print Assumptions C60_rows.
Print Assumptions C60_mp_list.
Print Assumptions C60_mp_all.
Print Assumptions C60_ns_list.
Print Assumptions C60_ns_all.
Print Assumptions C60_al_list.
Print Assumptions C60_al_all.
Print Assumptions C60_al_ties.
Print Assumptions C60_lt_list.
Print Assumptions C60_lt_all.
Print Assumptions C60_missed_refuted.
Print Assumptions C60_expander_refuted.
Print Assumptions C60_drag_refuted.
