(** C64: how many statements the calls that succeed send, exactly. *)
From Coq Require Import String List Arith Bool ZArith Lia.
From Verif Require Import Prelude Forest SpecFacts SpecSane SpecKids CommonModel Order History Fixture QueryModel QueryFacts QueryExact.
From Verif Require MPReads MPModel MPInv PropsMP NSModel NSInv NSReads PropsNS LTModel LTInv PropsLT CrashModel.
Import ListNotations.
Local Open Scope string_scope.
Local Open Scope list_scope.
Local Open Scope nat_scope.

(** Has the node children, is it a root, the first or the last of its siblings? *)
Definition childless (F : forest node) (i : nat) : bool := match kl (Some i) F with [] => true | _ => false end.
Definition on_top (F : forest node) (i : nat) : bool := match parent_of i F with Some None => true | _ => false end.
Definition is_node (i : nat) (a : option node) : bool := match a with Some a => i =? nid a | None => false end.
Definition is_first (F : forest node) (i : nat) : bool := is_node i (hd_error (siblings_of i F)).
Definition is_last (F : forest node) (i : nat) : bool := is_node i (last_opt (siblings_of i F)).

(** ** Materialized paths *)
Section MP.
Import MPModel.
Variable cfg : mp_cfg.
Hypothesis radix2 : 2 <= radix cfg.
Hypothesis step1 : 1 <= steplen cfg.
Notation stores := (MPInv.stores cfg).

(** A call has sent [k] path_updated signals. *)
Definition signals (db db' : mp_db) (k : nat) : Prop := length (db_sig db') = length (db_sig db) + k.

Lemma mp_childless t F r : stores t F -> In r t -> is_leaf r = childless F (m_pk r).
Proof.
  intros S Hr. destruct (PropsMP.C07_children cfg radix2 step1 t F r S Hr) as (k & E & _ & _ & L & _). unfold childless.
  rewrite (kl_kid_list _ _ _ E). destruct k; [apply L; auto|]. destruct (is_leaf r); auto. discriminate (proj1 L eq_refl).
Qed.

(** Without node_order_by: the last sibling is read, the parent updated, the row inserted. *)
Theorem C64_mp_exact db F tg x : stores (db_rows db) F -> In tg (db_rows db) -> is_sorted cfg = false ->
  (forall v, add_root cfg db x = Ok v -> snd (MP.add_root cfg db x) = 2) /\
  (forall v, add_child cfg db tg x = Ok v -> snd (MP.add_child cfg db tg x) = if childless F (m_pk tg) then 3 else 4).
Proof.
  intros S Ht So. split; intros v E.
  - assert (X := mp_add_root cfg db x). destruct (MP.add_root cfg db x) as [r n] eqn:En. cbn [fst snd] in *. subst r. rewrite E in En. eapply add_root_exact; eauto.
  - assert (X := mp_add_child cfg db tg x). destruct (MP.add_child cfg db tg x) as [r n] eqn:En. cbn [fst snd] in *. subst r. rewrite E in En.
    destruct (add_child_exact cfg _ _ _ _ _ So En) as (q & Eq & ->).
    assert (q = tg) as -> by (destruct S as (f & L & _ & <- & W); rewrite (MPInv.get_by_pk_lay cfg _ f _ L W Ht) in Eq; congruence).
    rewrite (mp_childless _ F tg S Ht). auto.
Qed.

(** One statement for each signal, and those around it: the siblings are read, the parent is
    updated unless the new node is a root, the row is inserted. *)
Theorem C64_mp_sibling_least db tg p x db' r k : signals db db' k -> add_sibling cfg db tg p x = Ok (db', r) ->
  k + 2 + (if is_sorted cfg then 1 else 0) + (match get_basepath cfg (m_path r) (m_depth tg - 1) with [] => 0 | _ => 1 end)
    <= snd (MP.add_sibling cfg db tg p x).
Proof.
  intros K E. assert (X := mp_add_sibling cfg db tg p x). destruct (MP.add_sibling cfg db tg p x) as [q n] eqn:En. cbn [fst snd] in *. subst q. rewrite E in En.
  apply add_sibling_least in En. unfold signals in K. lia.
Qed.

(** A move that changes the database: one statement for each signal and for each of the two
    parents whose numchild changes, the siblings are read, node and target are read again. *)
Theorem C64_mp_move_least db node tg p P db' node' tg' k : signals db db' k -> prepare_pos_move (is_sorted cfg) p = Ok P ->
  move cfg db node tg p = Ok (db', node', tg') -> db' <> db ->
  k + (if lowered (db_rows db) (db_rows db') then 1 else 0) + (if raised (db_rows db) (db_rows db') then 1 else 0) +
    (if onto_child P then if is_leaf tg then 2 else if is_sorted cfg then 5 else 4 else if is_sorted cfg then 4 else 3)
    <= snd (MP.move cfg db node tg p).
Proof.
  intros K EP E Ne. assert (X := mp_move cfg db node tg p). destruct (MP.move cfg db node tg p) as [q n] eqn:En. cbn [fst snd] in *. subst q. rewrite E in En.
  assert (Y := move_least cfg _ _ _ _ _ _ _ _ _ EP En Ne). unfold signals in K. lia.
Qed.

Theorem C64_mp_delete t sel : length (delete_statements cfg t sel) <= 1 + length (filter sel t).
Proof. apply mp_delete_most. Qed.
End MP.

(** ** Nested sets *)
Section NS.
Import NSModel.
Variable o : ordering.
Hypothesis unsorted : is_sorted o = false.

Lemma ns_childless t F r : NSInv.stores t F -> In r t -> is_leaf r = childless F (n_pk r).
Proof.
  intros S Hr. destruct (PropsNS.C20_children t F r S Hr) as (k & E & _ & _ & L & _). unfold childless.
  rewrite (kl_kid_list _ _ _ E). destruct k; [apply L; auto|]. destruct (is_leaf r); auto. discriminate (proj1 L eq_refl).
Qed.
Lemma ns_top t F r : NSInv.stores t F -> In r t -> is_root r = on_top F (n_pk r).
Proof.
  intros S Hr. destruct (PropsNS.C20_parent t F r S Hr) as (q & E & P & _). unfold on_top. rewrite P. unfold get_parent in E. cbn [o_row fresh o_up] in E.
  destruct (is_root r); [injection E as <-; auto|]. destruct (query_parent t r); [injection E as <-; auto|discriminate E].
Qed.
Lemma ns_ends t F r : NSInv.stores t F -> In r t -> exists L, get_siblings t r = Ok L /\
  same_pk r (hd_error L) = is_first F (n_pk r) /\ same_pk r (last_opt L) = is_last F (n_pk r).
Proof.
  intros S Hr. destruct (PropsNS.C20_siblings t F r S Hr) as (L & _ & _ & _ & _ & E & M & _). exists L. split; auto.
  unfold is_first, is_last. rewrite <- M. split.
  - destruct L; auto.
  - unfold last_opt. rewrite <- map_rev. destruct (rev L); auto.
Qed.

Theorem C64_ns_adds_exact db F tg p P x : NSInv.stores (ns_rows db) F -> In tg (ns_rows db) ->
  (forall v, add_root o db x = Ok v -> snd (NS.add_root o db x) = 2) /\
  (forall v, add_child o db tg x = Ok v -> snd (NS.add_child o db tg x) = if childless F (n_pk tg) then 3 else 4) /\
  (forall v, prepare_pos_add false p = Ok P -> add_sibling o db (fresh tg) p x = Ok v ->
     snd (NS.add_sibling o db (fresh tg) p x) = ns_add_cost (on_top F (n_pk tg)) (is_first F (n_pk tg)) (is_last F (n_pk tg)) P).
Proof.
  intros S Ht. split; [|split]; intros v.
  - intros E. assert (X := ns_add_root o db x). destruct (NS.add_root o db x) as [r n] eqn:En. cbn [fst snd] in *. subst r. rewrite E in En. eapply ns_add_root_exact; eauto.
  - intros E. assert (X := ns_add_child o db tg x). destruct (NS.add_child o db tg x) as [r n] eqn:En. cbn [fst snd] in *. subst r. rewrite E in En.
    destruct (ns_add_child_exact o unsorted _ _ _ _ _ En) as (q & Eq & ->).
    assert (q = tg) as -> by (destruct S as (Wf & ts & I & Pe); rewrite (NSReads.get_by_pk_in _ F ts Wf I Pe tg Ht) in Eq; congruence).
    rewrite (ns_childless _ F tg S Ht). auto.
  - intros EP E. assert (X := ns_add_sibling o db (fresh tg) p x). destruct (NS.add_sibling o db (fresh tg) p x) as [r n] eqn:En. cbn [fst snd] in *. subst r. rewrite E in En.
    destruct (ns_ends _ F tg S Ht) as (L & EL & <- & <-). rewrite <- (ns_top _ F tg S Ht). eapply ns_add_sibling_exact; eauto.
Qed.

(** The statements of a move by its place; to the last child of a node with children: 8 *)
Definition move_cost (F : forest node) (tg : nat) (P : pos) : nat :=
  if onto_child P then if childless F tg then 6 else match P with FirstChild => 9 | _ => 8 end
  else ns_move_cost (on_top F tg) (is_first F tg) (is_last F tg) P.

Theorem C64_ns_move_exact db F node tg p P v : NSInv.stores (ns_rows db) F -> In tg (ns_rows db) ->
  prepare_pos_move false p = Ok P -> n_pk (o_row node) <> n_pk tg ->
  (onto_child P = true -> forall a, last_opt (kl (Some (n_pk tg)) F) = Some a -> nid a <> n_pk (o_row node)) ->
  move o db node (fresh tg) p = Ok v ->
  snd (NS.move o db node (fresh tg) p) = move_cost F (n_pk tg) P.
Proof.
  intros S Ht EP Ne Nl E. assert (X := ns_move o db node (fresh tg) p). destruct (NS.move o db node (fresh tg) p) as [r n] eqn:En.
  cbn [fst snd] in *. subst r. rewrite E in En. destruct v as [[db' a] b]. unfold move_cost. destruct (onto_child P) eqn:C.
  - rewrite <- (ns_childless _ F tg S Ht). destruct (is_leaf tg) eqn:Lf; [eapply ns_move_leaf_exact; eauto|].
    destruct (PropsNS.C20_children _ F tg S Ht) as (k & Ek & _ & _ & Lk & _ & Lc & In1).
    destruct (get_last_child (ns_rows db) tg) as [c|] eqn:Ec.
    2:{ exfalso. destruct k as [|z k _] using rev_ind; [rewrite (proj2 Lk eq_refl) in Lf; discriminate Lf|].
        unfold last_opt in Lc. rewrite rev_app_distr in Lc. discriminate Lc. }
    assert (Hc : In c (get_children (ns_rows db) tg)).
    { unfold get_last_child, last_opt in Ec. apply in_rev. destruct (rev (get_children (ns_rows db) tg)); [discriminate Ec|]. injection Ec as ->. left. auto. }
    assert (Hci := In1 c Hc). destruct (ns_ends _ F c S Hci) as (L & EL & _).
    assert (Pc : is_root c = false).
    { rewrite (ns_top _ F c S Hci). unfold on_top.
      assert (Y := proj1 (PropsNS.C20_predicates _ F c tg S Hci Ht)). rewrite (proj1 Y); auto.
      unfold is_child_of. apply existsb_exists. exists c. split; auto. apply Nat.eqb_refl. }
    eapply ns_move_child_exact; eauto. specialize (Nl eq_refl (NSReads.row_node c)).
    rewrite (kl_kid_list _ _ _ Ek) in Nl. intros Eq. apply Nl; auto. 
  - destruct (ns_ends _ F tg S Ht) as (L & EL & <- & <-). rewrite <- (ns_top _ F tg S Ht). eapply ns_move_sibling_exact; eauto. destruct P; cbn; auto; discriminate C.
Qed.

Theorem C64_ns_delete db sel : length (concat (CrashModel.ns_delete_transactions db sel)) <= 1 + length (filter sel (ns_rows db)).
Proof. apply ns_delete_most. Qed.
End NS.

(** ** Ltree: four statements each time that labels are appended an A to make room *)
Section LT.
Import LTModel.
Variable cfg : lt_cfg.
Definition rounds (db db' : lt_db) : nat := length (lt_sig db') - length (lt_sig db).

Theorem C64_lt_adds_exact db F tg x : LTInv.stores cfg (lt_rows db) F -> In tg (lt_rows db) -> is_sorted cfg = false ->
  (forall v, add_root cfg db x = Ok v -> snd (LT.add_root cfg db x) = match F with Nil => 2 | _ => 3 end) /\
  (forall v, add_child cfg db tg x = Ok v -> snd (LT.add_child cfg db tg x) = if childless F (l_pk tg) then 3 else 5).
Proof.
  intros S Ht So. split; intros v E.
  - assert (X := lt_add_root cfg db x). destruct (LT.add_root cfg db x) as [r n] eqn:En. cbn [fst snd] in *. subst r. rewrite E in En.
    rewrite (lt_add_root_exact cfg _ _ _ _ So En). assert (R := PropsLT.C32_roots cfg _ _ S). unfold get_last_root_node, last_opt.
    destruct F as [|z k l].
    + destruct (get_root_nodes (lt_rows db)); [auto|discriminate R].
    + destruct (get_root_nodes (lt_rows db)) as [|y ys] eqn:Ey; [discriminate R|]. cbn [rev]. destruct (rev ys ++ [y])%list eqn:Ez; [destruct (rev ys); discriminate Ez|auto].
  - assert (X := lt_add_child cfg db tg x). destruct (LT.add_child cfg db tg x) as [r n] eqn:En. cbn [fst snd] in *. subst r. rewrite E in En.
    rewrite (lt_add_child_exact cfg _ _ _ _ _ So En).
    destruct (PropsLT.C32_children cfg _ F tg S Ht) as (k & Ek & _ & _ & L & _). unfold childless.
    rewrite (kl_kid_list _ _ _ Ek). destruct k; [rewrite (proj2 L eq_refl); auto|]. destruct (is_leaf (lt_rows db) tg); auto. discriminate (proj1 L eq_refl).
Qed.

Theorem C64_lt_sibling_exact db tg p P x db' r : prepare_pos_add (is_sorted cfg) p = Ok P -> add_sibling cfg db tg p x = Ok (db', r) ->
  snd (LT.add_sibling cfg db tg p x) = finds P (fst (neighbours cfg (lt_rows db) tg P (new_data x))) + 4 * rounds db db' + 2.
Proof.
  intros EP E. assert (X := lt_add_sibling cfg db tg p x). destruct (LT.add_sibling cfg db tg p x) as [q n] eqn:En. cbn [fst snd] in *. subst q. rewrite E in En.
  destruct (lt_add_sibling_exact cfg _ _ _ _ _ _ _ _ EP En) as (k & b & A & B & ->). unfold rounds. lia.
Qed.
Theorem C64_lt_move_exact db node tg p P db' r : prepare_pos_move (is_sorted cfg) p = Ok P -> move cfg db node tg p = Ok (db', r) ->
  exists k, rounds db db' = k + 1 /\
  snd (LT.move cfg db node tg p) = finds P (fst (neighbours cfg (lt_rows db) tg P (l_data node))) + 4 * k + (if k =? 0 then 0 else 1) + 3.
Proof.
  intros EP E. assert (X := lt_move cfg db node tg p). destruct (LT.move cfg db node tg p) as [q n] eqn:En. cbn [fst snd] in *. subst q. rewrite E in En.
  destruct (lt_move_exact cfg _ _ _ _ _ _ _ _ EP En) as (k & b & A & B & ->). exists k. unfold rounds. lia.
Qed.
End LT.

(** ** Examples *)
(** The numbers of the theorems are reached on the tree of Fixture.v. *)
Example C64_mp_exact_example : let db := PropsMP.ex_db in let r := PropsMP.row db in let c := PropsMP.c10 in let x := MPModel.mkNew 50 0 [] in
  MPInv.stores c (MPModel.db_rows db) ex_F /\ In (r 3) (MPModel.db_rows db) /\ MPModel.is_sorted c = false /\
  snd (MP.add_root c db x) = 2 /\ snd (MP.add_child c db (r 3) x) = 3 /\ snd (MP.add_child c db (r 1) x) = 4 /\
  (exists db' n, MPModel.add_sibling c db (r 3) (Some "left") x = Ok (db', n) /\ signals db db' 2 /\ MPModel.get_basepath c (MPModel.m_path n) 1 <> [] /\
     snd (MP.add_sibling c db (r 3) (Some "left") x) = 2 + 3) /\
  (exists db' n t, MPModel.move c db (r 6) (r 3) (Some "left") = Ok (db', n, t) /\ signals db db' 3 /\ db' <> db /\
     lowered (MPModel.db_rows db) (MPModel.db_rows db') = true /\ raised (MPModel.db_rows db) (MPModel.db_rows db') = true /\
     snd (MP.move c db (r 6) (r 3) (Some "left")) = 3 + 1 + 1 + 3).
Proof.
  split; [apply PropsMP.ex_stores|]. split; [vm_compute; tauto|]. do 4 (split; [vm_compute; reflexivity|]). split.
  - vm_compute. do 2 eexists. repeat split. discriminate.
  - vm_compute. do 3 eexists. repeat split. discriminate.
Qed.
Example C64_ns_exact_example : let db := PropsNS.ex_db in let r i := PropsNS.row db i in let x := nd 50 0 in
  NSInv.stores (NSModel.ns_rows db) ex_F /\ In (r 5) (NSModel.ns_rows db) /\
  snd (NS.add_root [] db x) = 2 /\ snd (NS.add_child [] db (r 5) x) = 3 /\ snd (NS.add_child [] db (r 1) x) = 4 /\
  map (fun p => snd (NS.add_sibling [] db (NSModel.fresh (r 5)) (Some p) x)) ["first-sibling"; "left"; "right"; "last-sibling"] = [4; 4; 4; 3] /\
  map (ns_add_cost (on_top ex_F 5) (is_first ex_F 5) (is_last ex_F 5)) [FirstSibling; Left; Right; LastSibling] = [4; 4; 4; 3] /\
  map (fun p => snd (NS.add_sibling [] db (NSModel.fresh (r 3)) (Some p) x)) ["left"; "right"] = [5; 5] /\
  map (fun p => snd (NS.move [] db (NSModel.fresh (r 6)) (NSModel.fresh (r 1)) (Some p)))
    ["first-child"; "last-child"; "first-sibling"; "left"; "right"; "last-sibling"] = [9; 8; 7; 7; 8; 6] /\
  map (move_cost ex_F 1) [FirstChild; LastChild; FirstSibling; Left; Right; LastSibling] = [9; 8; 7; 7; 8; 6] /\
  map (fun p => snd (NS.move [] db (NSModel.fresh (r 6)) (NSModel.fresh (r 3)) (Some p))) ["first-child"; "left"; "right"] = [6; 9; 9].
Proof. split; [apply PropsNS.ex_stores|]. split; [vm_compute; tauto|]. vm_compute. auto 12. Qed.
Example C64_lt_exact_example : let db := PropsLT.ex_db in let r := PropsLT.row db in let c := PropsLT.c0 in let x := LTModel.mkNew 50 [] in
  LTInv.stores c (LTModel.lt_rows db) ex_F /\ In (r 3) (LTModel.lt_rows db) /\ LTModel.is_sorted c = false /\
  snd (LT.add_root c db x) = 3 /\ snd (LT.add_child c db (r 3) x) = 3 /\ snd (LT.add_child c db (r 1) x) = 5 /\
  (exists db' n, LTModel.add_sibling c db (r 5) (Some "left") x = Ok (db', n) /\ rounds db db' = 1 /\
     snd (LT.add_sibling c db (r 5) (Some "left") x) = 1 + 4 + 2) /\
  (exists db' n, LTModel.move c db (r 6) (r 5) (Some "left") = Ok (db', n) /\ rounds db db' = 2 /\
     snd (LT.move c db (r 6) (r 5) (Some "left")) = 1 + 4 + 1 + 3).
Proof.
  split; [apply PropsLT.ex_stores|]. split; [vm_compute; tauto|]. do 4 (split; [vm_compute; reflexivity|]). 
  split; vm_compute; do 2 eexists; repeat split.
Qed.
Example C64_delete_example :
  length (MPModel.delete_statements PropsMP.c10 (MPModel.db_rows PropsMP.ex_db) (fun r => existsb (Nat.eqb (MPModel.m_pk r)) [3; 6; 7])) = 3 /\
  length (concat (CrashModel.ns_delete_transactions PropsNS.ex_db (fun r => existsb (Nat.eqb (NSModel.n_pk r)) [3; 6; 7]))) = 4.
Proof. vm_compute. auto. Qed.

Print Assumptions C64_mp_exact.
Print Assumptions C64_mp_sibling_least.
Print Assumptions C64_mp_move_least.
Print Assumptions C64_mp_delete.
Print Assumptions C64_ns_adds_exact.
Print Assumptions C64_ns_move_exact.
Print Assumptions C64_ns_delete.
Print Assumptions C64_lt_adds_exact.
Print Assumptions C64_lt_sibling_exact.
Print Assumptions C64_lt_move_exact.
