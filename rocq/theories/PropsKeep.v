(** load_bulk with keep_ids and primary keys that are missing or already used (C48).

    /repo/treebeard/models.py:465-470 and /repo/treebeard/mp_tree.py:643-648 say that loading
    with keep_ids "Will error if there are nodes without primary key info or if the primary keys
    are already used." *)
From Coq Require Import String List Arith Lia Bool ZArith.
From Verif Require Import Prelude Forest SpecFacts CommonModel Order History Fixture BulkModel BulkLoad.
From Verif Require MPModel MPFixModel MPInv MPCheck MPSignals PropsMP NSModel NSInv NSCheck PropsNS ALModel ALInv PropsAL
  LTModel LTInv LTCheck PropsLT PropsBulk.
Import ListNotations.
Local Open Scope nat_scope.

(** ** Missing primary keys: the promised error, and nothing is written *)
Theorem C48_missing_partial next data : (exists it, In it (preorder data) /\ it_pk it = None) ->
  (forall cfg db parent, mp_load_bulk cfg next true db data parent = Err KeyError) /\
  (forall cfg db parent, mp_load_bulk_create cfg next true db data parent = Err KeyError) /\
  (forall o db parent, ns_load_bulk o next true db data parent = Err KeyError) /\
  (forall o t parent, al_load_bulk o next true t data parent = Err KeyError) /\
  (forall cfg db parent, lt_load_bulk cfg next true db data parent = Err KeyError).
Proof.
  intros H. assert (E := prepare_missing next data 0 H). split; [|split; [|split; [|split]]]; intros.
  - unfold mp_load_bulk. rewrite E. auto.
  - unfold mp_load_bulk_create. replace (prepare_tops true next 0 (length (roots data)) data) with (@Err (forest node) KeyError); auto.
    symmetry. clear E. generalize 0 at 1 as i. generalize (length (roots data)) as n.
    induction data as [|a k IHk r IHr]; intros n i; [destruct H as (it & [] & _)|]. cbn [prepare_tops]. unfold item_pk.
    destruct (it_pk a) as [p|] eqn:Ea; auto. cbn [bind]. destruct (prepare true next n k) as [[k' m]|e] eqn:Ek; cbn [bind].
    + rewrite IHr; auto. destruct H as (it & Hi & En). exists it. split; auto. cbn [preorder In] in Hi. rewrite in_app_iff in Hi.
      destruct Hi as [<-|[Hi|Hi]]; auto; [congruence|]. exfalso. rewrite (prepare_missing next k n) in Ek by eauto. discriminate.
    + f_equal. clear -Ek. revert n e Ek. induction k as [|b k IHk r IHr]; intros n e; cbn [prepare]; [discriminate|].
      unfold item_pk. destruct (it_pk b); cbn [bind]; [|intros E; injection E as <-; auto].
      destruct (prepare true next (S n) k) as [[k' m]|e'] eqn:E1; cbn [bind].
      * destruct (prepare true next m r) as [[r' m']|e'] eqn:E2; cbn [bind]; [discriminate|].
        intros E. injection E as <-. eauto.
      * intros E. injection E as <-. eauto.
  - unfold ns_load_bulk. rewrite E. auto.
  - unfold al_load_bulk. rewrite E. auto.
  - unfold lt_load_bulk. rewrite E. auto.
Qed.

Example C48_missing_example :
  let data := Cons (mkItem (Some 20) [Some 1%Z]) (Cons (mkItem None [Some 2%Z]) Nil Nil) Nil in
  (exists it, In it (preorder data) /\ it_pk it = None) /\
  ns_load_bulk [] PropsBulk.from20 true PropsNS.ex_db data None = Err KeyError.
Proof. split; [eexists; split; [right; left; reflexivity|reflexivity]|reflexivity]. Qed.

(** ** bulk_create: used keys below the first level are an error *)
Section BulkCreate.
Import MPModel MPInv MPSignals.
Variable cfg : mp_cfg.

Lemma save_pks db r db' i : save_row db r = Ok db' -> In i (map m_pk (db_rows db)) -> In i (map m_pk (db_rows db')).
Proof.
  unfold save_row. destruct (existsb _ (db_rows db)); [discriminate|]. destruct (existsb _ (db_rows db)).
  - intros E. injection E as <-. cbn [db_rows]. rewrite map_map. intros H. apply in_map_iff in H. destruct H as (x & <- & Hx).
    apply in_map_iff. exists x. split; auto. destruct (Nat.eqb_spec (m_pk x) (m_pk r)); auto.
  - intros E. injection E as <-. cbn. auto.
Qed.

Lemma add_sibling_pks db target p x db' r i : add_sibling cfg db target p x = Ok (db', r) ->
  In i (map m_pk (db_rows db)) -> In i (map m_pk (db_rows db')).
Proof.
  unfold add_sibling. destruct (prepare_pos_add (is_sorted cfg) p) as [P|]; cbn [bind]; [|discriminate].
  match goal with |- (bind ?X _ = _ -> _) => destruct X as [[[P' np] sib]|]; cbn [bind]; [|discriminate] end.
  destruct (reorder _ _ _ _ _ _ _ _) as [[[[db1 op] newpath] tp]|] eqn:E; cbn [bind]; [|discriminate].
  apply heard_reorder in E. cbv zeta.
  match goal with |- (bind (save_row ?d ?w) _ = _ -> _) => set (db2 := d); set (row := w) end.
  destruct (save_row db2 row) as [db3|] eqn:Es; cbn [bind]; [|discriminate]. intros H. injection H as <- _.
  intros Hi. eapply save_pks; eauto. rewrite (heard_pks cfg db db2); auto.
  eapply heard_trans; [exact E|]. unfold db2. destruct (get_basepath _ _ _); [apply heard_refl|]. apply heard_same. apply copy_nc.
Qed.

Lemma mp_add_pks db up nc x db' r up' i : mp_add cfg db up nc x = Ok (db', r, up') ->
  In i (map m_pk (db_rows db)) -> In i (map m_pk (db_rows db')).
Proof.
  unfold mp_add. destruct up as [p|].
  - destruct (add_child cfg db p _) as [[[d q] p']|] eqn:E; cbn [bind]; [|discriminate]. intros H Hi. injection H as <- _ _.
    revert E. unfold add_child. destruct (get_by_pk _ _) as [n|]; cbn [bind]; [|discriminate].
    destruct (is_sorted cfg && negb (is_leaf n)).
    + destruct (opt_res _ _) as [l|]; cbn [bind]; [|discriminate].
      destruct (add_sibling cfg db l _ _) as [[d1 y]|] eqn:E; cbn [bind]; [|discriminate]. intros H. injection H as <- _ _.
      eapply add_sibling_pks; eauto.
    + cbv zeta. match goal with |- (bind ?X _ = _ -> _) => destruct X as [np|]; cbn [bind]; [|discriminate] end.
      destruct (save_row _ _) as [d1|] eqn:E; cbn [bind]; [|discriminate]. intros H. injection H as <- _ _.
      eapply save_pks; [exact E|]. cbn [db_rows]. rewrite map_map.
      replace (map (fun y => m_pk (upd_nc_pk (m_pk n) S y)) (db_rows db)) with (map m_pk (db_rows db)); auto.
      apply map_ext. intros y. unfold upd_nc_pk. destruct (m_pk y =? m_pk n); auto.
  - destruct (add_root cfg db _) as [[d q]|] eqn:E; cbn [bind]; [|discriminate]. intros H Hi. injection H as <- _ _.
    revert E. unfold add_root. destruct (get_last_root_node (db_rows db)) as [l|].
    + destruct (is_sorted cfg); [intros E; eapply add_sibling_pks; eauto|].
      destruct (inc_path _ _); cbn [bind]; [|discriminate]. destruct (save_row db _) as [d1|] eqn:E; cbn [bind]; [|discriminate].
      intros H. injection H as <- _. eapply save_pks; eauto.
    + cbv zeta. destruct (save_row db _) as [d1|] eqn:E; cbn [bind]; [|discriminate].
      intros H. injection H as <- _. eapply save_pks; eauto.
Qed.

Lemma build_pks g : forall p d i x, In x (ids g) -> In x (map m_pk (build_children cfg p d i g)).
Proof.
  induction g as [|a k IHk r IHr]; intros p d i x; [intros []|]. rewrite ids_cons. cbn [build_children map In]. cbv zeta.
  rewrite map_app, !in_app_iff. intros [H|[H|H]]; auto.
Qed.

Lemma insert_used i : forall l t, In i (map m_pk t) -> In i (map m_pk l) -> insert_all t l = Err IntegrityError.
Proof.
  induction l as [|r l IH]; intros t Ht H; [destruct H|]. destruct H as [H|H]; cbn [insert_all].
  - replace (existsb _ t) with true; auto. symmetry. apply existsb_exists. apply in_map_iff in Ht. destruct Ht as (x & E & Hx).
    exists x. split; auto. rewrite E, H, Nat.eqb_refl. auto.
  - destruct (existsb _ t); auto. apply IH; auto. cbn. auto.
Qed.

(** The items below the first level. *)
Fixpoint lower (data : forest item) : list item :=
  match data with Nil => [] | Cons _ k r => preorder k ++ lower r end.

(** Missing for the whole claim: the items of the first level, see C48_mp_bulk_create_refuted. *)
Theorem C48_mp_bulk_create_partial next db data parent it i : In it (lower data) -> it_pk it = Some i ->
  In i (map m_pk (db_rows db)) -> exists e, mp_load_bulk_create cfg next true db data parent = Err e.
Proof.
  intros Hi Ei Hu. unfold mp_load_bulk_create.
  destruct (prepare_tops true next 0 (length (roots data)) data) as [g|e] eqn:Ep; cbn [bind]; eauto.
  destruct (load_tops cfg db parent g) as [[[db' added] rows]|e] eqn:El; cbn [bind]; eauto.
  enough (H : In i (map m_pk (db_rows db')) /\ In i (map m_pk rows)).
  { rewrite (insert_used i); [cbn; eauto| |]; apply H. }
  assert (P : forall d n d' m, prepare true next n d = Ok (d', m) -> In it (preorder d) -> In i (ids d')).
  { clear -Ei. induction d as [|a k IHk r IHr]; intros n d' m; [intros _ []|]. cbn [prepare]. unfold item_pk.
    destruct (it_pk a) as [p|] eqn:Ea; cbn [bind]; [|discriminate].
    destruct (prepare true next (S n) k) as [[k' m1]|] eqn:E1; cbn [bind]; [|discriminate].
    destruct (prepare true next m1 r) as [[r' m2]|] eqn:E2; cbn [bind]; [|discriminate].
    intros E. injection E as <- _. cbn [preorder In]. rewrite in_app_iff, ids_cons. cbn [In nid]. rewrite in_app_iff.
    intros [->|[H|H]]; eauto. left. congruence. }
  revert Ep El Hu. generalize 0 at 1 as j. generalize (length (roots data)) as n. revert g db parent db' added rows.
  induction data as [|a k _ r IH]; intros g db parent db' added rows n j; [destruct Hi|]. cbn [prepare_tops]. unfold item_pk.
  destruct (it_pk a) as [p|]; cbn [bind]; [|discriminate].
  destruct (prepare true next n k) as [[k' m]|] eqn:Ek; cbn [bind]; [|discriminate].
  destruct (prepare_tops true next (S j) m r) as [r'|] eqn:Er; cbn [bind]; [|discriminate].
  intros E. injection E as <-. cbn [load_tops].
  destruct (mp_add cfg db parent _ _) as [[[d1 obj] up]|] eqn:Ea; cbn [bind]; [|discriminate].
  destruct (load_tops cfg d1 up r') as [[[d2 added2] rows2]|] eqn:El; cbn [bind]; [|discriminate].
  intros E Hu. injection E as <- _ <-. assert (U1 := mp_add_pks _ _ _ _ _ _ _ _ Ea Hu).
  assert (Hk : In i (map m_pk (db_rows d2))).
  { clear -El U1. revert d1 up d2 added2 rows2 El U1. induction r' as [|b kk _ rr IH]; intros d1 up d2 added2 rows2; cbn [load_tops].
    - intros E. injection E as <- _ _. auto.
    - destruct (mp_add cfg d1 up _ _) as [[[d3 o3] u3]|] eqn:E3; cbn [bind]; [|discriminate].
      destruct (load_tops cfg d3 u3 rr) as [[[d4 a4] r4]|] eqn:E4; cbn [bind]; [|discriminate].
      intros E U. injection E as <- _ _. eapply IH; eauto. eapply mp_add_pks; eauto. }
  split; auto. rewrite map_app, in_app_iff. cbn [lower] in Hi. apply in_app_iff in Hi. destruct Hi as [Hi|Hi].
  - left. apply build_pks. eauto.
  - right. eapply IH; eauto.
Qed.
End BulkCreate.

Example C48_mp_bulk_create_example :
  let data := Cons (mkItem (Some 20) [Some 1%Z]) (Cons (mkItem (Some 3) [Some 2%Z]) Nil Nil) Nil in
  In (mkItem (Some 3) [Some 2%Z]) (lower data) /\ In 3 (map MPModel.m_pk (MPModel.db_rows PropsMP.ex_db)) /\
  mp_load_bulk_create PropsMP.c10 PropsBulk.from20 true PropsMP.ex_db data None = Err IntegrityError.
Proof. split; [cbn; auto|split; [vm_compute; tauto|reflexivity]]. Qed.

(** ** load_bulk, and the first level with bulk_create: no error *)

(** Node 1 has the children 3 and 5; it is loaded again, as a root.  The row of the node is
    overwritten and its children lose their parent. *)
Definition again1 : forest item := Cons (mkItem (Some 1) [Some 11%Z]) Nil Nil.

Theorem C48_mp_refuted : exists db',
  MPInv.stores PropsMP.c10 (MPModel.db_rows PropsMP.ex_db) ex_F /\ In 1 (ids ex_F) /\
  mp_load_bulk PropsMP.c10 PropsBulk.from20 true PropsMP.ex_db again1 None = Ok (db', [1]) /\
  (forall G, ~ MPInv.stores PropsMP.c10 (MPModel.db_rows db') G) /\
  MPFixModel.find_problems PropsMP.c10 (MPModel.db_rows db') None <> [].
Proof.
  eexists. split; [apply PropsMP.ex_stores|]. split; [vm_compute; tauto|]. split; [vm_compute; reflexivity|].
  split; [|vm_compute; discriminate]. intros G S. apply (MPCheck.find_problems_clean PropsMP.c10 ltac:(cbn; lia) ltac:(cbn; lia) _ G None) in S. vm_compute in S. discriminate.
Qed.

Theorem C48_mp_bulk_create_refuted : exists db',
  MPInv.stores PropsMP.c10 (MPModel.db_rows PropsMP.ex_db) ex_F /\ In 1 (ids ex_F) /\
  mp_load_bulk_create PropsMP.c10 PropsBulk.from20 true PropsMP.ex_db again1 None = Ok (db', [1]) /\
  (forall G, ~ MPInv.stores PropsMP.c10 (MPModel.db_rows db') G).
Proof.
  eexists. split; [apply PropsMP.ex_stores|]. split; [vm_compute; tauto|]. split; [vm_compute; reflexivity|].
  intros G S. apply (MPCheck.find_problems_clean PropsMP.c10 ltac:(cbn; lia) ltac:(cbn; lia) _ G None) in S. vm_compute in S. discriminate.
Qed.

Theorem C48_ns_refuted : exists db',
  NSInv.stores (NSModel.ns_rows PropsNS.ex_db) ex_F /\ In 1 (ids ex_F) /\
  ns_load_bulk [] PropsBulk.from20 true PropsNS.ex_db again1 None = Ok (db', [1]) /\
  (forall G, ~ NSInv.stores (NSModel.ns_rows db') G) /\
  NSModel.find_problems (NSModel.ns_rows db') None <> ([], [], [], []).
Proof.
  eexists. split; [apply PropsNS.ex_stores|]. split; [vm_compute; tauto|]. split; [vm_compute; reflexivity|].
  split; [|vm_compute; discriminate]. intros G S. apply NSCheck.stores_no_problems in S. vm_compute in S. discriminate.
Qed.

(** Climbing from node to node along the column parent, [n] times. *)
Fixpoint climb (t : list ALModel.alrow) (n : nat) (i : nat) : option nat :=
  match n with
  | O => Some i
  | S n => match find (fun r => ALModel.a_pk r =? i) t with
           | Some r => match ALModel.a_parent r with Some p => climb t n p | None => None end
           | None => None
           end
  end.

(** Node 2 is loaded again below its grandchild 6: it becomes its own ancestor, so that
    get_ancestors, get_root and get_depth never end (the model has [OutOfFuel]). *)
Definition again2 : forest item := Cons (mkItem (Some 2) [Some 22%Z]) Nil Nil.

Theorem C48_al_refuted : exists t',
  ALInv.stores [] PropsAL.ex_t ex_F /\ In 2 (ids ex_F) /\
  al_load_bulk [] PropsBulk.from20 true PropsAL.ex_t again2 (Some (ALModel.fresh (PropsAL.row PropsAL.ex_t 6))) = Ok (t', [2]) /\
  (forall G, ~ ALInv.stores [] t' G) /\ (forall n, climb t' n 2 <> None).
Proof.
  eexists. split; [apply PropsAL.ex_stores|]. split; [vm_compute; tauto|]. split; [vm_compute; reflexivity|]. split.
  - intros G S. match type of S with ALInv.stores _ ?t _ => set (t' := t) in * end.
    destruct (PropsAL.C27_ancestors [] t' G (PropsAL.row t' 2) S) as (L & A & E & _); [vm_compute; tauto|].
    vm_compute in E. discriminate.
  - match goal with |- forall n, climb ?t n 2 <> None => set (t' := t) end.
    assert (E2 : forall n, climb t' (S n) 2 = climb t' n 6) by reflexivity.
    assert (E6 : forall n, climb t' (S n) 6 = climb t' n 4) by reflexivity.
    assert (E4 : forall n, climb t' (S n) 4 = climb t' n 2) by reflexivity.
    enough (H : forall n, climb t' n 2 <> None /\ climb t' n 6 <> None /\ climb t' n 4 <> None) by (intros n; apply H).
    induction n as [|n (H1 & H2 & H3)]; [cbn; repeat split; discriminate|]. rewrite E2, E6, E4. auto.
Qed.

(** The adjacency lists never look at the primary keys: with one in every item the load
    always succeeds, whatever the table has. *)
Theorem C48_al_no_error o next t data parent : (forall it, In it (preorder data) -> it_pk it <> None) ->
  exists t' l, al_load_bulk o next true t data parent = Ok (t', l) /\
    map Some l = map it_pk (preorder data) /\ (forall i, In i l -> In i (map ALModel.a_pk t')).
Proof.
  intros H. unfold al_load_bulk.
  assert (P : forall d n, (forall it, In it (preorder d) -> it_pk it <> None) -> exists g m, prepare true next n d = Ok (g, m) /\
    map (fun x => Some (nid x)) (preorder g) = map it_pk (preorder d)).
  { clear. induction d as [|a k IHk r IHr]; intros n H; [exists Nil, n; auto|]. cbn [prepare]. unfold item_pk.
    destruct (it_pk a) as [p|] eqn:Ea; [|exfalso; apply (H a); cbn; auto]. cbn [bind].
    destruct (IHk (S n)) as (k' & m & -> & Ek). { intros it Hi. apply H. cbn. rewrite in_app_iff. auto. } cbn [bind].
    destruct (IHr m) as (r' & m' & -> & Er). { intros it Hi. apply H. cbn. rewrite in_app_iff. auto. } cbn [bind].
    eexists _, _. split; [reflexivity|]. cbn [preorder map nid]. rewrite !map_app, Ek, Er, Ea. auto. }
  destruct (P data 0 H) as (g & m & -> & Eg). cbn [bind]. clear P.
  assert (Keep : forall s r i, In i (map ALModel.a_pk s) -> In i (map ALModel.a_pk (ALModel.save_row s r))).
  { intros s r i Hi. unfold ALModel.save_row. destruct (existsb _ s); [|cbn; auto]. rewrite map_map.
    apply in_map_iff in Hi. destruct Hi as (x & <- & Hx). apply in_map_iff. exists x. split; auto.
    destruct (Nat.eqb_spec (ALModel.a_pk x) (ALModel.a_pk r)); auto. }
  assert (New : forall s r, In (ALModel.a_pk r) (map ALModel.a_pk (ALModel.save_row s r))).
  { intros s r. unfold ALModel.save_row. destruct (existsb _ s) eqn:E; [|cbn; auto]. apply existsb_exists in E.
    destruct E as (x & Hx & E). apply in_map. apply in_map_iff. exists x. rewrite E. auto. }
  enough (L : forall g t up, exists t' l, load (al_add o) (fun n => ALModel.a_pk (ALModel.o_row n)) t up g = Ok (t', l) /\
    l = map nid (preorder g) /\ (forall i, In i (map ALModel.a_pk t) -> In i (map ALModel.a_pk t')) /\
    (forall i, In i l -> In i (map ALModel.a_pk t'))).
  { destruct (L g t parent) as (t' & l & E & El & _ & Hl). exists t', l. split; auto. split; auto. subst l. rewrite map_map. auto. }
  clear -Keep New. induction g as [|x k IHk r IHr]; intros t up; cbn [load].
  - exists t, []. split; auto. split; auto. split; auto. intros i [].
  - assert (A : exists r1 d1, al_add o t up x = Ok (ALModel.save_row t r1, ALModel.mkAObj r1 d1, up) /\ ALModel.a_pk r1 = nid x).
    { unfold al_add. destruct up as [p|]; cbn [ALModel.add_child ALModel.add_root bind]; unfold ALModel.add_child, ALModel.add_root;
        cbn [bind]; eexists _, _; split; reflexivity. }
    destruct A as (r1 & d1 & -> & Epk). cbn [bind].
    destruct (IHk (ALModel.save_row t r1) (Some (ALModel.mkAObj r1 d1))) as (t1 & l1 & -> & E1 & K1 & N1). cbn [bind].
    destruct (IHr t1 up) as (t2 & l2 & -> & E2 & K2 & N2). cbn [bind ALModel.o_row]. eexists _, _. split; [reflexivity|].
    cbn [preorder map]. rewrite map_app, Epk, E1, E2. split; auto. split; auto.
    intros i [<-|Hi].
    + apply K2, K1. rewrite <- Epk. apply New.
    + apply in_app_iff in Hi. subst l1 l2. destruct Hi; auto.
Qed.

Example C48_al_no_error_example : exists t',
  let data := Cons (mkItem (Some 20) [Some 1%Z]) (Cons (mkItem (Some 3) [Some 2%Z]) Nil Nil) Nil in
  (forall it, In it (preorder data) -> it_pk it <> None) /\ In 3 (map ALModel.a_pk PropsAL.ex_t) /\
  al_load_bulk [] PropsBulk.from20 true PropsAL.ex_t data None = Ok (t', [20; 3]).
Proof.
  eexists. cbv zeta. split; [|split; [vm_compute; tauto|vm_compute; reflexivity]].
  intros it [<-|[<-|[]]]; discriminate.
Qed.

Theorem C48_lt_refuted : exists db',
  LTInv.stores PropsLT.c0 (LTModel.lt_rows PropsLT.ex_db) ex_F /\ In 1 (ids ex_F) /\
  lt_load_bulk PropsLT.c0 PropsBulk.from20 true PropsLT.ex_db again1 None = Ok (db', [1]) /\
  (forall G, ~ LTInv.stores PropsLT.c0 (LTModel.lt_rows db') G).
Proof.
  eexists. split; [apply PropsLT.ex_stores|]. split; [vm_compute; tauto|]. split; [vm_compute; reflexivity|].
  intros G S. match type of S with LTInv.stores _ (LTModel.lt_rows ?d) _ => set (db' := d) in * end.
  assert (P := proj1 (LTCheck.stores_iff PropsLT.c0 (LTModel.lt_rows db')) (ex_intro _ G S)). destruct P as (P & _).
  destruct (LTCheck.po_par _ _ P (PropsLT.row db' 3)) as [E|(r & s & Hr & E)]; [vm_compute; tauto|vm_compute in E; discriminate|].
  assert (EL : LTModel.l_path r = removelast (LTModel.l_path (PropsLT.row db' 3))) by (rewrite E, removelast_last; auto).
  clear -Hr EL. apply (in_map LTModel.l_path) in Hr. rewrite EL in Hr. vm_compute in Hr.
  repeat (destruct Hr as [Hr|Hr]; [discriminate|]). auto.
Qed.

Print Assumptions C48_missing_partial.
Print Assumptions C48_mp_bulk_create_partial.
Print Assumptions C48_mp_refuted.
Print Assumptions C48_mp_bulk_create_refuted.
Print Assumptions C48_ns_refuted.
Print Assumptions C48_al_refuted.
Print Assumptions C48_al_no_error.
Print Assumptions C48_lt_refuted.
