(** C59: moving a tree to other settings or to another implementation with dump_bulk and
    load_bulk, models.py:439-489, mp_tree.py:277-279, 614-760,
    ns_tree.py:385-420, al_tree.py:159-190, ltree/__init__.py:365-400. *)
From Coq Require Import String List Arith Lia Bool ZArith Permutation.
From Verif Require Import Prelude Forest SpecFacts SpecSane CommonModel Order History SpecKids SpecRun SpecPerm Fixture
  BulkModel BulkFacts BulkTrees BulkLoad BulkMP BulkLTSorted BulkLTRoots PropsBulk.
From Verif Require MPModel MPInv MPFixModel MPHist MPCheck NSModel NSInv NSHist ALModel ALInv ALHist LTModel LTInv LTHist
  PropsMP PropsNS PropsAL PropsLT.
Import ListNotations.
Local Open Scope nat_scope.

(** The settings of a model, and its table. *)
Inductive settings :=
| UseMP (cfg : MPModel.mp_cfg)
| UseNS (o : ordering)
| UseAL (o : ordering)
| UseLT (cfg : LTModel.lt_cfg).
Inductive table :=
| TableMP (t : list MPModel.mprow)
| TableNS (t : list NSModel.nsrow)
| TableAL (t : list ALModel.alrow)
| TableLT (t : list LTModel.ltrow).

(** The forest of a table. *)
Definition holds (s : settings) (t : table) (F : forest node) : Prop :=
  match s, t with
  | UseMP cfg, TableMP t => MPInv.stores cfg t F
  | UseNS _, TableNS t => NSInv.stores t F
  | UseAL o, TableAL t => ALInv.stores o t F
  | UseLT cfg, TableLT t => LTInv.stores cfg t F
  | _, _ => False
  end.

(** Model.objects.dump_bulk() of a table, mp_tree.py:713, ns_tree.py:385, al_tree.py:159,
    ltree/__init__.py:365. *)
Definition dump (s : settings) (t : table) : res (forest item) :=
  match s, t with
  | UseMP cfg, TableMP t => mp_dump_bulk cfg t None true
  | UseNS _, TableNS t => ns_dump_bulk t None true
  | UseAL o, TableAL t => al_dump_bulk o t None true
  | UseLT _, TableLT t => lt_dump_bulk t None true
  | _, _ => Err TypeError
  end.

(** Model.objects.load_bulk(data, keep_ids=True) into an empty table, models.py:439 and
    mp_tree.py:614. *)
Definition load_empty (s : settings) (next : nat -> nat) (data : forest item) : res (table * list nat) :=
  match s with
  | UseMP cfg => do '(db, l) <- mp_load_bulk cfg next true (MPModel.mkDB [] []) data None; Ok (TableMP (MPModel.db_rows db), l)
  | UseNS o => do '(db, l) <- ns_load_bulk o next true (NSModel.mkNSDB [] []) data None; Ok (TableNS (NSModel.ns_rows db), l)
  | UseAL o => do '(t, l) <- al_load_bulk o next true [] data None; Ok (TableAL t, l)
  | UseLT cfg => do '(db, l) <- lt_load_bulk cfg next true (LTModel.mkLTDB [] []) data None; Ok (TableLT (LTModel.lt_rows db), l)
  end.

(** The settings make sense, and reading with them is determined: with node_order_by an
    adjacency list does not store the order of equal siblings. *)
Definition sane (s : settings) (F : forest node) : Prop :=
  match s with
  | UseMP cfg => 2 <= MPModel.radix cfg /\ 1 <= MPModel.steplen cfg
  | UseNS _ => True
  | UseAL o => o = [] \/ ALInv.strict o F
  | UseLT cfg => 2 <= LTModel.label_max cfg
  end.

(** The number of siblings is at most [m] everywhere. *)
Definition wide_at_most (m : nat) (F : forest node) : Prop :=
  forall q L, kid_list q F = Some L -> length L <= m.
(** No node is deeper than [m]. *)
Definition deep_at_most (m : nat) (F : forest node) : Prop :=
  forall i L, ancestors_of i F = Some L -> length L < m.

(** There is room in the new table, and the forest is in its order. *)
Definition takes (s : settings) (F : forest node) : Prop :=
  match s with
  | UseMP cfg => 2 <= MPModel.radix cfg /\ 1 <= MPModel.steplen cfg /\ ordered (MPModel.order_by cfg) F /\
      wide_at_most (MPModel.radix cfg ^ MPModel.steplen cfg - 1) F /\
      exists d, deep_at_most d F /\ d * MPModel.steplen cfg <= MPModel.maxlen cfg
  | UseNS o => ordered o F
  | UseAL o => ordered o F
  | UseLT cfg => 2 <= LTModel.label_max cfg /\ LTModel.lt_order cfg = [] /\ wide_at_most 26 F
  end.

Lemma holds_wf s t F : holds s t F -> wf_ids F.
Proof.
  destruct s, t; cbn; try tauto.
  - intros (f & _ & _ & _ & W). auto.
  - apply PropsNS.stores_wf.
  - apply PropsAL.stores_wf.
  - intros (f & _ & _ & W). auto.
Qed.

Lemma wide_narrow m F : wf_ids F -> (forall i L, kid_list (Some i) F = Some L -> length L <= m) -> narrow (S m) F.
Proof.
  unfold kid_list. cbn [kids_of]. induction F as [|a k IHk r IHr]; intros W H; cbn [narrow]; auto.
  apply wf_cons_inv in W. destruct W as (Ak & Ar & Wk & Wr & D). split; [|split].
  - specialize (H (nid a) (roots k)). cbn [children_of] in H. rewrite Nat.eqb_refl in H. specialize (H eq_refl). lia.
  - apply IHk; auto. intros i L E. destruct (children_of i k) as [c|] eqn:Ec; [|discriminate]. apply (H i L). cbn [children_of].
    assert (In i (ids k)) by apply (children_in _ _ _ Ec). destruct (Nat.eqb_spec (nid a) i) as [<-|]; [tauto|]. rewrite Ec. auto.
  - apply IHr; auto. intros i L E. destruct (children_of i r) as [c|] eqn:Ec; [|discriminate]. apply (H i L). cbn [children_of].
    assert (Ir : In i (ids r)) by apply (children_in _ _ _ Ec). destruct (Nat.eqb_spec (nid a) i) as [<-|]; [tauto|].
    destruct (children_of i k) as [c'|] eqn:Ek; [|rewrite Ec; auto]. exfalso. apply (D i); auto. apply (children_in _ _ _ Ek).
Qed.

Lemma wide_all m F : wf_ids F -> wide_at_most m F -> length (roots F) < S m /\ narrow (S m) F.
Proof.
  intros W H. split; [|apply wide_narrow; auto; intros i L; apply H].
  specialize (H None (roots F) eq_refl). lia.
Qed.

Lemma ancestors_ids i F : forall L, ancestors_of i F = Some L -> In i (ids F).
Proof.
  induction F as [|a k IHk r IHr]; intros L; [discriminate|]. cbn [ancestors_of]. rewrite ids_cons. simpl. rewrite in_app_iff.
  destruct (Nat.eqb_spec (nid a) i) as [<-|]; auto. destruct (ancestors_of i k); eauto.
Qed.

Lemma deep_height F : forall d, wf_ids F -> deep_at_most d F -> height F <= d.
Proof.
  induction F as [|a k IHk r IHr]; intros d W H; cbn [height]; [lia|].
  apply wf_cons_inv in W. destruct W as (Ak & Ar & Wk & Wr & D).
  assert (H0 : 0 < d). { apply (H (nid a) []). cbn [ancestors_of]. rewrite Nat.eqb_refl. auto. }
  apply Nat.max_lub.
  - destruct d as [|d]; [lia|]. apply le_n_S. apply IHk; auto. intros i L E. assert (Hi := ancestors_ids _ _ _ E).
    specialize (H i (a :: L)). cbn [ancestors_of] in H. destruct (Nat.eqb_spec (nid a) i) as [<-|]; [tauto|]. rewrite E in H.
    specialize (H eq_refl). cbn in H. lia.
  - apply IHr; auto. intros i L E. assert (Hi := ancestors_ids _ _ _ E). apply (H i L). cbn [ancestors_of].
    destruct (Nat.eqb_spec (nid a) i) as [<-|]; [tauto|]. destruct (ancestors_of i k) as [L'|] eqn:E'; auto.
    exfalso. apply (D i); auto. apply (ancestors_ids _ _ _ E').
Qed.

Lemma dump_ok s t F : holds s t F -> sane s F -> dump s t = Ok (dumped true F).
Proof.
  destruct s as [cfg|o|o|cfg], t as [t|t|t|t]; cbn [holds sane dump]; try tauto.
  - intros St (H1 & H2). apply (C12_dump cfg H1 H2 t F None true St). discriminate.
  - intros St _. apply (C22_dump t F None true St). discriminate.
  - intros St H. apply (C12_al_dump o t F None true St H). discriminate.
  - intros St _. apply (C12_lt_dump cfg t F None true St). discriminate.
Qed.

Lemma load_takes s F next : wf_ids F -> takes s F ->
  exists t, load_empty s next (dumped true F) = Ok (t, ids F) /\ holds s t F.
Proof.
  intros W. assert (Nn : forall i, In i (ids F) -> ~ In i (ids Nil)) by (intros i _ []).
  destruct s as [cfg|o|o|cfg]; cbn [takes load_empty].
  - intros (H1 & H2 & O & Wi & d & De & Ml).
    destruct (C12_load_last cfg H1 H2 next true (MPModel.mkDB [] []) Nil (dumped true F) None F) as [(db' & E & S & _)|(_ & N)]; auto.
    + apply MPHist.empty_stores.
    + intros No. split; constructor.
    + discriminate.
    + apply describes_dumped.
    + apply follows_self. auto.
    + rewrite E. cbn [bind]. eexists. split; [reflexivity|]. exact S.
    + exfalso. apply N. split; [intros r up x []|]. cbn [option_map]. rewrite append_none.
      destruct (wide_all _ _ W Wi) as (W1 & W2). assert (Hd := deep_height F d W De).
      assert (Ps : S (MPModel.radix cfg ^ MPModel.steplen cfg - 1) = MPModel.radix cfg ^ MPModel.steplen cfg).
      { assert (MPModel.radix cfg ^ MPModel.steplen cfg <> 0) by (apply Nat.pow_nonzero; lia). lia. }
      rewrite Ps in *. split; auto. split; auto. assert (height F * MPModel.steplen cfg <= d * MPModel.steplen cfg) by (apply Nat.mul_le_mono_r; auto). lia.
  - intros O. destruct (C22_load_last o next true (NSModel.mkNSDB [] []) Nil (dumped true F) None F) as (db' & E & S); auto.
    + apply NSHist.empty_stores.
    + intros No. split; constructor.
    + discriminate.
    + apply describes_dumped.
    + apply follows_self. auto.
    + rewrite E. cbn [bind]. eexists. split; [reflexivity|]. exact S.
  - intros O. destruct (C12_al_load o next true [] Nil (dumped true F) None F) as (t' & E & S & Fo); auto.
    + apply ALHist.empty_stores.
    + discriminate.
    + apply describes_dumped.
    + intros No. apply O. auto.
    + rewrite E. cbn [bind]. eexists. split; [reflexivity|]. cbn [holds]. rewrite Fo in S; [exact S|]. apply follows_self. auto.
  - intros (H1 & H2 & Wi). destruct (wide_all _ _ W Wi) as (W1 & W2).
    destruct (prepare_ok true next (dumped true F) F (describes_dumped next F)) as (m & Ep).
    destruct (load_letters cfg H1 H2 F (LTModel.mkLTDB [] []) Nil None 0) as (db' & E & S & _); auto.
    + exists Nil. split; [split; [constructor|split; [constructor|constructor]]|split; auto; constructor].
    + discriminate.
    + intros r l [].
    + intros l. split; [intros []|intros (c & _ & Hc); lia].
    + lia.
    + unfold lt_load_bulk. rewrite Ep. cbn [bind]. rewrite E. cbn [bind]. eexists. split; [reflexivity|]. exact S.
Qed.

(** Whatever a table holds is taken over by a table with other settings or of another
    implementation: the same nodes with the same parents in the same order.  The dump of
    the new table is the old one. *)
Theorem C59_migrate s t F s' next : holds s t F -> sane s F -> takes s' F ->
  exists data t', dump s t = Ok data /\ load_empty s' next data = Ok (t', ids F) /\ holds s' t' F /\
    (sane s' F -> dump s' t' = Ok data).
Proof.
  intros H Sa Ta. exists (dumped true F). destruct (load_takes s' F next (holds_wf _ _ _ H) Ta) as (t' & E & H').
  exists t'. split; [apply dump_ok; auto|]. split; auto. split; auto. intros Sa'. apply dump_ok; auto.
Qed.

(** Any number of migrations in a row. *)
Fixpoint migrations (next : nat -> nat) (s : settings) (t : table) (l : list settings) : res (settings * table) :=
  match l with
  | [] => Ok (s, t)
  | s' :: l => do data <- dump s t; do '(t', _) <- load_empty s' next data; migrations next s' t' l
  end.

Theorem C59_chain next l : forall s t F, holds s t F -> Forall (fun s => sane s F /\ takes s F) l -> sane s F ->
  exists t', migrations next s t l = Ok (last l s, t') /\ holds (last l s) t' F.
Proof.
  induction l as [|s' l IH]; intros s t F H Al Sa; [exists t; auto|]. inversion Al as [|? ? [Sa' Ta] Al']; subst.
  destruct (C59_migrate s t F s' next H Sa Ta) as (data & t' & E1 & E2 & H' & _). cbn [migrations]. rewrite E1. cbn [bind]. rewrite E2. cbn [bind].
  destruct (IH s' t' F H' Al' Sa') as (t2 & E3 & H2). exists t2.
  assert (El : last (s' :: l) s = last l s').
  { destruct l as [|x l]; auto. clear. revert x. induction l as [|y l IH]; intros x; auto. exact (IH y). }
  rewrite El. auto.
Qed.

(** node_order_by of the new settings. *)
Definition order_of (s : settings) : ordering :=
  match s with
  | UseMP cfg => MPModel.order_by cfg
  | UseNS o | UseAL o => o
  | UseLT cfg => LTModel.lt_order cfg
  end.
Definition usable (s : settings) : Prop :=
  match s with
  | UseMP cfg => 2 <= MPModel.radix cfg /\ 1 <= MPModel.steplen cfg
  | UseNS _ | UseAL _ => True
  | UseLT cfg => 2 <= LTModel.label_max cfg
  end.

(** To a table that sorts in another way, or that may be too small: it has the same nodes
    with the same parents, sorted, or the call fails for want of room.  Missing: the order
    of siblings in ltree. *)
Theorem C59_sorted_partial s t F s' next : holds s t F -> sane s F -> usable s' ->
  (order_of s' <> [] -> values_f (order_of s') F) ->
  exists data, dump s t = Ok data /\
  ((exists t' G, load_empty s' next data = Ok (t', ids F) /\ holds s' t' G /\ same_kids F G /\
      ((forall cfg, s' <> UseLT cfg) -> ordered (order_of s') G)) \/
   (exists e, load_empty s' next data = Err e /\
      match s' with UseMP _ => e = PathOverflow | UseLT _ => e = DataError \/ e = ValueError | _ => False end)).
Proof.
  intros H Sa Us V. exists (dumped true F). split; [apply dump_ok; auto|]. assert (W := holds_wf _ _ _ H). clear H Sa.
  assert (Nn : forall i, In i (ids F) -> ~ In i (ids Nil)) by (intros i _ []).
  assert (De := describes_dumped next F). assert (Wn : wf_ids Nil) by constructor.
  assert (On : forall o, ordered o Nil) by (intros o No; split; constructor).
  assert (Sl : forall o, same_kids F (sp_load o None F Nil)).
  { intros o. rewrite <- (append_none F) at 1. apply append_load; auto. intros p E. discriminate. }
  destruct s' as [cfg|o|o|cfg]; cbn [usable order_of load_empty] in *.
  - destruct Us as (H1 & H2).
    destruct (C12_load_any cfg H1 H2 next true (MPModel.mkDB [] []) Nil (dumped true F) None F) as [(db' & E & S & O)|E]; auto.
    + apply MPHist.empty_stores.
    + discriminate.
    + left. cbn [option_map] in *. rewrite E. cbn [bind]. do 2 eexists. split; [reflexivity|]. split; [exact S|]. split; auto.
    + right. rewrite E. cbn [bind]. eauto.
  - destruct (C22_load_any o next true (NSModel.mkNSDB [] []) Nil (dumped true F) None F) as (db' & E & S & O); auto.
    + apply NSHist.empty_stores.
    + discriminate.
    + left. cbn [option_map] in *. rewrite E. cbn [bind]. do 2 eexists. split; [reflexivity|]. split; [exact S|]. split; auto.
  - destruct (C12_al_load o next true [] Nil (dumped true F) None F) as (t' & E & S & _); auto.
    + apply ALHist.empty_stores.
    + discriminate.
    + left. cbn [option_map] in *. rewrite E. cbn [bind]. do 2 eexists. split; [reflexivity|]. split; [exact S|]. split; auto. intros _. apply S.
  - destruct (C12_lt_load_partial cfg Us next true (LTModel.mkLTDB [] []) Nil (dumped true F) None F) as [(db' & G & E & S & Sk)|(e & E & He)]; auto.
    + exists Nil. split; [split; [constructor|split; [constructor|constructor]]|split; auto; constructor].
    + discriminate.
    + left. rewrite E. cbn [bind]. do 2 eexists. split; [reflexivity|]. split; [exact S|]. cbn [option_map] in Sk. rewrite append_none in Sk. split; auto.
      intros X. exfalso. apply (X cfg). auto.
    + right. rewrite E. cbn [bind]. eauto.
Qed.

(** Changing steplen without dumping and loading: find_problems reports every node. *)
Theorem C59_steplen cfg cfg' t F r : 2 <= MPModel.radix cfg -> 1 <= MPModel.steplen cfg -> 2 <= MPModel.radix cfg' -> 1 <= MPModel.steplen cfg' ->
  MPModel.steplen cfg' <> MPModel.steplen cfg -> MPInv.stores cfg t F -> In r t ->
  exists p, In (MPModel.m_pk r, p) (MPFixModel.find_problems cfg' t None).
Proof.
  intros R1 S1 R2 S2 Ne St Hr.
  destruct (MPFixModel.problem_of cfg' t r) as [p|] eqn:E.
  - exists p. unfold MPFixModel.find_problems. apply in_flat_map. exists r. rewrite filter_In, E. cbn. auto.
  - exfalso. apply MPCheck.problem_none in E; auto. destruct E as (_ & Em & _ & Ed & _).
    destruct (proj1 (MPCheck.stores_iff cfg R1 S1 t) (ex_intro _ F St)) as (P & D & _).
    assert (Ed' := D r Hr). destruct (MPCheck.po_len _ _ P r Hr) as (n & En).
    rewrite Ed', En, Nat.div_mul in Ed by lia. rewrite En in Em. apply Nat.mod_divides in Em; [|lia]. destruct Em as (c & Ec).
    rewrite Ec, (Nat.mul_comm _ c), Nat.div_mul in Ed by lia. subst c. apply Ne. apply (Nat.mul_cancel_r _ _ (S n)); lia.
Qed.

(** From two-character steps of ten digits to three-character steps of twelve, to nested sets, an
    adjacency list, ltree, and back. *)
Definition round : list settings :=
  [UseMP (MPModel.mkCfg 12 3 255 []); UseNS []; UseAL []; UseLT PropsLT.c0; UseMP PropsMP.c10].
Definition pks_of (t : table) : list nat :=
  match t with
  | TableMP t => map MPModel.m_pk t
  | TableNS t => map NSModel.n_pk t
  | TableAL t => map ALModel.a_pk t
  | TableLT t => map LTModel.l_pk t
  end.

Fixpoint all_true (l : list bool) : bool := match l with [] => true | b :: l => b && all_true l end.

Lemma ex_wide : wide_at_most 5 ex_F.
Proof.
  intros [i|] L; [|intros E; injection E as <-; cbn; lia]. unfold kid_list. cbn -[Nat.eqb].
  repeat (match goal with |- context [Nat.eqb ?a i] => destruct (Nat.eqb a i) end); intros E; try discriminate; injection E as <-; cbn; lia.
Qed.
Lemma ex_deep : deep_at_most 3 ex_F.
Proof.
  intros i L. cbn -[Nat.eqb].
  repeat (match goal with |- context [Nat.eqb ?a i] => destruct (Nat.eqb a i) end); intros E; try discriminate; injection E as <-; cbn; lia.
Qed.
Lemma wide_le m n F : m <= n -> wide_at_most m F -> wide_at_most n F.
Proof. intros H W q L E. specialize (W q L E). lia. Qed.
Lemma not_sorted_ex (F : forest node) : ordered [] F.
Proof. intros No. congruence. Qed.

Example C59_example :
  holds (UseMP PropsMP.c10) (TableMP (MPModel.db_rows PropsMP.ex_db)) ex_F /\
  Forall (fun s => sane s ex_F /\ takes s ex_F) round /\ sane (UseMP PropsMP.c10) ex_F /\
  exists s t, migrations from20 (UseMP PropsMP.c10) (TableMP (MPModel.db_rows PropsMP.ex_db)) round = Ok (s, t) /\
    dump s t = Ok (dumped true ex_F) /\
    load_empty (UseMP (MPModel.mkCfg 12 3 255 [])) from20 (dumped true ex_F) <> load_empty (UseMP PropsMP.c10) from20 (dumped true ex_F).
Proof.
  split; [|split; [|split]].
  - exact PropsMP.ex_stores.
  - assert (M : forall r w m, all_true [2 <=? r; 1 <=? w; 5 <=? r ^ w - 1; 3 * w <=? m] = true ->
      sane (UseMP (MPModel.mkCfg r w m [])) ex_F /\ takes (UseMP (MPModel.mkCfg r w m [])) ex_F).
    { intros r w m H. cbn [all_true] in H. rewrite !andb_true_iff, !Nat.leb_le in H. destruct H as (H1 & H2 & H3 & H4 & _).
      split; [split; auto|]. split; [auto|]. split; [auto|]. split; [apply not_sorted_ex|]. split; [apply (wide_le 5); auto using ex_wide|].
      exists 3. split; [exact ex_deep|auto]. }
    constructor; [apply M; vm_compute; reflexivity|].
    constructor; [split; [exact I|apply not_sorted_ex]|].
    constructor; [split; [left; auto|apply not_sorted_ex]|].
    constructor; [|constructor; [apply M; vm_compute; reflexivity|constructor]].
    split; [apply PropsMP.le_b; reflexivity|]. split; [apply PropsMP.le_b; reflexivity|]. split; auto. apply (wide_le 5); [lia|exact ex_wide].
  - split; apply PropsMP.le_b; reflexivity.
  - do 2 eexists. split; [vm_compute; reflexivity|]. split; [vm_compute; reflexivity|]. vm_compute. discriminate.
Qed.

(** Turning on node_order_by; steps for a single sibling are not enough for this tree. *)
Example C59_sorted_example :
  order_of (UseNS so) <> [] /\ values_f so ex_F /\
  (exists t, load_empty (UseNS so) from20 (dumped true ex_F) = Ok (t, ids ex_F) /\
     dump (UseNS so) t = Ok (dumped true
       (Cons (nd 7 70) Nil (Cons (nd 2 20) (Cons (nd 9 90) (Cons (nd 10 100) Nil Nil) (Cons (nd 4 40) (Cons (nd 6 60) Nil Nil) Nil))
         (Cons (nd 1 10) (Cons (nd 5 50) Nil (Cons (nd 3 30) Nil Nil)) Nil))))) /\
  load_empty (UseMP (MPModel.mkCfg 2 1 40 [])) from20 (dumped true ex_F) = Err PathOverflow.
Proof.
  split; [discriminate|]. split; [repeat (constructor; [intros i d [E|[]]; injection E as <- <-; discriminate|]); constructor|]. split.
  - eexists. split; vm_compute; reflexivity.
  - vm_compute. reflexivity.
Qed.

Example C59_steplen_example : exists r, In r (MPModel.db_rows PropsMP.ex_db) /\
  MPFixModel.find_problems (MPModel.mkCfg 10 4 40 []) (MPModel.db_rows PropsMP.ex_db) None <> [] /\
  In (MPModel.m_pk r) (map fst (MPFixModel.find_problems (MPModel.mkCfg 10 4 40 []) (MPModel.db_rows PropsMP.ex_db) None)).
Proof. exists (PropsMP.row PropsMP.ex_db 6). vm_compute. split; [tauto|]. split; [discriminate|tauto]. Qed.

Print Assumptions C59_migrate.
Print Assumptions C59_chain.
Print Assumptions C59_sorted_partial.
Print Assumptions C59_steplen.
