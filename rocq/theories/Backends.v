(** The same history on materialized paths, nested sets and adjacency lists (C39). *)
From Coq Require Import String List Arith Lia Bool ZArith Sorted Permutation.
From Verif Require Import Prelude Forest SpecFacts SpecSane CommonModel Order History SpecRun SpecKids Fixture.
From Verif Require MPModel MPInv MPReads MPHist MPRoom PropsMP NSModel NSInv NSReads NSHist PropsNS ALModel ALInv ALReads ALHist ALAnswers PropsAL.
Import ListNotations.
Local Open Scope nat_scope.

Notation mp_run cfg := (run (MPHist.mp_exec cfg) (MPModel.mkDB [] [])).
Notation ns_run o := (run (NSHist.ns_exec o) (NSModel.mkNSDB [] [])).
Notation al_run o := (run (ALHist.al_exec o) []).

Lemma flat_sub {A B} (f : A -> list B) (l l' : list A) : 
  (forall x, In x l -> In x l') -> forall y, In y (flat_map f l) -> In y (flat_map f l').
Proof. intros H y Hy. apply in_flat_map in Hy. destruct Hy as (x & Hx & Hy). apply in_flat_map. eauto. Qed.

Lemma run_done {St} (exec : St -> call -> res St) cs : forall s c, In c (snd (run exec s cs)) -> In c cs.
Proof.
  induction cs as [|c cs IH]; intros s d; cbn; auto. destruct (exec s c) as [s'|].
  - specialize (IH s' d). destruct (run exec s' cs). cbn in *. intros [H|H]; auto.
  - intros H. right. eauto.
Qed.

Lemma run_done_nodup {St} (exec : St -> call -> res St) cs : forall s,
  NoDup (flat_map new_ids cs) -> NoDup (flat_map new_ids (snd (run exec s cs))).
Proof.
  induction cs as [|c cs IH]; intros s N; cbn in *; auto. apply NoDup_app_iff in N. destruct N as (N1 & N2 & N3).
  destruct (exec s c) as [s'|]; auto. assert (D := run_done exec cs s'). specialize (IH s' N2).
  destruct (run exec s' cs) as [s2 dn]. cbn in *. apply NoDup_app_iff. split; auto. split; auto.
  intros x Hx Hy. apply (N3 x Hx). eapply flat_sub; eauto.
Qed.

(** The calls that succeed on materialized paths (with room) all succeed on the forest. *)
Lemma mp_done cfg (R2 : 2 <= MPModel.radix cfg) (S1 : 1 <= MPModel.steplen cfg) cs :
  forall db F, MPHist.mp_rel cfg db F ->
  NoDup (flat_map new_ids cs) -> (forall i, In i (flat_map new_ids cs) -> ~ In i (ids F)) ->
  (MPModel.order_by cfg <> [] -> Forall (call_values (MPModel.order_by cfg)) cs) -> MPHist.roomy_run cfg db cs ->
  exists G, run (sp_exec (MPModel.order_by cfg)) F (snd (run (MPHist.mp_exec cfg) db cs)) =
              (G, snd (run (MPHist.mp_exec cfg) db cs)) /\
            MPHist.mp_rel cfg (fst (run (MPHist.mp_exec cfg) db cs)) G.
Proof.
  set (o := MPModel.order_by cfg). induction cs as [|c cs IH]; intros db F Rel ND Fr V Rm; [exists F; auto|].
  cbn in ND, Fr, Rm. destruct Rm as [Rm1 Rm2]. apply NoDup_app_iff in ND. destruct ND as (ND1 & ND2 & ND3).
  assert (V1 : o <> [] -> call_values o c) by (intros No; specialize (V No); inversion V; auto).
  assert (V2 : o <> [] -> Forall (call_values o) cs) by (intros No; specialize (V No); inversion V; auto).
  assert (Fc : fresh_call F c) by (intros i Hi; apply Fr; apply in_app_iff; auto).
  cbn [run]. destruct (MPHist.mp_exec cfg db c) as [db'|e] eqn:E.
  - destruct (MPHist.mp_call_ok cfg R2 S1 db F c Rel V1 Fc Rm1) as [A|(E' & _)]; [|congruence].
    rewrite E in A. fold o in A. destruct (sp_exec o F c) as [F'|] eqn:EF; [|destruct A]. cbn [agree] in A.
    destruct (IH db' F' A ND2) as (G & EG & RG); auto.
    + intros i Hi Hin. apply sp_exec_ok in EF. subst F'. apply sp_call_ids in Hin. destruct Hin as [Hin|Hin].
      * apply (Fr i); auto. apply in_app_iff; auto.
      * apply (ND3 i); auto.
    + exists G. destruct (run (MPHist.mp_exec cfg) db' cs) as [db2 dn]. cbn [fst snd] in *. cbn [run]. rewrite EF, EG. auto.
  - apply IH; auto. intros i Hi. apply Fr. apply in_app_iff; auto.
Qed.

(** One forest in three tables. *)
Definition same_forest (cfg : MPModel.mp_cfg) (mp : MPModel.mp_db) (ns : NSModel.ns_db) (al : list ALModel.alrow) : Prop :=
  exists F, MPInv.stores cfg (MPModel.db_rows mp) F /\ NSInv.stores (NSModel.ns_rows ns) F /\
            ALInv.stores (MPModel.order_by cfg) al F.

(** The calls that succeed on materialized paths succeed in the other two and give the
    same forest, provided the moves are made with room (C03_room_refuted). *)
Theorem C39_successful_calls cfg cs : 2 <= MPModel.radix cfg -> 1 <= MPModel.steplen cfg ->
  let o := MPModel.order_by cfg in
  NoDup (flat_map new_ids cs) -> (o <> [] -> Forall (call_values o) cs) -> MPHist.roomy_run cfg (MPModel.mkDB [] []) cs ->
  let (mp, done) := mp_run cfg cs in
  exists ns al, ns_run o done = (ns, done) /\ al_run o done = (al, done) /\ same_forest cfg mp ns al.
Proof.
  intros R2 S1 o ND V Rm.
  destruct (mp_done cfg R2 S1 cs (MPModel.mkDB [] []) Nil) as (G & EG & RG); auto.
  { split; [apply MPHist.empty_stores|]. intros _. split; [exact I|constructor]. }
  assert (ND' := run_done_nodup (MPHist.mp_exec cfg) cs (MPModel.mkDB [] []) ND).
  assert (V' : o <> [] -> Forall (call_values o) (snd (mp_run cfg cs))).
  { intros No. specialize (V No). apply Forall_forall. rewrite Forall_forall in V. intros c Hc. apply V.
    eapply run_done; eauto. }
  destruct (mp_run cfg cs) as [mp done]. cbn [fst snd] in *. fold o in EG.
  assert (HN := NSHist.ns_history o done ND'). assert (HA := ALHist.al_history o done ND' V').
  destruct (ns_run o done) as [ns d1], (al_run o done) as [al d2]. rewrite EG in HN, HA.
  destruct HN as (-> & SN), HA as (-> & SA). exists ns, al. split; auto. split; auto.
  exists G. split; [apply RG|]. auto.
Qed.

(** With enough key space every call has the same outcome in all three. *)
Theorem C39_all_calls cfg cs : 2 <= MPModel.radix cfg -> 1 <= MPModel.steplen cfg ->
  length cs + 1 < MPModel.radix cfg ^ MPModel.steplen cfg -> MPModel.steplen cfg * length cs <= MPModel.maxlen cfg ->
  let o := MPModel.order_by cfg in
  NoDup (flat_map new_ids cs) -> (o <> [] -> Forall (call_values o) cs) ->
  let (mp, d1) := mp_run cfg cs in let (ns, d2) := ns_run o cs in let (al, d3) := al_run o cs in
  d1 = d2 /\ d2 = d3 /\ same_forest cfg mp ns al.
Proof.
  intros R2 S1 Room Len o ND V.
  assert (HM := MPRoom.mp_history_room cfg R2 S1 cs Room Len ND V). fold o in HM.
  assert (HN := NSHist.ns_history o cs ND). assert (HA := ALHist.al_history o cs ND V).
  destruct (mp_run cfg cs) as [mp d1], (ns_run o cs) as [ns d2], (al_run o cs) as [al d3], (run (sp_exec o) Nil cs) as [F d].
  destruct HM as (-> & RM & _), HN as (-> & SN), HA as (-> & SA). split; auto. split; auto. exists F. auto.
Qed.

(** Three tables with the same forest answer alike (adjacency lists: without ties). *)
Theorem C39_same_answers cfg mp ns al F : 2 <= MPModel.radix cfg -> 1 <= MPModel.steplen cfg ->
  let o := MPModel.order_by cfg in
  let tm := MPModel.db_rows mp in let tn := NSModel.ns_rows ns in
  MPInv.stores cfg tm F -> NSInv.stores tn F -> ALInv.stores o al F -> o = [] \/ ALInv.strict o F ->
  (exists l, ALModel.get_tree o al None None = Ok l /\
     map MPReads.node_of (MPModel.get_tree tm None None) = map NSReads.row_node (NSModel.get_tree tn None None) /\
     map NSReads.row_node (NSModel.get_tree tn None None) = map ALReads.obj_node l) /\
  (forall a b c, In a tm -> In b tn -> In c al -> MPModel.m_pk a = NSModel.n_pk b -> NSModel.n_pk b = ALModel.a_pk c ->
     map MPReads.node_of (MPModel.get_children cfg tm a) = map NSReads.row_node (NSModel.get_children tn b) /\
     map NSReads.row_node (NSModel.get_children tn b) = map ALInv.row_node (ALModel.get_children o al c) /\
     exists l, ALModel.get_ancestors al c = Ok l /\
       map MPReads.node_of (MPModel.get_ancestors cfg tm a) = map NSReads.row_node (NSModel.get_ancestors tn b) /\
       map NSReads.row_node (NSModel.get_ancestors tn b) = map ALInv.row_node l).
Proof.
  intros R2 S1 o tm tn SM SN SA Ho. assert (AN := PropsAL.C27_reads o al F SA Ho). split.
  - destruct (ALAnswers.an_tree _ _ _ AN None) as (l & El & _ & _). exists l. split; auto.
    rewrite (PropsMP.C07_tree cfg R2 S1 tm F None SM).
    assert (E2 := proj1 (PropsNS.C20_tree tn F None SN)). cbn [option_map] in E2. rewrite E2. split; auto.
    destruct (ALAnswers.an_tree _ _ _ AN None) as (l' & El' & E & _). rewrite El in El'. injection El' as <-.
    assert (X : map snd (map ALAnswers.with_level l) = map snd (map ALAnswers.at_level (preorder_d 1 F))) by (rewrite E; auto).
    rewrite !map_map in X. cbn in X. rewrite (map_ext _ ALReads.obj_node) in X by auto. rewrite X. cbn.
    clear. generalize 1. induction F as [|a k IHk r IHr]; intros d; auto. cbn. rewrite map_app, <- IHk, <- IHr. auto.
  - intros a b c Ha Hb Hc Eab Ebc.
    destruct (PropsMP.C07_children cfg R2 S1 tm F a SM Ha) as (k1 & K1 & M1 & _).
    destruct (PropsNS.C20_children tn F b SN Hb) as (k2 & K2 & M2 & _).
    destruct (ALAnswers.an_children _ _ _ AN c Hc) as (k3 & K3 & M3 & _). unfold ALAnswers.row_nodes in M3.
    destruct (PropsMP.C07_ancestors cfg R2 S1 tm F a SM Ha) as (l1 & L1 & N1 & _).
    destruct (PropsNS.C20_ancestors tn F b SN Hb) as (l2 & L2 & N2 & _).
    destruct (PropsAL.C27_ancestors o al F c SA Hc) as (l & l3 & N3 & L3 & N3' & _).
    rewrite Eab in K1, L1. rewrite Ebc in *. rewrite M1, M2, M3. split; [congruence|]. split; [congruence|].
    exists l. split; auto. rewrite N1, N2, N3'. split; congruence.
Qed.

Example C39_example :
  let cs := ex_calls in
  snd (mp_run PropsMP.c10 cs) = cs /\ snd (ns_run [] cs) = cs /\ snd (al_run [] cs) = cs /\
  map MPModel.m_pk (MPModel.get_tree (MPModel.db_rows (fst (mp_run PropsMP.c10 cs))) None None) = [7; 1; 3; 5; 2; 4; 6; 9; 10] /\
  map NSModel.n_pk (NSModel.get_tree (NSModel.ns_rows (fst (ns_run [] cs))) None None) = [7; 1; 3; 5; 2; 4; 6; 9; 10] /\
  PropsAL.tree_pks [] (fst (al_run [] cs)) = Ok [7; 1; 3; 5; 2; 4; 6; 9; 10].
Proof. vm_compute. repeat split. Qed.

(** The sorted history, in which two calls are refused; both theorems apply to it. *)
Lemma so_room : length so_calls + 1 < MPModel.radix PropsMP.s10 ^ MPModel.steplen PropsMP.s10.
Proof. apply Nat.ltb_lt. vm_compute. reflexivity. Qed.
Lemma so_len : MPModel.steplen PropsMP.s10 * length so_calls <= MPModel.maxlen PropsMP.s10.
Proof. apply Nat.leb_le. vm_compute. reflexivity. Qed.
Example C39_sorted_example :
  map (fun d : list call => length d) [so_calls; snd (mp_run PropsMP.s10 so_calls); snd (ns_run so so_calls); snd (al_run so so_calls)] = [10; 8; 8; 8] /\
  (let (mp, d1) := mp_run PropsMP.s10 so_calls in let (ns, d2) := ns_run so so_calls in let (al, d3) := al_run so so_calls in
   d1 = d2 /\ d2 = d3 /\ same_forest PropsMP.s10 mp ns al) /\
  MPHist.roomy_run PropsMP.s10 (MPModel.mkDB [] []) so_calls.
Proof.
  split; [vm_compute; reflexivity|]. split.
  - apply (C39_all_calls PropsMP.s10 so_calls); [cbn; lia|cbn; lia|exact so_room|exact so_len|exact so_new|intros _; exact so_values].
  - cbn [MPHist.roomy_run so_calls]. repeat split; vm_compute; intros r H; repeat (destruct H as [<-|H]; [apply PropsMP.lt_b; reflexivity|]); destruct H.
Qed.

Print Assumptions C39_successful_calls.
Print Assumptions C39_all_calls.
Print Assumptions C39_same_answers.
