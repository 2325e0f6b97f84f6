(** The same history on ltree tables and on nested sets (C47). *)
From Coq Require Import String List Arith Lia Bool ZArith Permutation.
From Verif Require Import Prelude Forest SpecFacts SpecSane CommonModel Order History SpecRun SpecKids SpecPerm Fixture Backends.
From Verif Require LTModel LTInv LTReads LTHist LTCalm PropsLT LTRefuted NSModel NSInv NSReads NSHist PropsNS.
Import ListNotations.
Local Open Scope nat_scope.

Notation lt_run cfg := (run (LTHist.lt_exec cfg) LTHist.lt_empty).

(** The calls that succeed on an ltree table (at calm places) all succeed on the forest. *)
Lemma lt_done cfg (M : 2 <= LTModel.label_max cfg) cs : forall db F, LTInv.stores cfg (LTModel.lt_rows db) F ->
  NoDup (flat_map new_ids cs) -> (forall i, In i (flat_map new_ids cs) -> ~ In i (ids F)) -> LTHist.calm_run cfg db cs ->
  exists G, run (sp_exec (LTModel.lt_order cfg)) F (snd (run (LTHist.lt_exec cfg) db cs)) =
              (G, snd (run (LTHist.lt_exec cfg) db cs)) /\
            LTInv.stores cfg (LTModel.lt_rows (fst (run (LTHist.lt_exec cfg) db cs))) G.
Proof.
  induction cs as [|c cs IH]; intros db F St ND Fr Ca; [exists F; auto|].
  cbn [flat_map] in ND, Fr. apply NoDup_app_iff in ND. destruct ND as (N1 & N2 & N3).
  assert (Fc : fresh_call F c) by (intros i Hi; apply Fr, in_app_iff; auto).
  assert (Fr2 : forall i, In i (flat_map new_ids cs) -> ~ In i (ids F)) by (intros i Hi; apply Fr, in_app_iff; auto).
  cbn [run LTHist.calm_run] in *. destruct Ca as [Cc Ca].
  destruct (LTHist.call_step cfg M db F c St Fc) as [(db' & F' & S & E1 & E2 & St' & _ & Hc)|[(e & E1 & E2)|(S & E2 & Fu)]].
  - rewrite E1 in *. rewrite (Hc Cc) in St'. destruct (IH db' S St' N2) as (G & EG & SG); auto.
    { intros i Hi Hin. apply sp_exec_ok in E2. subst S. apply sp_call_ids in Hin. destruct Hin as [Hin|Hin].
      - apply (Fr2 i); auto.
      - apply (N3 i); auto. }
    exists G. destruct (run (LTHist.lt_exec cfg) db' cs) as [db2 dn]. cbn [fst snd] in *. cbn [run]. rewrite E2, EG. auto.
  - rewrite E1 in *. apply IH; auto.
  - destruct Fu as [[E _]|[E _]]; rewrite E in *; apply IH; auto.
Qed.

(** At calm places (see C30_histories_calm): the calls that succeed on the ltree table
    succeed on nested sets and give the same forest. *)
Theorem C47_calm cfg cs : 2 <= LTModel.label_max cfg -> NoDup (flat_map new_ids cs) -> LTHist.calm_run cfg LTHist.lt_empty cs ->
  let (lt, done) := lt_run cfg cs in
  exists ns F, ns_run (LTModel.lt_order cfg) done = (ns, done) /\
    LTInv.stores cfg (LTModel.lt_rows lt) F /\ NSInv.stores (NSModel.ns_rows ns) F.
Proof.
  intros M ND Ca. destruct (lt_done cfg M cs LTHist.lt_empty Nil (PropsLT.stores_nil cfg) ND (fun _ _ X => X) Ca) as (G & EG & SG).
  assert (ND' := run_done_nodup (LTHist.lt_exec cfg) cs LTHist.lt_empty ND).
  destruct (lt_run cfg cs) as [lt done]. cbn [fst snd] in *.
  assert (HN := NSHist.ns_history (LTModel.lt_order cfg) done ND'). destruct (ns_run (LTModel.lt_order cfg) done) as [ns d].
  rewrite EG in HN. destruct HN as (-> & SN). exists ns, G. auto.
Qed.

(** Every history of at most 702 calls: the same calls succeed in both, every node has the
    same parent and the same children, up to the order of the children. *)
Theorem C47_room_partial cfg cs : NoDup (flat_map new_ids cs) -> length cs < LTModel.label_max cfg -> length cs <= 702 ->
  let (lt, d1) := lt_run cfg cs in let (ns, d2) := ns_run (LTModel.lt_order cfg) cs in
  d1 = d2 /\ exists F G, LTInv.stores cfg (LTModel.lt_rows lt) G /\ NSInv.stores (NSModel.ns_rows ns) F /\
    forall q, match kid_list q F, kid_list q G with
              | Some L, Some M => Permutation L M
              | None, None => True
              | _, _ => False
              end.
Proof.
  intros ND H1 H2. assert (HL := PropsLT.C30_histories_room_partial cfg cs ND H1 H2).
  assert (HN := NSHist.ns_history (LTModel.lt_order cfg) cs ND).
  destruct (lt_run cfg cs) as [lt d1], (ns_run (LTModel.lt_order cfg) cs) as [ns d2], (run (sp_exec (LTModel.lt_order cfg)) Nil cs) as [F d].
  destruct HL as (-> & G & SG & K), HN as (-> & SN). split; auto. exists F, G. auto.
Qed.

(** Two tables with the same forest answer alike. *)
Theorem C47_answers cfg lt ns F : let tl := LTModel.lt_rows lt in let tn := NSModel.ns_rows ns in
  LTInv.stores cfg tl F -> NSInv.stores tn F ->
  map LTReads.node_of (LTModel.get_tree tl None None) = map NSReads.row_node (NSModel.get_tree tn None None) /\
  map LTReads.node_of (LTModel.get_root_nodes tl) = map NSReads.row_node (NSModel.get_root_nodes tn) /\
  forall a b, In a tl -> In b tn -> LTModel.l_pk a = NSModel.n_pk b ->
    map LTReads.node_of (LTModel.get_children tl a) = map NSReads.row_node (NSModel.get_children tn b) /\
    map LTReads.node_of (LTModel.get_ancestors tl a) = map NSReads.row_node (NSModel.get_ancestors tn b) /\
    Z.of_nat (LTModel.get_depth a) = NSModel.n_depth b.
Proof.
  intros tl tn SL SN. split; [|split].
  - rewrite (PropsLT.C32_tree cfg tl F None SL). assert (E := proj1 (PropsNS.C20_tree tn F None SN)). cbn [option_map] in E. rewrite E. auto.
  - rewrite (PropsLT.C32_roots cfg tl F SL), (proj1 (PropsNS.C20_roots tn F SN)). auto.
  - intros a b Ha Hb Eab.
    destruct (PropsLT.C32_children cfg tl F a SL Ha) as (k1 & K1 & M1 & _).
    destruct (PropsNS.C20_children tn F b SN Hb) as (k2 & K2 & M2 & _).
    destruct (PropsLT.C32_ancestors cfg tl F a SL Ha) as (l1 & L1 & N1 & D1 & _).
    destruct (PropsNS.C20_ancestors tn F b SN Hb) as (l2 & L2 & N2 & D2 & _).
    rewrite Eab in *. assert (El : l1 = l2) by congruence.
    rewrite M1, M2, N1, N2, D1, D2, El. split; [congruence|]. split; auto. lia.
Qed.

(** The forests need not be the same: the five additions of C30_histories_refuted all succeed
    in both, but the siblings come in another order. *)
Theorem C47_refuted : exists cs lt ns, NoDup (flat_map new_ids cs) /\
  lt_run PropsLT.c0 cs = (lt, cs) /\ ns_run [] cs = (ns, cs) /\
  map LTReads.node_of (LTModel.get_root_nodes (LTModel.lt_rows lt)) <>
  map NSReads.row_node (NSModel.get_root_nodes (NSModel.ns_rows ns)).
Proof.
  exists LTRefuted.swap_calls. do 2 eexists. split; [apply nodup_b; vm_compute; reflexivity|].
  split; [vm_compute; reflexivity|]. split; [vm_compute; reflexivity|]. vm_compute. discriminate.
Qed.

Example C47_example :
  LTHist.calm_run PropsLT.c0 LTHist.lt_empty ex_calls /\ LTHist.calm_run PropsLT.cs LTHist.lt_empty so_calls /\
  length so_calls < LTModel.label_max PropsLT.cs /\
  map (fun d : list call => length d) [snd (lt_run PropsLT.c0 ex_calls); snd (ns_run [] ex_calls);
    snd (lt_run PropsLT.cs so_calls); snd (ns_run so so_calls)] = [12; 12; 8; 8] /\
  map LTModel.l_pk (LTModel.get_tree (LTModel.lt_rows (fst (lt_run PropsLT.c0 ex_calls))) None None) = [7; 1; 3; 5; 2; 4; 6; 9; 10] /\
  map NSModel.n_pk (NSModel.get_tree (NSModel.ns_rows (fst (ns_run [] ex_calls))) None None) = [7; 1; 3; 5; 2; 4; 6; 9; 10].
Proof.
  split; [apply LTCalm.calm_runb_ok; vm_compute; reflexivity|]. split; [apply LTCalm.calm_runb_ok; vm_compute; reflexivity|].
  split; [apply Nat.ltb_lt; vm_compute; reflexivity|]. split; [vm_compute; reflexivity|]. split; vm_compute; reflexivity.
Qed.

Print Assumptions C47_calm.
Print Assumptions C47_room_partial.
Print Assumptions C47_answers.
Print Assumptions C47_refuted.
