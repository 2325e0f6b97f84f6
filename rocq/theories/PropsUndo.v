(** Theorems about calls that undo other calls (C83). *)
From Coq Require Import String List Arith Lia Bool ZArith Permutation.
From Verif Require Import Prelude Forest SpecFacts SpecSane SpecPerm CommonModel Order History SpecRun SpecUndo Fixture.
From Verif Require MPModel MPInv MPHist PropsMP NSModel NSInv NSHist PropsNS ALModel ALInv ALHist PropsAL LTModel LTInv LTHist LTReads PropsLT LTRefuted NumConv.
Import ListNotations.
Local Open Scope string_scope.
Local Open Scope list_scope.
Local Open Scope nat_scope.

(** What [place_of] says: 4 is the first child of 2 and stands left of 9. *)
Example place_of_example : place_of ex_F 4 2 "first-child" /\ place_of ex_F 4 9 "left" /\ place_of ex_F 9 2 "last-child" /\
  place_of ex_F 1 7 "right" /\ place_of ex_F 2 7 "last-sibling" /\ place_of ex_F 7 2 "first-sibling".
Proof.
  split; [eapply po_first_child; reflexivity|]. split; [exact (po_left ex_F 4 (Some 2) [] (nd 4 40) (nd 9 90) [] eq_refl eq_refl)|].
  split; [exact (po_last_child ex_F 9 2 (nd 9 90) [nd 4 40] eq_refl eq_refl)|].
  split; [exact (po_right ex_F 1 None [] (nd 7 70) (nd 1 10) [nd 2 20] eq_refl eq_refl)|].
  split; [refine (po_last_sibling ex_F 2 None (nd 2 20) (nd 7 70) [nd 7 70; nd 1 10] eq_refl eq_refl _); cbn; auto|].
  refine (po_first_sibling ex_F 7 None (nd 7 70) (nd 2 20) [nd 1 10; nd 2 20] eq_refl eq_refl _); cbn; auto.
Qed.

(** 1 is first among the children of 6 in the order of [so]; 5 is last among those of 1. *)
Example sorted_place_example : so <> [] /\ sorted_place_of so so_F 1 6 "sorted-child" /\ sorted_place_of so so_F 1 3 "sorted-sibling" /\
  sorted_place_of so so_F 5 4 "sorted-sibling".
Proof.
  assert (V : forall i z, has_values so (ndata (nd i z))).
  { intros i z c d [H|[]]. injection H as <- <-. discriminate. }
  split; [discriminate|]. split; [|split].
  - apply (so_child so so_F 1 6 [] (nd 1 10) [nd 3 5]); [reflexivity|reflexivity|apply V| |]; intros x Hx; try contradiction; destruct Hx as [<-|[]]; reflexivity.
  - apply (so_sibling so so_F 1 (Some 6) (nd 3 5) [] (nd 1 10) [nd 3 5]); [reflexivity|reflexivity|left; reflexivity|apply V| |]; intros x Hx; try contradiction; destruct Hx as [<-|[]]; reflexivity.
  - apply (so_sibling so so_F 5 (Some 1) (nd 4 7) [nd 4 7] (nd 5 6) []); [reflexivity|reflexivity|left; reflexivity|apply V| |]; intros x Hx; try contradiction; destruct Hx as [<-|[]]; reflexivity.
Qed.

(** ** Nested sets *)
Section NS.
Import NSModel NSInv NSHist PropsNS.

(** Deleting a node that was just added gives the tree as it was. *)
Theorem C83_ns_add_delete o db F c x db1 : stores (ns_rows db) F -> new_ids c = [x] -> ~ In x (ids F) ->
  ns_exec o db c = Ok db1 -> exists db2, ns_exec o db1 (CDelete [x]) = Ok db2 /\ stores (ns_rows db2) F.
Proof.
  intros St En Nx E. assert (Fr : fresh_call F c) by (intros i Hi; rewrite En in Hi; destruct Hi as [<-|[]]; auto).
  assert (A := ns_call_ok o db F c St Fr). rewrite E in A. destruct (sp_exec o F c) as [F1|] eqn:E1; [|destruct A]. cbn [agree] in A.
  assert (B := ns_call_ok o db1 F1 (CDelete [x]) A). rewrite (add_delete o F c x F1 En Fr E1) in B. specialize (B (fun i H => match H with end)).
  destruct (ns_exec o db1 (CDelete [x])) as [db2|]; [|destruct B]. eauto.
Qed.

(** Moving a node back to its place, named in any of the ways of [place_of], gives the tree as it was. *)
Theorem C83_ns_move_back db F n t p db1 t' p' : stores (ns_rows db) F -> ns_exec [] db (CMove n t p) = Ok db1 -> place_of F n t' p' ->
  exists db2, ns_exec [] db1 (CMove n t' (Some p')) = Ok db2 /\ stores (ns_rows db2) F.
Proof.
  intros St E Pl. assert (W : wf_ids F) by (destruct St as (W & _); auto).
  assert (A := ns_call_ok [] db F (CMove n t p) St (fun i H => match H with end)). rewrite E in A.
  destruct (sp_exec [] F (CMove n t p)) as [F1|] eqn:E1; [|destruct A]. cbn [agree] in A.
  assert (B := ns_call_ok [] db1 F1 (CMove n t' (Some p')) A (fun i H => match H with end)).
  rewrite (move_back F n t p F1 t' p' W E1 Pl) in B.
  destruct (ns_exec [] db1 (CMove n t' (Some p'))) as [db2|]; [|destruct B]. eauto.
Qed.

(** With node_order_by: moving a node anywhere and back with sorted-child or sorted-sibling
    gives the tree as it was. *)
Theorem C83_ns_sorted_back o db F n t p db1 t' p' : o <> [] -> stores (ns_rows db) F -> ns_exec o db (CMove n t p) = Ok db1 -> sorted_place_of o F n t' p' ->
  exists db2, ns_exec o db1 (CMove n t' (Some p')) = Ok db2 /\ stores (ns_rows db2) F.
Proof.
  intros No St E Pl. assert (W : wf_ids F) by (destruct St as (W & _); auto).
  assert (A := ns_call_ok o db F (CMove n t p) St (fun i H => match H with end)). rewrite E in A.
  destruct (sp_exec o F (CMove n t p)) as [F1|] eqn:E1; [|destruct A]. cbn [agree] in A.
  assert (B := ns_call_ok o db1 F1 (CMove n t' (Some p')) A (fun i H => match H with end)).
  rewrite (move_back_sorted o F n t p F1 t' p' No W E1 Pl) in B.
  destruct (ns_exec o db1 (CMove n t' (Some p'))) as [db2|]; [|destruct B]. eauto.
Qed.

(** Moving a node to where it is keeps the tree. *)
Theorem C83_ns_stay db F n t p : stores (ns_rows db) F -> place_of F n t p ->
  exists db', ns_exec [] db (CMove n t (Some p)) = Ok db' /\ stores (ns_rows db') F.
Proof.
  intros St Pl. assert (W : wf_ids F) by (destruct St as (W & _); auto).
  assert (A := ns_call_ok [] db F (CMove n t (Some p)) St (fun i H => match H with end)). rewrite (move_stay F n t p W Pl) in A.
  destruct (ns_exec [] db (CMove n t (Some p))) as [db'|]; [|destruct A]. eauto.
Qed.

Example C83_ns_example :
  let shape t := map (fun r => (Z.of_nat (n_pk r), n_tree r, n_lft r, n_rgt r, n_depth r)) (get_tree t None None) in
  stores (ns_rows ex_db) ex_F /\
  (exists db1 db2, ns_exec [] ex_db (CMove 4 7 (Some "left")) = Ok db1 /\ shape (ns_rows db1) <> shape (ns_rows ex_db) /\
     ns_exec [] db1 (CMove 4 9 (Some "left")) = Ok db2 /\ map fst (map fst (map fst (map fst (shape (ns_rows db2))))) = [7; 1; 3; 5; 2; 4; 6; 9; 10]%Z) /\
  (exists db1 db2, ns_exec [] ex_db (CAddSibling 3 (Some "left") (nd 20 0)) = Ok db1 /\
     ns_exec [] db1 (CDelete [20]) = Ok db2 /\ shape (ns_rows db2) = shape (ns_rows ex_db)).
Proof.
  cbv zeta. split; [apply ex_stores|]. split; do 2 eexists; (split; [vm_compute; reflexivity|]).
  - split; [vm_compute; discriminate|]. split; vm_compute; reflexivity.
  - split; vm_compute; reflexivity.
Qed.

Example C83_ns_sorted_example : stores (ns_rows so_db) so_F /\
  exists db1 db2, ns_exec so so_db (CMove 1 2 (Some "sorted-sibling")) = Ok db1 /\ map n_pk (get_tree (ns_rows db1) None None) = [2; 6; 3; 1; 4; 5] /\
    ns_exec so db1 (CMove 1 3 (Some "sorted-sibling")) = Ok db2 /\ map n_pk (get_tree (ns_rows db2) None None) = [2; 6; 1; 4; 5; 3].
Proof. split; [apply so_stores|]. do 2 eexists. repeat (split; [vm_compute; reflexivity|]). vm_compute; reflexivity. Qed.

(** With an equal sibling on its right a node comes back behind that sibling: 1 and 2 are swapped. *)
Theorem C83_ns_sorted_refuted : exists db F n t p t' p' db1 db2, stores (ns_rows db) F /\ ordered so F /\
  parent_of n F = parent_of t' F /\
  ns_exec so db (CMove n t p) = Ok db1 /\ ns_exec so db1 (CMove n t' p') = Ok db2 /\
  map n_pk (get_tree (ns_rows db) None None) = [3; 1; 2] /\ map n_pk (get_tree (ns_rows db2) None None) = [3; 2; 1].
Proof.
  set (cs := [CAddRoot (nd 1 5); CAddRoot (nd 2 5); CAddRoot (nd 3 9)]).
  assert (H := ns_history so cs ltac:(apply nodup_b; vm_compute; reflexivity)).
  exists (fst (run (ns_exec so) (mkNSDB [] []) cs)), (fst (run (sp_exec so) Nil cs)), 1, 3, (Some "sorted-child"), 2, (Some "sorted-sibling").
  do 2 eexists. split; [destruct (run (ns_exec so) _ cs), (run (sp_exec so) _ cs); apply H|].
  split. { intros _. vm_compute. repeat (constructor; auto). all: intros i d [X|[]]; injection X as <- <-; discriminate. }
  repeat (split; [vm_compute; reflexivity|]). vm_compute; reflexivity.
Qed.
End NS.

(** ** Adjacency lists *)
Section AL.
Import ALModel ALInv ALHist PropsAL.

Theorem C83_al_add_delete o t F c x t1 : stores o t F -> (o <> [] -> call_values o c) -> new_ids c = [x] -> ~ In x (ids F) ->
  al_exec o t c = Ok t1 -> exists t2, al_exec o t1 (CDelete [x]) = Ok t2 /\ stores o t2 F.
Proof.
  intros St V En Nx E. assert (Fr : fresh_call F c) by (intros i Hi; rewrite En in Hi; destruct Hi as [<-|[]]; auto).
  assert (A := al_call_ok o t F c St Fr V). rewrite E in A. destruct (sp_exec o F c) as [F1|] eqn:E1; [|destruct A]. cbn [agree] in A.
  assert (B := al_call_ok o t1 F1 (CDelete [x]) A (fun i H => match H with end) (fun _ => I)). rewrite (add_delete o F c x F1 En Fr E1) in B.
  destruct (al_exec o t1 (CDelete [x])) as [t2|]; [|destruct B]. eauto.
Qed.

Theorem C83_al_move_back t F n q p t1 q' p' : stores [] t F -> al_exec [] t (CMove n q p) = Ok t1 -> place_of F n q' p' ->
  exists t2, al_exec [] t1 (CMove n q' (Some p')) = Ok t2 /\ stores [] t2 F.
Proof.
  intros St E Pl. assert (W : wf_ids F) by (destruct St as (W & _); auto).
  assert (A := al_call_ok [] t F (CMove n q p) St (fun i H => match H with end) (fun _ => I)). rewrite E in A.
  destruct (sp_exec [] F (CMove n q p)) as [F1|] eqn:E1; [|destruct A]. cbn [agree] in A.
  assert (B := al_call_ok [] t1 F1 (CMove n q' (Some p')) A (fun i H => match H with end) (fun _ => I)).
  rewrite (move_back F n q p F1 q' p' W E1 Pl) in B.
  destruct (al_exec [] t1 (CMove n q' (Some p'))) as [t2|]; [|destruct B]. eauto.
Qed.

Theorem C83_al_sorted_back o t F n q p t1 q' p' : o <> [] -> stores o t F -> al_exec o t (CMove n q p) = Ok t1 -> sorted_place_of o F n q' p' ->
  exists t2, al_exec o t1 (CMove n q' (Some p')) = Ok t2 /\ stores o t2 F.
Proof.
  intros No St E Pl. assert (W : wf_ids F) by (destruct St as (W & _); auto).
  assert (A := al_call_ok o t F (CMove n q p) St (fun i H => match H with end) (fun _ => I)). rewrite E in A.
  destruct (sp_exec o F (CMove n q p)) as [F1|] eqn:E1; [|destruct A]. cbn [agree] in A.
  assert (B := al_call_ok o t1 F1 (CMove n q' (Some p')) A (fun i H => match H with end) (fun _ => I)).
  rewrite (move_back_sorted o F n q p F1 q' p' No W E1 Pl) in B.
  destruct (al_exec o t1 (CMove n q' (Some p'))) as [t2|]; [|destruct B]. eauto.
Qed.

Theorem C83_al_stay t F n q p : stores [] t F -> place_of F n q p ->
  exists t', al_exec [] t (CMove n q (Some p)) = Ok t' /\ stores [] t' F.
Proof.
  intros St Pl. assert (W : wf_ids F) by (destruct St as (W & _); auto).
  assert (A := al_call_ok [] t F (CMove n q (Some p)) St (fun i H => match H with end) (fun _ => I)). rewrite (move_stay F n q p W Pl) in A.
  destruct (al_exec [] t (CMove n q (Some p))) as [t'|]; [|destruct A]. eauto.
Qed.

Example C83_al_example :
  stores [] ex_t ex_F /\
  (exists t1 t2, al_exec [] ex_t (CMove 4 7 (Some "left")) = Ok t1 /\ map a_pk (kids [] t1 (Some 2)) = [9] /\
     al_exec [] t1 (CMove 4 9 (Some "left")) = Ok t2 /\ map a_pk (kids [] t2 (Some 2)) = [4; 9] /\ map a_pk (kids [] t2 None) = [7; 1; 2]) /\
  (exists t1 t2, al_exec so so_t (CAddChild 6 (nd 20 9)) = Ok t1 /\ map a_pk (kids so t1 (Some 6)) = [1; 20; 3] /\
     al_exec so t1 (CDelete [20]) = Ok t2 /\ map a_pk (kids so t2 (Some 6)) = [1; 3]).
Proof.
  split; [apply ex_stores|]. split; do 2 eexists; (split; [vm_compute; reflexivity|]); repeat (split; [vm_compute; reflexivity|]); vm_compute; reflexivity.
Qed.

Example C83_al_sorted_example : stores so so_t so_F /\
  exists t1 t2, al_exec so so_t (CMove 1 2 (Some "sorted-sibling")) = Ok t1 /\ map a_pk (kids so t1 None) = [2; 6; 1] /\
    al_exec so t1 (CMove 1 6 (Some "sorted-child")) = Ok t2 /\ map a_pk (kids so t2 (Some 6)) = [1; 3].
Proof. split; [apply so_stores|]. do 2 eexists. repeat (split; [vm_compute; reflexivity|]). vm_compute; reflexivity. Qed.
End AL.

(** ** Materialized paths *)
Section MP.
Import NumConv MPModel MPInv MPHist PropsMP.

Theorem C83_mp_add_delete cfg db F c x db1 : 2 <= radix cfg -> 1 <= steplen cfg ->
  stores cfg (db_rows db) F -> ordered (order_by cfg) F -> (order_by cfg <> [] -> call_values (order_by cfg) c) ->
  new_ids c = [x] -> ~ In x (ids F) -> mp_exec cfg db c = Ok db1 ->
  exists db2, mp_exec cfg db1 (CDelete [x]) = Ok db2 /\ stores cfg (db_rows db2) F.
Proof.
  intros R2 S1 St O V En Nx E. assert (Fr : fresh_call F c) by (intros i Hi; rewrite En in Hi; destruct Hi as [<-|[]]; auto).
  assert (Rm : match c with CMove _ _ _ => roomy cfg (db_rows db) | _ => True end) by (destruct c; try discriminate En; exact I).
  destruct (mp_call_ok cfg R2 S1 db F c (conj St O) V Fr Rm) as [A|(E' & _)]; [|congruence].
  rewrite E in A. destruct (sp_exec (order_by cfg) F c) as [F1|] eqn:E1; [|destruct A]. cbn [agree] in A.
  destruct (mp_call_ok cfg R2 S1 db1 F1 (CDelete [x]) A (fun _ => I) (fun i H => match H with end) I) as [B|(E' & _)]; [|discriminate].
  rewrite (add_delete _ F c x F1 En Fr E1) in B.
  destruct (mp_exec cfg db1 (CDelete [x])) as [db2|]; [|destruct B]. exists db2. split; auto. apply B.
Qed.

(** Without room for the temporary paths the moves may fail or go wrong (C05): both tables are
    supposed to be roomy. Even then the paths may be too long for the column the second time. *)
Theorem C83_mp_move_back_partial cfg db F n t p db1 t' p' : 2 <= radix cfg -> 1 <= steplen cfg -> order_by cfg = [] ->
  stores cfg (db_rows db) F -> roomy cfg (db_rows db) -> mp_exec cfg db (CMove n t p) = Ok db1 -> roomy cfg (db_rows db1) ->
  place_of F n t' p' ->
  (exists db2, mp_exec cfg db1 (CMove n t' (Some p')) = Ok db2 /\ stores cfg (db_rows db2) F) \/
  (mp_exec cfg db1 (CMove n t' (Some p')) = Err PathOverflow /\ mp_full cfg (db_rows db1)).
Proof.
  intros R2 S1 Eo St Rm E Rm1 Pl. assert (W : wf_ids F) by (destruct St as (f & _ & _ & _ & W); auto).
  assert (O : forall G, ordered (order_by cfg) G) by (intros G H; congruence).
  destruct (mp_call_ok cfg R2 S1 db F (CMove n t p) (conj St (O F)) (fun _ => I) (fun i H => match H with end) Rm) as [A|(E' & _)]; [|congruence].
  rewrite E in A. rewrite Eo in A. destruct (sp_exec [] F (CMove n t p)) as [F1|] eqn:E1; [|destruct A]. cbn [agree] in A.
  destruct (mp_call_ok cfg R2 S1 db1 F1 (CMove n t' (Some p')) A (fun _ => I) (fun i H => match H with end) Rm1) as [B|(E' & Fu & _)]; [|right; auto].
  rewrite Eo, (move_back F n t p F1 t' p' W E1 Pl) in B. left.
  destruct (mp_exec cfg db1 (CMove n t' (Some p'))) as [db2|]; [|destruct B]. exists db2. split; auto. apply B.
Qed.

Theorem C83_mp_sorted_back_partial cfg db F n t p db1 t' p' : 2 <= radix cfg -> 1 <= steplen cfg -> order_by cfg <> [] ->
  stores cfg (db_rows db) F -> ordered (order_by cfg) F -> roomy cfg (db_rows db) -> mp_exec cfg db (CMove n t p) = Ok db1 -> roomy cfg (db_rows db1) ->
  sorted_place_of (order_by cfg) F n t' p' ->
  (exists db2, mp_exec cfg db1 (CMove n t' (Some p')) = Ok db2 /\ stores cfg (db_rows db2) F) \/
  (mp_exec cfg db1 (CMove n t' (Some p')) = Err PathOverflow /\ mp_full cfg (db_rows db1)).
Proof.
  intros R2 S1 No St O Rm E Rm1 Pl. assert (W : wf_ids F) by (destruct St as (f & _ & _ & _ & W); auto).
  destruct (mp_call_ok cfg R2 S1 db F (CMove n t p) (conj St O) (fun _ => I) (fun i H => match H with end) Rm) as [A|(E' & _)]; [|congruence].
  rewrite E in A.  destruct (sp_exec (order_by cfg) F (CMove n t p)) as [F1|] eqn:E1; [|destruct A]. cbn [agree] in A.
  destruct (mp_call_ok cfg R2 S1 db1 F1 (CMove n t' (Some p')) A (fun _ => I) (fun i H => match H with end) Rm1) as [B|(E' & Fu & _)]; [|right; auto].
  rewrite (move_back_sorted _ F n t p F1 t' p' No W E1 Pl) in B. left.
  destruct (mp_exec cfg db1 (CMove n t' (Some p'))) as [db2|]; [|destruct B]. exists db2. split; auto. apply B.
Qed.

Theorem C83_mp_stay_partial cfg db F n t p : 2 <= radix cfg -> 1 <= steplen cfg -> order_by cfg = [] ->
  stores cfg (db_rows db) F -> roomy cfg (db_rows db) -> place_of F n t p ->
  (exists db', mp_exec cfg db (CMove n t (Some p)) = Ok db' /\ stores cfg (db_rows db') F) \/
  (mp_exec cfg db (CMove n t (Some p)) = Err PathOverflow /\ mp_full cfg (db_rows db)).
Proof.
  intros R2 S1 Eo St Rm Pl. assert (W : wf_ids F) by (destruct St as (f & _ & _ & _ & W); auto).
  assert (O : ordered (order_by cfg) F) by (intros H; congruence).
  destruct (mp_call_ok cfg R2 S1 db F (CMove n t (Some p)) (conj St O) (fun _ => I) (fun i H => match H with end) Rm) as [A|(E' & Fu & _)]; [|right; auto].
  rewrite Eo, (move_stay F n t p W Pl) in A. left.
  destruct (mp_exec cfg db (CMove n t (Some p))) as [db'|]; [|destruct A]. exists db'. split; auto. apply A.
Qed.

Example C83_mp_example :
  stores c10 (db_rows ex_db) ex_F /\ roomy c10 (db_rows ex_db) /\
  (exists db1 db2, mp_exec c10 ex_db (CMove 4 7 (Some "left")) = Ok db1 /\ roomy c10 (db_rows db1) /\
     map m_pk (get_tree (db_rows db1) None None) = [4; 6; 7; 1; 3; 5; 2; 9; 10] /\
     mp_exec c10 db1 (CMove 4 9 (Some "left")) = Ok db2 /\ map m_pk (get_tree (db_rows db2) None None) = [7; 1; 3; 5; 2; 4; 6; 9; 10]) /\
  (exists db1 db2, mp_exec c10 ex_db (CAddSibling 3 (Some "left") (nd 20 0)) = Ok db1 /\
     mp_exec c10 db1 (CDelete [20]) = Ok db2 /\ map m_pk (get_tree (db_rows db2) None None) = map m_pk (get_tree (db_rows ex_db) None None)).
Proof.
  assert (Rb : forall cfg t, forallb (fun r => undigits (radix cfg) (last_step cfg (m_path r)) + 2 <? radix cfg ^ steplen cfg) t = true -> roomy cfg t).
  { intros cfg t H r Hr. rewrite forallb_forall in H. apply Nat.ltb_lt. auto. }
  split; [apply ex_stores|]. split; [apply Rb; vm_compute; reflexivity|]. split; do 2 eexists; (split; [vm_compute; reflexivity|]).
  - split; [apply Rb; vm_compute; reflexivity|]. repeat (split; [vm_compute; reflexivity|]). vm_compute; reflexivity.
  - split; vm_compute; reflexivity.
Qed.

Example C83_mp_sorted_example : order_by s10 = so /\ stores s10 (db_rows so_db) so_F /\ ordered so so_F /\ roomy s10 (db_rows so_db) /\
  exists db1 db2, mp_exec s10 so_db (CMove 1 2 (Some "sorted-sibling")) = Ok db1 /\ roomy s10 (db_rows db1) /\
    map m_pk (get_tree (db_rows db1) None None) = [2; 6; 3; 1; 4; 5] /\
    mp_exec s10 db1 (CMove 1 3 (Some "sorted-sibling")) = Ok db2 /\ map m_pk (get_tree (db_rows db2) None None) = [2; 6; 1; 4; 5; 3].
Proof.
  assert (Rb : forall cfg t, forallb (fun r => undigits (radix cfg) (last_step cfg (m_path r)) + 2 <? radix cfg ^ steplen cfg) t = true -> roomy cfg t).
  { intros cfg t H r Hr. rewrite forallb_forall in H. apply Nat.ltb_lt. auto. }
  split; [reflexivity|]. split; [apply so_stores|]. split; [apply so_stores|]. split; [apply Rb; vm_compute; reflexivity|]. do 2 eexists. split; [vm_compute; reflexivity|].
  split; [apply Rb; vm_compute; reflexivity|]. repeat (split; [vm_compute; reflexivity|]). vm_compute; reflexivity.
Qed.
End MP.

(** ** Ltree *)
Section LT.
Import LTModel LTInv LTHist LTReads PropsLT LTRefuted.

(** The same parents; the order of siblings is not always kept (C30). *)
Theorem C83_lt_add_delete_partial cfg db F c x db1 : 2 <= label_max cfg -> stores_unordered cfg (lt_rows db) F ->
  new_ids c = [x] -> ~ In x (ids F) -> lt_exec cfg db c = Ok db1 ->
  exists db2, lt_exec cfg db1 (CDelete [x]) = Ok db2 /\ stores_unordered cfg (lt_rows db2) F.
Proof.
  intros M2 St En Nx E. assert (Fr : fresh_call F c) by (intros i Hi; rewrite En in Hi; destruct Hi as [<-|[]]; auto).
  destruct (lt_step cfg M2 db F c St Fr) as [(d & F1 & E' & E1 & St1)|[(e & E' & _)|(F1 & _ & [[E' _]|[E' _]])]]; try congruence.
  rewrite E in E'. injection E' as <-.
  assert (E2 := add_delete _ F c x F1 En Fr E1).
  destruct (lt_step cfg M2 db1 F1 (CDelete [x]) St1 (fun i H => match H with end)) as [(d & F2 & E' & E3 & St2)|[(e & E' & _)|(F2 & _ & [[E' _]|[E' _]])]]; try discriminate.
  rewrite E2 in E3. injection E3 as <-. eauto.
Qed.

Theorem C83_lt_move_back_partial cfg db F n t p db1 t' p' : 2 <= label_max cfg -> lt_order cfg = [] -> stores_unordered cfg (lt_rows db) F ->
  lt_exec cfg db (CMove n t p) = Ok db1 -> place_of F n t' p' ->
  (exists db2, lt_exec cfg db1 (CMove n t' (Some p')) = Ok db2 /\ stores_unordered cfg (lt_rows db2) F) \/
  lt_full cfg db1 (lt_exec cfg db1 (CMove n t' (Some p'))).
Proof.
  intros M2 Eo St E Pl. assert (W : wf_ids F) by apply St.
  destruct (lt_step cfg M2 db F (CMove n t p) St (fun i H => match H with end)) as [(d & F1 & E' & E1 & St1)|[(e & E' & _)|(F1 & _ & [[E' _]|[E' _]])]]; try congruence.
  rewrite E in E'. injection E' as <-. rewrite Eo in E1.
  assert (E2 := move_back F n t p F1 t' p' W E1 Pl).
  destruct (lt_step cfg M2 db1 F1 (CMove n t' (Some p')) St1 (fun i H => match H with end)) as [(d & F2 & E' & E3 & St2)|[(e & _ & E3)|(F2 & _ & Fu)]].
  - rewrite Eo, E2 in E3. injection E3 as <-. left. eauto.
  - rewrite Eo, E2 in E3. discriminate.
  - right. exact Fu.
Qed.

Theorem C83_lt_sorted_back_partial cfg db F n t p db1 t' p' : 2 <= label_max cfg -> lt_order cfg <> [] -> stores_unordered cfg (lt_rows db) F ->
  lt_exec cfg db (CMove n t p) = Ok db1 -> sorted_place_of (lt_order cfg) F n t' p' ->
  (exists db2, lt_exec cfg db1 (CMove n t' (Some p')) = Ok db2 /\ stores_unordered cfg (lt_rows db2) F) \/
  lt_full cfg db1 (lt_exec cfg db1 (CMove n t' (Some p'))).
Proof.
  intros M2 No St E Pl. assert (W : wf_ids F) by apply St.
  destruct (lt_step cfg M2 db F (CMove n t p) St (fun i H => match H with end)) as [(d & F1 & E' & E1 & St1)|[(e & E' & _)|(F1 & _ & [[E' _]|[E' _]])]]; try congruence.
  rewrite E in E'. injection E' as <-.
  assert (E2 := move_back_sorted _ F n t p F1 t' p' No W E1 Pl).
  destruct (lt_step cfg M2 db1 F1 (CMove n t' (Some p')) St1 (fun i H => match H with end)) as [(d & F2 & E' & E3 & St2)|[(e & _ & E3)|(F2 & _ & Fu)]].
  - rewrite E2 in E3. injection E3 as <-. left. eauto.
  - rewrite E2 in E3. discriminate.
  - right. exact Fu.
Qed.

Theorem C83_lt_stay_partial cfg db F n t p : 2 <= label_max cfg -> lt_order cfg = [] -> stores_unordered cfg (lt_rows db) F ->
  place_of F n t p ->
  (exists db', lt_exec cfg db (CMove n t (Some p)) = Ok db' /\ stores_unordered cfg (lt_rows db') F) \/
  lt_full cfg db (lt_exec cfg db (CMove n t (Some p))).
Proof.
  intros M2 Eo St Pl. assert (E2 := move_stay F n t p (proj1 St) Pl).
  destruct (lt_step cfg M2 db F (CMove n t (Some p)) St (fun i H => match H with end)) as [(d & F2 & E' & E3 & St2)|[(e & _ & E3)|(F2 & _ & Fu)]].
  - rewrite Eo, E2 in E3. injection E3 as <-. left. eauto.
  - rewrite Eo, E2 in E3. discriminate.
  - right. exact Fu.
Qed.

Example C83_lt_example :
  stores_unordered c0 (lt_rows ex_db) ex_F /\
  (exists db1 db2, lt_exec c0 ex_db (CMove 4 7 (Some "left")) = Ok db1 /\ pks db1 = [4; 6; 7; 1; 3; 5; 2; 9; 10] /\
     lt_exec c0 db1 (CMove 4 9 (Some "left")) = Ok db2 /\ pks db2 = [7; 1; 3; 5; 2; 4; 6; 9; 10]) /\
  (exists db1 db2, lt_exec c0 ex_db (CAddSibling 3 (Some "left") (nd 20 0)) = Ok db1 /\
     lt_exec c0 db1 (CDelete [20]) = Ok db2 /\ pks db2 = pks ex_db).
Proof.
  assert (St := ex_stores). split.
  { split; [destruct St as (f & _ & _ & W); exact W|]. exists ex_F. split; auto. apply same_refl. }
  split; do 2 eexists; repeat (split; [vm_compute; reflexivity|]); vm_compute; reflexivity.
Qed.

Example C83_lt_sorted_example : lt_order cs = so /\ stores_unordered cs (lt_rows so_db) so_F /\
  exists db1 db2, lt_exec cs so_db (CMove 1 2 (Some "sorted-sibling")) = Ok db1 /\ pks db1 = [2; 6; 3; 1; 4; 5] /\
    lt_exec cs db1 (CMove 1 3 (Some "sorted-sibling")) = Ok db2 /\ pks db2 = [2; 6; 1; 4; 5; 3].
Proof.
  assert (St := so_stores). split; [reflexivity|]. split.
  { split; [destruct St as (f & _ & _ & W); exact W|]. exists so_F. split; auto. apply same_refl. }
  do 2 eexists. repeat (split; [vm_compute; reflexivity|]). vm_compute; reflexivity.
Qed.

(** Adding a node before the first and deleting it swaps two others. *)
Theorem C83_lt_refuted : exists db F x db1 db2, stores c0 (lt_rows db) F /\ ~ In (nid x) (ids F) /\
  lt_exec c0 db (CAddSibling 3 (Some "left") x) = Ok db1 /\ lt_exec c0 db1 (CDelete [nid x]) = Ok db2 /\
  pks db = [3; 4; 2; 1] /\ pks db2 = [4; 3; 2; 1] /\ ~ stores c0 (lt_rows db2) F.
Proof.
  destruct (run_stores c0 (firstn 4 swap_calls) _ _ ltac:(cbn; lia) ltac:(apply nodup_b; vm_compute; reflexivity) eq_refl) as (F & St).
  set (db := fst (run (lt_exec c0) lt_empty (firstn 4 swap_calls))).
  assert (St' : stores c0 (lt_rows db) F) by exact St. clear St.
  assert (E : map nid (roots F) = [3; 4; 2; 1]) by (rewrite <- (C32_roots c0 _ _ St'); vm_compute; reflexivity).
  assert (Hx : ~ In 5 (ids F)).
  { intros H. assert (X : In 5 (map l_pk (lt_rows db))).
    { destruct St' as (f & L & <- & _). apply (Permutation_in _ (Permutation_sym (lay_pks c0 _ _ L))). auto. }
    revert X. apply no_b. vm_compute. reflexivity. }
  exists db, F, (nd 5 0). do 2 eexists. split; [exact St'|]. split; [exact Hx|]. split; [vm_compute; reflexivity|].
  split; [vm_compute; reflexivity|]. split; [vm_compute; reflexivity|]. split; [vm_compute; reflexivity|].
  intros S2. assert (X : map nid (roots F) = [4; 3; 2; 1]) by (rewrite <- (C32_roots c0 _ _ S2); vm_compute; reflexivity). congruence.
Qed.
End LT.

Print Assumptions C83_ns_add_delete.
Print Assumptions C83_ns_move_back.
Print Assumptions C83_ns_sorted_back.
Print Assumptions C83_ns_sorted_refuted.
Print Assumptions C83_ns_stay.
Print Assumptions C83_al_add_delete.
Print Assumptions C83_al_move_back.
Print Assumptions C83_al_sorted_back.
Print Assumptions C83_al_stay.
Print Assumptions C83_mp_add_delete.
Print Assumptions C83_mp_move_back_partial.
Print Assumptions C83_mp_sorted_back_partial.
Print Assumptions C83_mp_stay_partial.
Print Assumptions C83_lt_add_delete_partial.
Print Assumptions C83_lt_move_back_partial.
Print Assumptions C83_lt_sorted_back_partial.
Print Assumptions C83_lt_stay_partial.
Print Assumptions C83_lt_refuted.
