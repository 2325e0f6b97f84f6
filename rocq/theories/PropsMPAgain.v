(** Theorems about a second fix_tree of mp_tree.py (C82). *)
From Coq Require Import List Arith Lia Bool ZArith Sorted Permutation.
From Verif Require Import Prelude Forest SpecFacts SpecSane SpecKids SpecPerm PathTab CommonModel Order
  MPModel MPStep MPInv MPFixModel MPCheck MPFixPaths MPFixAgain Fixture PropsMP PropsMPFix.
Import ListNotations.
Local Open Scope nat_scope.

(** The fast fix_tree: a second one changes nothing, for any table and any parent, however
    damaged. *)
Theorem C82_fast cfg db parent db' : fix_tree cfg db false parent = Ok db' -> fix_tree cfg db' false parent = Ok db'.
Proof.
  unfold fix_tree. intros E. injection E as <-. cbn [db_rows db_sig]. f_equal. f_equal.
  set (t := db_rows db). set (c := count_children cfg (fix_depth cfg parent t)).
  set (g := fun r => if below parent r then mkMP (m_pk r) (m_path r) (length (m_path r) / steplen cfg) (c (m_path r)) (m_data r) else r).
  assert (Bg : forall r, below parent (g r) = below parent r) by (intros r; unfold g; destruct (below parent r) eqn:B; auto; destruct parent; auto).
  assert (EN : fix_numchild cfg parent (fix_depth cfg parent t) = map g t).
  { unfold fix_numchild. fold c. unfold fix_depth. rewrite map_map. apply map_ext. intros r. unfold g. destruct (below parent r) eqn:B; [|rewrite B; auto].
    replace (below parent (mkMP _ _ _ _ _)) with true by (destruct parent; auto). reflexivity. }
  rewrite EN.
  assert (D : fix_depth cfg parent (map g t) = map g t).
  { unfold fix_depth. rewrite map_map. apply map_ext. intros r. rewrite Bg. unfold g. destruct (below parent r); auto. }
  rewrite D.
  assert (C : forall u v p, map m_path u = map m_path v -> count_children cfg u p = count_children cfg v p).
  { intros u v p E. unfold count_children.
    assert (X : forall a, length (filter (fun r => ppre p (m_path r) && (length (m_path r) =? length p + steplen cfg)) a) =
      length (filter (fun q => ppre p q && (length q =? length p + steplen cfg)) (map m_path a))).
    { induction a as [|r a IH]; auto. cbn [map filter]. destruct (ppre p (m_path r) && _); cbn [length]; auto. }
    rewrite !X, E. auto. }
  assert (P : map m_path (map g t) = map m_path (fix_depth cfg parent t)).
  { unfold fix_depth. rewrite !map_map. apply map_ext. intros r. unfold g. destruct (below parent r); auto. }
  unfold fix_numchild. rewrite map_map. apply map_ext. intros r. rewrite Bg, (C _ _ _ P). fold c.
  unfold g. destruct (below parent r); auto.
Qed.

(** fix_tree(fix_paths=True) leaves a tree alone whose steps are 1, 2, 3, ... in the right order. *)
Theorem C82_unchanged cfg db F : 2 <= radix cfg -> 1 <= steplen cfg -> stores cfg (db_rows db) F ->
  consecutive cfg (db_rows db) F -> order_by cfg = [] \/ strictly (order_by cfg) F ->
  fix_tree cfg db true None = Ok db.
Proof. apply fix_quiet. Qed.

(** So a second one changes nothing, whatever depth and numchild were before the first one. *)
Theorem C82_again_partial cfg db db' G : 2 <= radix cfg -> 1 <= steplen cfg ->
  paths_ok cfg (db_rows db) -> NoDup (map m_pk (db_rows db)) ->
  fix_tree cfg db true None = Ok db' -> stores cfg (db_rows db') G ->
  order_by cfg = [] \/ no_ties (order_by cfg) G ->
  fix_tree cfg db' true None = Ok db'.
Proof.
  intros R S P N E St O. destruct (C11_fix_paths cfg R S db P N) as (db1 & F & _ & _ & H). rewrite E in H.
  destruct H as (_ & G' & St' & Re & C). assert (G' = G) by (eapply stores_functional; eauto). subst G'.
  apply (fix_quiet cfg db' G R S St C). destruct O as [O|O]; auto.
  destruct (order_by cfg) as [|a o] eqn:Eo; auto. right. destruct Re as [_ Re].
  assert (W : wf_ids G) by (destruct St as (f & _ & _ & <- & W); exact W).
  apply (sorted_strictly (a :: o) G G W O (same_refl G) Re).
Qed.

(** With a parent: only what is below it has to be numbered and in order, ... *)
Theorem C82_branch_unchanged cfg db F p c : 2 <= radix cfg -> 1 <= steplen cfg -> stores cfg (db_rows db) F ->
  In p (db_rows db) -> kids_of (Some (m_pk p)) F = Some c ->
  (forall j, j = m_pk p \/ In j (ids c) -> kids_consecutive cfg (db_rows db) F j) ->
  order_by cfg = [] \/ strictly (order_by cfg) c ->
  fix_tree cfg db true (Some p) = Ok db.
Proof. apply fix_quiet_branch. Qed.

(** ... and a second fix_tree of the same branch changes nothing. *)
Theorem C82_branch_again_partial cfg db F p db' G c : 2 <= radix cfg -> 1 <= steplen cfg ->
  stores cfg (db_rows db) F -> In p (db_rows db) ->
  fix_tree cfg db true (Some p) = Ok db' -> stores cfg (db_rows db') G -> kids_of (Some (m_pk p)) G = Some c ->
  order_by cfg = [] \/ no_ties (order_by cfg) c ->
  In p (db_rows db') /\ fix_tree cfg db' true (Some p) = Ok db'.
Proof.
  intros R S St Hp E St' Hc O. assert (H := C11_fix_branch cfg R S db F p St Hp). rewrite E in H.
  destruct H as (G' & b & c' & StG & Cx & Re & C & Out). assert (G' = G) by (eapply stores_functional; eauto). subst G'.
  assert (W : wf_ids G) by (destruct St' as (f & _ & _ & <- & W); exact W).
  assert (Ec : kids_of (Some (m_pk p)) G = Some c').
  { clear - Cx W. revert W. remember (Some (m_pk p)) as q eqn:Eq. induction Cx; intros W; try discriminate; injection Eq as Eq; subst;
      cbn [kids_of children_of] in *.
    - rewrite Eq, Nat.eqb_refl. auto.
    - destruct (wf_cons_inv W) as (W1 & W2 & W3 & W4 & W5). rewrite (IHCx eq_refl W3).
      destruct (Nat.eqb_spec (nid a) (m_pk p)) as [X|_]; auto. exfalso. apply W1. rewrite X.
      apply (children_in _ _ _ (IHCx eq_refl W3)).
    - destruct (wf_cons_inv W) as (W1 & W2 & W3 & W4 & W5). assert (X := IHCx eq_refl W4).
      assert (Hi : In (m_pk p) (ids r')) by (apply (children_in _ _ _ X)).
      destruct (Nat.eqb_spec (nid a) (m_pk p)) as [Y|_]; [rewrite Y in W2; contradiction|].
      rewrite (children_of_notin (m_pk p) k) by (intros Hin; eauto). auto. }
  rewrite Ec in Hc. injection Hc as <-.
  assert (Hp' : In p (db_rows db')) by (apply Out; auto). split; auto.
  apply (fix_quiet_branch cfg db' G p c' R S St' Hp' Ec C). destruct O as [O|O]; auto.
  destruct (order_by cfg) as [|a o] eqn:Eo; auto. right. destruct Re as [_ Re].
  apply (sorted_strictly (a :: o) c' c' (wf_kids _ _ _ W Ec) O (same_refl c') Re).
Qed.

(** The tree of C04_example with wrong steps, depths and numbers of children. *)
Definition mixed : mp_db := mkDB
  (map (fun x => mkMP (fst (fst x)) (snd (fst x)) 0 9 [Some (snd x)])
    [((6, [0;2]), 15%Z); ((5, [0;2;0;1;0;1]), 6%Z); ((4, [0;2;0;1;0;4]), 7%Z); ((3, [0;2;0;2]), 5%Z); ((2, [0;7]), 20%Z); ((1, [0;2;0;1]), 10%Z)]) [].

Lemma so_ties : no_ties so so_F.
Proof.
  intros q L x y E Hx Hy H1 H2. apply in_order_col in H1, H2.
  assert (Q : q = None \/ exists j, q = Some j /\ In j (ids so_F)).
  { destruct q as [j|]; auto. right. exists j. split; auto. apply kid_list_in. congruence. }
  destruct Q as [->|(j & -> & Hj)].
  - vm_compute in E. injection E as <-. cbn [In] in Hx, Hy.
    repeat (destruct Hx as [<-|Hx]); try destruct Hx; repeat (destruct Hy as [<-|Hy]); try destruct Hy; auto;
      vm_compute in H1, H2; discriminate.
  - vm_compute in Hj. repeat (destruct Hj as [<-|Hj]); try destruct Hj; vm_compute in E; injection E as <-; cbn [In] in Hx, Hy;
      repeat (destruct Hx as [<-|Hx]); try destruct Hx; repeat (destruct Hy as [<-|Hy]); try destruct Hy; auto;
      vm_compute in H1, H2; discriminate.
Qed.

Example C82_example :
  paths_ok s10 (db_rows mixed) /\ NoDup (map m_pk (db_rows mixed)) /\
  (exists db', fix_tree s10 mixed true None = Ok db' /\ db_rows db' = db_rows so_db /\ db_rows db' <> db_rows mixed) /\
  stores s10 (db_rows so_db) so_F /\ no_ties (order_by s10) so_F /\
  fix_tree s10 so_db true None = Ok so_db.
Proof.
  split.
  { constructor.
    - intros r Hr. cbn in Hr. repeat (destruct Hr as [<-|Hr]); try destruct Hr; apply Forall_forall; intros c Hc; cbn in Hc |- *; intuition lia.
    - intros r Hr. cbn in Hr. repeat (destruct Hr as [<-|Hr]); try destruct Hr; cbn; [exists 0|exists 2|exists 2|exists 1|exists 0|exists 1]; reflexivity.
    - cbn. repeat constructor; cbn; intuition discriminate.
    - intros r Hr. cbn in Hr. repeat (destruct Hr as [<-|Hr]); try destruct Hr; vm_compute; lia.
    - intros r Hr. cbn in Hr.
      repeat (destruct Hr as [<-|Hr]); try destruct Hr; try (left; reflexivity); right;
        (exists (nth 0 (db_rows mixed) (mkMP 0 [] 0 0 [])); split; [vm_compute; tauto|vm_compute; reflexivity]) ||
        (exists (nth 5 (db_rows mixed) (mkMP 0 [] 0 0 [])); split; [vm_compute; tauto|vm_compute; reflexivity]). }
  split; [apply nodup_b; vm_compute; reflexivity|].
  split; [eexists; split; [vm_compute; reflexivity|split; [vm_compute; reflexivity|vm_compute; discriminate]]|].
  split; [apply so_stores|]. split; [apply so_ties|]. vm_compute. reflexivity.
Qed.

(** The fast one on a table that is not a tree: an orphan and a path of the wrong length. *)
Example C82_fast_example :
  let t := [mkMP 1 [0;1] 4 4 []; mkMP 2 [0;2;0;1] 0 7 []; mkMP 3 [0;1;0] 9 9 []; mkMP 4 [0;1;0;1] 1 0 []] in
  exists db', fix_tree c10 (mkDB t []) false None = Ok db' /\ map (fun r => (m_depth r, m_nc r)) (db_rows db') = [(1, 1); (2, 0); (1, 0); (2, 0)].
Proof. eexists. split; vm_compute; reflexivity. Qed.

(** The branch of C11_fix_branch_example: below node 2 the children come in the other order, the
    steps of the other branches stay. *)
Definition br_c : forest node :=
  Cons (nd 9 90) (Cons (nd 10 100) Nil Nil) (Cons (nd 4 40) (Cons (nd 6 60) Nil Nil) Nil).
Lemma br_ties : no_ties so br_c.
Proof.
  intros q L x y E Hx Hy H1 H2. apply in_order_col in H1, H2.
  assert (Q : q = None \/ exists j, q = Some j /\ In j (ids br_c)).
  { destruct q as [j|]; auto. right. exists j. split; auto. apply kid_list_in. congruence. }
  destruct Q as [->|(j & -> & Hj)].
  - vm_compute in E. injection E as <-. cbn [In] in Hx, Hy.
    repeat (destruct Hx as [<-|Hx]); try destruct Hx; repeat (destruct Hy as [<-|Hy]); try destruct Hy; auto;
      vm_compute in H1, H2; discriminate.
  - vm_compute in Hj. repeat (destruct Hj as [<-|Hj]); try destruct Hj; vm_compute in E; injection E as <-; cbn [In] in Hx, Hy;
      repeat (destruct Hx as [<-|Hx]); try destruct Hx; repeat (destruct Hy as [<-|Hy]); try destruct Hy; auto;
      vm_compute in H1, H2; discriminate.
Qed.
Definition br_F : forest node :=
  Cons (nd 7 70) Nil (Cons (nd 1 10) (Cons (nd 3 30) Nil (Cons (nd 5 50) Nil Nil)) (Cons (nd 2 20) br_c Nil)).
Definition br_db : mp_db := Eval vm_compute in
  match fix_tree s10 ex_db true (Some (row ex_db 2)) with Ok db => db | Err _ => ex_db end.
Lemma br_stores : stores s10 (db_rows br_db) br_F.
Proof.
  exists (Cons ([0;1], (nd 7 70, 0)) Nil
    (Cons ([0;2], (nd 1 10, 2)) (Cons ([0;1], (nd 3 30, 0)) Nil (Cons ([0;2], (nd 5 50, 0)) Nil Nil))
    (Cons ([0;3], (nd 2 20, 2)) (Cons ([0;1], (nd 9 90, 1)) (Cons ([0;1], (nd 10 100, 0)) Nil Nil)
      (Cons ([0;2], (nd 4 40, 1)) (Cons ([0;1], (nd 6 60, 0)) Nil Nil) Nil)) Nil))).
  split; [split; [|split]|].
  - cbn. repeat (split || constructor).
  - unfold kvalid. cbn. repeat constructor; cbn; lia.
  - apply NoDup_Permutation.
    + apply (NoDup_map_inv m_pk). apply nodup_b. vm_compute. reflexivity.
    + apply (NoDup_map_inv m_pk). apply nodup_b. vm_compute. reflexivity.
    + intros r. vm_compute. tauto.
  - split; [cbn; tauto|]. split; [reflexivity|]. apply nodup_b. vm_compute. reflexivity.
Qed.
Example C82_branch_example : order_by s10 = so /\
  stores s10 (db_rows ex_db) ex_F /\ In (row ex_db 2) (db_rows ex_db) /\
  fix_tree s10 ex_db true (Some (row ex_db 2)) = Ok br_db /\ db_rows br_db <> db_rows ex_db /\
  stores s10 (db_rows br_db) br_F /\ kids_of (Some (m_pk (row ex_db 2))) br_F = Some br_c /\
  no_ties (order_by s10) br_c /\ fix_tree s10 br_db true (Some (row ex_db 2)) = Ok br_db /\
  exists db, fix_tree s10 br_db true None = Ok db /\ db_rows db <> db_rows br_db.
Proof.
  split; [reflexivity|]. split; [exact ex_stores|]. split; [vm_compute; tauto|].
  split; [vm_compute; reflexivity|]. split; [vm_compute; discriminate|]. split; [exact br_stores|].
  split; [reflexivity|]. split; [exact br_ties|]. split; [vm_compute; reflexivity|].
  eexists. split; [vm_compute; reflexivity|]. vm_compute. discriminate.
Qed.

Print Assumptions C82_fast.
Print Assumptions C82_unchanged.
Print Assumptions C82_again_partial.
Print Assumptions C82_branch_unchanged.
Print Assumptions C82_branch_again_partial.
