(** Claims that are false of the nested sets model, with computed witnesses. *)
From Coq Require Import String List Arith Lia Bool ZArith.
From Verif Require Import Prelude Forest SpecFacts CommonModel Order History NSModel NSInv NSReads NSAdd NSMoveOk
  NSHist NSCheck Fixture PropsNS.
Import ListNotations.
Local Open Scope string_scope.
Local Open Scope list_scope.
Local Open Scope nat_scope.

Definition fam_calls : list call := [CAddRoot (nd 1 5); CAddChild 1 (nd 2 9); CAddChild 1 (nd 3 9); CAddChild 3 (nd 4 0)].
Definition fam_db : ns_db := Eval vm_compute in fst (run (ns_exec []) ns_empty fam_calls).
Definition fam_F : forest node := Eval vm_compute in fst (run (sp_exec []) Nil fam_calls).
Lemma fam_stores : stores (ns_rows fam_db) fam_F.
Proof.
  assert (H := ns_history [] fam_calls (nodup_b [1;2;3;4] eq_refl)). fold ns_empty in H.
  assert (E1 : fst (run (ns_exec []) ns_empty fam_calls) = fam_db) by (vm_compute; reflexivity).
  assert (E2 : fst (run (sp_exec []) Nil fam_calls) = fam_F) by (vm_compute; reflexivity).
  destruct (run (ns_exec []) ns_empty fam_calls), (run (sp_exec []) Nil fam_calls). cbn in E1, E2. subst. apply H.
Qed.

(** ** add_child leaves a wrong [rgt] on the parent object if the parent has children,
    /repo/treebeard/ns_tree.py:157-158 *)
Theorem C24_ns_add_child_refuted : exists db F target x db' r target',
  stores (ns_rows db) F /\ In target (ns_rows db) /\ ~ In (nid x) (ids F) /\
  add_child [] db target x = Ok (db', r, target') /\
  ~ In target' (ns_rows db') /\
  exists stored, In stored (ns_rows db') /\ n_pk stored = n_pk target /\ n_rgt target' = (n_rgt stored + 2)%Z.
Proof.
  exists fam_db, fam_F, (row fam_db 1), (nd 5 0). eexists. eexists. eexists.
  split; [apply fam_stores|]. split; [vm_compute; tauto|]. split; [apply no_b; vm_compute; reflexivity|].
  split; [vm_compute; reflexivity|]. split.
  - vm_compute. intros [H|[H|[H|[H|[H|[]]]]]]; discriminate.
  - eexists. split; [vm_compute; do 4 right; left; reflexivity|]. split; reflexivity.
Qed.

(** ** Using one object twice corrupts the tree
    add_sibling(t, "right") remembers the parent on t (the object is as before otherwise);
    add_sibling(t, "last-sibling") then opens the gap at the parent's old rgt. *)
Theorem C24_ns_stale_parent_refuted : exists db F t x y db1 r1 t1 db2 r2,
  stores (ns_rows db) F /\ In t (ns_rows db) /\ ~ In (nid x) (ids F) /\ ~ In (nid y) (ids F) /\ nid x <> nid y /\
  add_sibling [] db (fresh t) (Some "right") x = Ok (db1, r1) /\
  sibling_cache [] db (fresh t) (Some "right") = Ok t1 /\
  In (o_row t1) (ns_rows db1) /\ o_row t1 = t /\
  add_sibling [] db1 t1 (Some "last-sibling") y = Ok (db2, r2) /\
  ~ exists G, stores (ns_rows db2) G.
Proof.
  exists fam_db, fam_F, (row fam_db 2), (nd 5 0), (nd 6 0). eexists. eexists. eexists. eexists. eexists.
  split; [apply fam_stores|]. split; [vm_compute; tauto|]. split; [apply no_b; vm_compute; reflexivity|].
  split; [apply no_b; vm_compute; reflexivity|]. split; [vm_compute; discriminate|].
  split; [vm_compute; reflexivity|]. split; [vm_compute; reflexivity|]. split; [vm_compute; tauto|].
  split; [vm_compute; reflexivity|]. split; [vm_compute; reflexivity|].
  intros (G & S). apply stores_no_problems in S. vm_compute in S. discriminate.
Qed.

(** ** find_problems does not look for gaps *)
Theorem C21_gaps_refuted : exists t, NoDup (map n_pk t) /\ find_problems t None = ([], [], [], []) /\
  ~ exists F, stores t F.
Proof.
  exists [mkNS 1 1 1 4 1 []]. split; [apply nodup_b; reflexivity|]. split; [vm_compute; reflexivity|].
  intros (F & S). destruct (C20_descendants _ F (mkNS 1 1 1 4 1 []) None S (or_introl eq_refl)) as (k & _ & _ & _ & E & C & _).
  cbn in E, C. destruct k; [cbn in C; discriminate|discriminate].
Qed.

(** ... nor for a root that does not start at 1, so get_root_nodes misses it. *)
Theorem C21_root_refuted : exists t, NoDup (map n_pk t) /\ find_problems t None = ([], [], [], []) /\
  length t = 1 /\ get_root_nodes t = [].
Proof.
  exists [mkNS 1 1 2 3 1 []]. split; [apply nodup_b; reflexivity|]. split; [vm_compute; reflexivity|].
  split; reflexivity.
Qed.

(** ** max_depth=0 means no limit *)
Theorem C37_ns_zero_refuted : exists t F, stores t F /\ preorder (prune_opt (Some 0) F) = [] /\
  map n_pk (get_tree t None (Some 0%Z)) = [1; 2; 3; 4].
Proof. exists (ns_rows fam_db), fam_F. split; [apply fam_stores|]. split; vm_compute; reflexivity. Qed.

Print Assumptions C24_ns_add_child_refuted.
Print Assumptions C24_ns_stale_parent_refuted.
Print Assumptions C21_gaps_refuted.
Print Assumptions C21_root_refuted.
Print Assumptions C37_ns_zero_refuted.
