(** C58: find_problems and fix_tree of mp_tree.py on tables in any state: paths with unknown
    characters or of a wrong length, missing ancestors, wrong depth and numchild. *)
From Coq Require Import List Arith Lia Bool ZArith.
From Verif Require Import Prelude Forest NumConv PathTab CommonModel Order MPModel MPInv MPFixModel MPCheck MPFixAny Fixture PropsMP.
Import ListNotations.
Local Open Scope nat_scope.

Section Any.
Variable cfg : mp_cfg.
Hypothesis radix2 : 2 <= radix cfg.
Hypothesis step1 : 1 <= steplen cfg.
Notation listed := (listed cfg).
Notation evil := (evil cfg).
Notation bad_length := (bad_length cfg).
Notation orphan := (orphan cfg).

(** The five lists are what the documentation says; a row is only in the first list that
    applies.  The fifth list is exact if all paths have right characters and lengths
    (C58_numchild_refuted). *)
Theorem C58_lists_partial t parent r : NoDup (map m_path t) -> NoDup (map m_pk t) -> In r t -> below parent r = true ->
  (listed t parent r EvilChars <-> evil r) /\
  (listed t parent r BadSteplen <-> ~ evil r /\ bad_length r) /\
  (listed t parent r Orphan <-> ~ evil r /\ ~ bad_length r /\ orphan t r) /\
  (listed t parent r WrongDepth <->
     ~ evil r /\ ~ bad_length r /\ ~ orphan t r /\ length (m_path r) <> m_depth r * steplen cfg) /\
  ((forall x, In x t -> ~ evil x /\ ~ bad_length x) -> forall l, children_are cfg t r l ->
    (listed t parent r WrongNumchild <->
       ~ orphan t r /\ length (m_path r) = m_depth r * steplen cfg /\ m_nc r <> length l)).
Proof. apply lists_ok; auto. Qed.

(** Only rows below [parent] are listed. *)
Theorem C58_listed t parent k p : In (k, p) (find_problems cfg t parent) ->
  exists r, In r t /\ m_pk r = k /\ below parent r = true.
Proof.
  unfold find_problems. intros H. apply in_flat_map in H. destruct H as (r & Hr & H). apply filter_In in Hr.
  exists r. destruct (problem_of cfg t r); [|destruct H]. destruct H as [H|[]]. injection H as <- _. tauto.
Qed.

(** fix_tree() always succeeds, keeps paths, primary keys and values, leaves the rows outside of
    the branch alone, leaves the problems of paths as they are and no wrong depth.  With right
    characters and lengths there is no wrong number of children either, so that only the
    orphans remain.  A second call changes nothing. *)
Theorem C58_fix_partial db parent : exists db', fix_tree cfg db false parent = Ok db' /\
  map (fun r => (m_pk r, m_path r, m_data r)) (db_rows db') = map (fun r => (m_pk r, m_path r, m_data r)) (db_rows db) /\
  (forall r, below parent r = false -> In r (db_rows db) -> In r (db_rows db')) /\
  on_paths (find_problems cfg (db_rows db') parent) = on_paths (find_problems cfg (db_rows db) parent) /\
  (forall k, ~ In (k, WrongDepth) (find_problems cfg (db_rows db') parent)) /\
  ((forall x, In x (db_rows db) -> ~ evil x /\ ~ bad_length x) ->
     find_problems cfg (db_rows db') parent =
     filter (fun x => match snd x with Orphan => true | _ => false end) (find_problems cfg (db_rows db) parent)) /\
  fix_tree cfg db' false parent = Ok db'.
Proof.
  exists (mkDB (fixed cfg parent (db_rows db)) (db_sig db)). split; [auto|]. cbn [db_rows].
  split; [apply fixed_keep; auto|]. split; [intros r; apply fixed_outside|].
  destruct (fixed_lists cfg parent (db_rows db)) as [L1 L2]. split; auto. split; auto. split.
  - intros Cl. assert (L3 := fixed_counts cfg radix2 step1 parent (db_rows db) Cl).
    assert (Ev : forall k p, In (k, p) (find_problems cfg (db_rows db) parent) -> p <> EvilChars /\ p <> BadSteplen).
    { intros k p H. unfold find_problems in H. apply in_flat_map in H. destruct H as (r & Hr & H). apply filter_In in Hr.
      destruct (problem_of cfg (db_rows db) r) as [q|] eqn:E; [|destruct H]. destruct H as [H|[]]. injection H as _ ->.
      destruct (Cl r (proj1 Hr)) as [C1 C2]. unfold problem_of in E.
      destruct (existsb _ (m_path r)) eqn:E1; [apply evil_b in E1; contradiction|].
      destruct (Nat.eqb_spec (length (m_path r) mod steplen cfg) 0) as [E2|E2]; [|apply bad_b in E2; auto; contradiction].
      cbn [negb] in E. destruct (get_parent cfg (db_rows db) r); [|injection E as <-; split; discriminate].
      destruct (negb _); [injection E as <-; split; discriminate|].
      destruct (negb _); [injection E as <-; split; discriminate|discriminate]. }
    transitivity (on_paths (find_problems cfg (fixed cfg parent (db_rows db)) parent)).
    + unfold on_paths. symmetry.
      assert (X : forall l : list (nat * problem), (forall k, ~ In (k, WrongDepth) l) -> (forall k, ~ In (k, WrongNumchild) l) ->
        filter (fun x => is_path_problem (snd x)) l = l).
      { induction l as [|[k p] l IH]; simpl; auto. intros A B.
        assert (is_path_problem p = true) as ->.
        { destruct p; auto; exfalso; [apply (A k)|apply (B k)]; left; auto. }
        rewrite IH; auto; intros k' H'; [apply (A k')|apply (B k')]; right; auto. }
      apply X; auto.
    + rewrite L1. unfold on_paths. apply filter_ext_In. intros [k p] H. destruct (Ev k p H) as [E1 E2].
      destruct p; auto; contradiction.
  - unfold fix_tree. cbn [db_rows db_sig]. fold (fixed cfg parent (fixed cfg parent (db_rows db))).
    rewrite fixed_twice. auto.
Qed.

(** fix_tree, with fix_paths or not, never loses a row and keeps the primary keys and values. *)
Theorem C58_keeps db fix_paths parent db' : fix_tree cfg db fix_paths parent = Ok db' ->
  map (fun r => (m_pk r, m_data r)) (db_rows db') = map (fun r => (m_pk r, m_data r)) (db_rows db).
Proof. apply fix_owned. Qed.
End Any.

(** A path of a wrong length counts as a child in find_problems and not in fix_tree: node 1 is
    reported again and again. *)
Theorem C58_numchild_refuted : exists cfg db db', NoDup (map m_path (db_rows db)) /\ NoDup (map m_pk (db_rows db)) /\
  fix_tree cfg db false None = Ok db' /\ fix_tree cfg db' false None = Ok db' /\
  find_problems cfg (db_rows db') None = [(1, WrongNumchild); (2, BadSteplen)].
Proof.
  exists c10, (mkDB [mkMP 1 [0; 1] 1 0 []; mkMP 2 [0; 1; 0; 1; 5] 2 0 []] []). eexists.
  split; [repeat constructor; simpl; intuition congruence|]. split; [repeat constructor; simpl; intuition congruence|].
  split; [reflexivity|]. split; vm_compute; reflexivity.
Qed.

(** An orphan, whose parent was at 03.  fix_tree(fix_paths=True) moves root 4 from 04 to 03:
    the orphan is its child now. *)
Definition lost_rows (r : list mprow) : mp_db :=
  mkDB ([mkMP 1 [0; 1] 1 0 []; mkMP 2 [0; 2] 1 0 []; mkMP 4 [0; 4] 1 0 []; mkMP 5 [0; 3; 0; 5] 2 0 []] ++ r) [].
Theorem C58_adopted_refuted : exists cfg db db', NoDup (map m_path (db_rows db)) /\
  find_problems cfg (db_rows db) None = [(5, Orphan)] /\ fix_tree cfg db true None = Ok db' /\
  exists n q, get_by_pk (db_rows db') 5 = Ok n /\ get_parent cfg (db_rows db') n = Ok (Some q) /\ m_pk q = 4 /\
  find_problems cfg (db_rows db') None = [(4, WrongNumchild)].
Proof.
  exists c10, (lost_rows []). eexists.
  split; [repeat constructor; simpl; intuition congruence|]. split; [vm_compute; reflexivity|].
  split; [vm_compute; reflexivity|]. do 2 eexists. split; [vm_compute; reflexivity|]. split; [vm_compute; reflexivity|].
  split; vm_compute; reflexivity.
Qed.

(** If root 4 has a child with the same step as the orphan, fix_tree(fix_paths=True) fails. *)
Theorem C58_collision_refuted : exists cfg db, NoDup (map m_path (db_rows db)) /\
  find_problems cfg (db_rows db) None = [(5, Orphan)] /\ fix_tree cfg db true None = Err IntegrityError.
Proof.
  exists c10, (mkDB [mkMP 1 [0; 1] 1 0 []; mkMP 2 [0; 2] 1 0 []; mkMP 4 [0; 4] 1 1 []; mkMP 5 [0; 3; 0; 5] 2 0 []; mkMP 6 [0; 4; 0; 5] 2 0 []] []).
  split; [repeat constructor; simpl; intuition congruence|]. split; vm_compute; reflexivity.
Qed.

(** ** Examples *)

(** Node 3 has a character that is no digit, 6 a path of a wrong length, 5 no parent, 2 a wrong
    depth and 1 a wrong number of children. *)
Definition bad_rows : mp_table :=
  [mkMP 1 [0; 1] 1 3 []; mkMP 2 [0; 1; 0; 1] 7 0 []; mkMP 3 [0; 2; 0; 10] 2 0 []; mkMP 5 [0; 3; 0; 5] 2 0 [];
   mkMP 6 [0; 2; 1] 1 0 []].
Example C58_lists_example : NoDup (map m_path bad_rows) /\ NoDup (map m_pk bad_rows) /\
  find_problems c10 bad_rows None = [(1, WrongNumchild); (2, WrongDepth); (3, EvilChars); (5, Orphan); (6, BadSteplen)].
Proof.
  split; [repeat constructor; simpl; intuition congruence|].
  split; [repeat constructor; simpl; intuition congruence|vm_compute; reflexivity].
Qed.

(** The last part of C58_lists_partial *)
Example C58_children_example : let t := db_rows (lost_rows [mkMP 6 [0; 2; 0; 3] 2 0 []]) in
  (forall x, In x t -> ~ evil c10 x /\ ~ bad_length c10 x) /\
  children_are c10 t (mkMP 2 [0; 2] 1 0 []) [mkMP 6 [0; 2; 0; 3] 2 0 []] /\
  find_problems c10 t None = [(2, WrongNumchild); (5, Orphan)].
Proof.
  assert (Cl : forall x, In x (db_rows (lost_rows [mkMP 6 [0; 2; 0; 3] 2 0 []])) -> ~ evil c10 x /\ ~ bad_length c10 x).
  { intros x Hx. split.
    - intros (c & Hc & H). cbn in Hx. decompose [or] Hx; subst; try contradiction; cbn in Hc, H; lia.
    - intros H. cbn in Hx. decompose [or] Hx; subst; try contradiction; first [apply (H 1); reflexivity|apply (H 2); reflexivity]. }
  split; [exact Cl|]. split; [|vm_compute; reflexivity].
  exists (fun r => m_pk r =? 6). split; [reflexivity|].
  intros x Hx. unfold child_path. cbn in Hx. decompose [or] Hx; subst; try contradiction; cbn [m_pk m_path Nat.eqb];
    (split; [intros E; try discriminate E|intros (s & E & L); try reflexivity]).
  all: try (destruct s as [|a [|b [|c s]]]; discriminate L || discriminate E || (cbn in E; congruence)).
  exists [0; 3]. split; reflexivity.
Qed.

Example C58_fix_example : let db := lost_rows [mkMP 6 [0; 2; 0; 3] 5 9 []] in
  find_problems c10 (db_rows db) None = [(2, WrongNumchild); (5, Orphan); (6, WrongDepth)] /\
  exists db', fix_tree c10 db false None = Ok db' /\ find_problems c10 (db_rows db') None = [(5, Orphan)].
Proof. split; [vm_compute; reflexivity|]. eexists. split; [reflexivity|vm_compute; reflexivity]. Qed.

Example C58_keeps_example : exists db', fix_tree c10 (lost_rows []) true None = Ok db' /\
  map m_path (db_rows db') <> map m_path (db_rows (lost_rows [])).
Proof. eexists. split; [vm_compute; reflexivity|vm_compute; discriminate]. Qed.

Print Assumptions C58_lists_partial.
Print Assumptions C58_listed.
Print Assumptions C58_fix_partial.
Print Assumptions C58_keeps.
Print Assumptions C58_numchild_refuted.
Print Assumptions C58_adopted_refuted.
Print Assumptions C58_collision_refuted.
