(** Claims that are false of the adjacency list model, with computed witnesses. *)
From Coq Require Import String List Arith Lia Bool ZArith Permutation.
From Verif Require Import Prelude Forest SpecFacts CommonModel Order History SpecKids ALModel ALInv ALReads ALOk ALHist ALAnswers
  Fixture PropsAL.
Import ListNotations.
Local Open Scope string_scope.
Local Open Scope list_scope.
Local Open Scope nat_scope.

(** ** get_depth after a move, /repo/treebeard/al_tree.py:305-330
    6 is on the third level; moved beside 9 it is on the second; the object says 3. *)
Theorem C28_after_move_refuted : exists t F n target t' n' G A,
  stores [] t F /\ In (o_row n) t /\ o_depth n = None /\ In target t /\
  move [] t n target (Some "left") = Ok (t', n') /\ stores [] t' G /\
  ancestors_of (a_pk (o_row n')) G = Some A /\ length A = 1 /\
  get_depth t' n' false = Ok (3%Z, n').
Proof.
  exists ex_t, ex_F, (fresh (row ex_t 6)), (row ex_t 9).
  assert (H1 : In (row ex_t 6) ex_t) by (vm_compute; tauto). assert (H2 : In (row ex_t 9) ex_t) by (vm_compute; tauto).
  destruct (C26_move [] ex_t ex_F (fresh (row ex_t 6)) (row ex_t 9) (Some "left") Left ex_stores) as (t' & n' & G & E & S & _).
  - vm_compute; tauto.
  - exact Logic.I.
  - vm_compute; tauto.
  - reflexivity.
  - apply insideb_false. vm_compute. reflexivity.
  - exists t', n', G.
    destruct (C24_al_move_partial [] ex_t ex_F (fresh (row ex_t 6)) _ _ t' n' ex_stores H1 Logic.I H2 E) as (Hn' & En').
    destruct (C27_ancestors [] t' G (o_row n') S Hn') as (L & A & EL & EA & E2 & _).
    exists A. split; [apply ex_stores|]. split; [vm_compute; tauto|]. split; [reflexivity|]. split; [vm_compute; tauto|].
    split; [exact E|]. split; [exact S|]. split; [exact EA|].
    vm_compute in E. injection E as <- <-. split; [|vm_compute; reflexivity].
    rewrite <- E2, map_length. vm_compute in EL. injection EL as <-. reflexivity.
Qed.

(** ... and its descendants are then listed with wrong levels. *)
Theorem C27_stale_levels_refuted : exists t F n target t' n' L,
  stores [] t F /\ In (o_row n) t /\ o_depth n = None /\ In target t /\
  move [] t n target (Some "last-child") = Ok (t', n') /\
  get_descendants [] t' n' false None = Ok L /\
  map (fun x => (a_pk (o_row x), o_depth x)) L = [(10, Some 3%Z)] /\
  (do l <- get_ancestors t' (row t' 10); Ok (map a_pk l)) = Ok [1; 5; 9].
Proof.
  exists ex_t, ex_F, (fresh (row ex_t 9)), (row ex_t 5). eexists. eexists. eexists.
  split; [apply ex_stores|]. split; [vm_compute; tauto|]. split; [reflexivity|]. split; [vm_compute; tauto|].
  split; [vm_compute; reflexivity|]. split; [vm_compute; reflexivity|]. split; vm_compute; reflexivity.
Qed.

(** ** get_next_sibling / get_prev_sibling of a tree with node_order_by,
    /repo/treebeard/models.py:579-601 use sib_order, which such a model does not have
    (/repo/docs/source/al_tree.rst:59-92). *)
Theorem C27_neighbours_refuted : exists o t F r, stores o t F /\ strict o F /\ In r t /\
  next_of (a_pk r) (siblings_of (a_pk r) F) <> None /\
  get_next_sibling o t r = Err AttributeError /\ get_prev_sibling o t r = Err AttributeError.
Proof.
  exists so, so_t, so_F, (row so_t 4). split; [apply so_stores|]. split; [apply C27_example|]. split; [vm_compute; tauto|].
  split; [vm_compute; discriminate|]. split; reflexivity.
Qed.

(** ** Reusing the target object: a second add_sibling(pos="left") with the same object
    puts the new node left of the first new one instead of right before the target. *)
Theorem C24_al_target_refuted : exists t F target x y t1 a t2 b,
  stores [] t F /\ In target t /\ ~ In (nid x) (ids F) /\ ~ In (nid y) (ids F) /\ nid x <> nid y /\
  add_sibling [] t target (Some "left") x = Ok (t1, a) /\ ~ In target t1 /\
  add_sibling [] t1 target (Some "left") y = Ok (t2, b) /\
  map a_pk (get_siblings [] t2 target) = [nid y; nid x; a_pk target; 9].
Proof.
  exists ex_t, ex_F, (row ex_t 4), (nd 11 0), (nd 12 0). eexists. eexists. eexists. eexists.
  split; [apply ex_stores|]. split; [vm_compute; tauto|].
  split; [apply no_b; vm_compute; reflexivity|]. split; [apply no_b; vm_compute; reflexivity|]. split; [vm_compute; discriminate|].
  split; [vm_compute; reflexivity|]. split.
  { vm_compute. intros H. repeat destruct H as [H|H]; try discriminate; contradiction. }
  split; vm_compute; reflexivity.
Qed.

(** ... and a second add_sibling(pos="right") with the object of a node whose left
    neighbour was added meanwhile lands BEFORE the node itself. *)
Theorem C24_al_target_right_refuted : exists t F target x y t1 a t2 b,
  stores [] t F /\ In target t /\ ~ In (nid x) (ids F) /\ ~ In (nid y) (ids F) /\ nid x <> nid y /\
  add_sibling [] t target (Some "first-sibling") x = Ok (t1, a) /\
  add_sibling [] t1 target (Some "right") y = Ok (t2, b) /\
  map a_pk (get_siblings [] t2 target) = [nid x; nid y; a_pk target; 9].
Proof.
  exists ex_t, ex_F, (row ex_t 4), (nd 11 0), (nd 12 0). eexists. eexists. eexists. eexists.
  split; [apply ex_stores|]. split; [vm_compute; tauto|].
  split; [apply no_b; vm_compute; reflexivity|]. split; [apply no_b; vm_compute; reflexivity|]. split; [vm_compute; discriminate|].
  split; [vm_compute; reflexivity|]. split; vm_compute; reflexivity.
Qed.

(** ** max_depth=0 means no limit *)
Theorem C37_al_zero_refuted : exists t F L, stores [] t F /\ preorder (prune_opt (Some 0) F) = [] /\
  get_tree [] t None (Some 0%Z) = Ok L /\ length L = 9.
Proof.
  exists ex_t, ex_F. eexists. split; [apply ex_stores|]. split; [vm_compute; reflexivity|]. split; vm_compute; reflexivity.
Qed.

Print Assumptions C28_after_move_refuted.
Print Assumptions C27_stale_levels_refuted.
Print Assumptions C27_neighbours_refuted.
Print Assumptions C24_al_target_refuted.
Print Assumptions C24_al_target_right_refuted.
Print Assumptions C37_al_zero_refuted.
