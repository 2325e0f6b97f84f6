(** C50: adjacency list instances and their cached parent objects (al_tree.py:238-263, 305-330). *)
From Coq Require Import String List Arith Lia Bool ZArith.
From Verif Require Import Prelude Forest SpecFacts CommonModel Order History ALModel ALInv ALReads ALOk ALHist
  ALCacheModel ALCache Fixture PropsAL.
Import ListNotations.
Local Open Scope string_scope.
Local Open Scope list_scope.
Local Open Scope nat_scope.

Section AL.
Variables (o : ordering) (t : al_table) (F : forest node).
Hypothesis St : stores o t F.

(** get_parent, get_ancestors, get_root and get_depth of an instance whose cached parent objects
    are up to date answer from the table, and these instances stay up to date. *)
Theorem C50_parent_partial h a i update : current t h a -> nth_error h a = Some i ->
  exists h' b, h_get_parent t h a update = Ok (h', b) /\ (forall x, current t h x -> current t h' x) /\
    parent_of (a_pk (i_row i)) F = Some match b with
      | None => None
      | Some b => option_map (fun j => a_pk (i_row j)) (nth_error h' b)
      end /\
    match b with None => True | Some b => current t h' b end.
Proof.
  intros C E. destruct (follow_ok o t F St h a i C E) as (h' & b & Ef & G & H). exists h', b. split; auto.
  split; [intros x; apply (grows_current _ _ _ _ _ G)|].
  destruct (current_inst _ _ _ C) as (i' & E' & Sp). rewrite E in E'. injection E' as <-. destruct (place_pk o t F St _ Sp) as (_ & P).
  rewrite P. destruct (a_parent (i_row i)) as [q|], b as [b|]; [|destruct H|destruct H|auto].
  destruct H as (Cb & j & Ej & <-). rewrite Ej. auto.
Qed.

Theorem C50_ancestors_partial h a i : current t h a -> nth_error h a = Some i ->
  exists A h' l, ancestors_of (a_pk (i_row i)) F = Some A /\ h_get_ancestors t h a = Ok (h', l) /\
    (forall x, current t h x -> current t h' x) /\
    map (fun b => option_map (fun j => a_pk (i_row j)) (nth_error h' b)) l = map (fun n => Some (nid n)) A /\ Forall (current t h') l.
Proof.
  intros C E. destruct (ancestors_ok o t F St h a i C E) as (A & h' & l & EA & El & G & Fa). exists A, h', l. split; auto. split; auto.
  split; [intros x; apply (grows_current _ _ _ _ _ G)|]. clear - Fa. induction Fa as [|b n l A (Cb & j & Ej & Pj) Fa IH]; [split; auto|].
  destruct IH as (I1 & I2). split; [|constructor; auto]. cbn [map]. rewrite Ej, I1. cbn. congruence.
Qed.

Theorem C50_root_partial h a i : current t h a -> nth_error h a = Some i ->
  exists A h' b j, ancestors_of (a_pk (i_row i)) F = Some A /\ h_get_root t h a = Ok (h', b) /\ nth_error h' b = Some j /\
    a_pk (i_row j) = match A with [] => a_pk (i_row i) | r :: _ => nid r end /\ current t h' b.
Proof.
  intros C E. destruct (ancestors_ok o t F St h a i C E) as (A & h' & l & EA & El & G & Fa). unfold h_get_root. rewrite El. cbn [bind].
  destruct Fa as [|b n l A (Cb & j & Ej & Pj) Fa].
  - destruct (G a i E) as (i' & E' & R & _). exists [], h', a, i'. cbn [hd]. rewrite R.
    split; auto. split; auto. split; auto. split; auto. eapply grows_current; eauto.
  - exists (n :: A), h', b, j. auto.
Qed.

Theorem C50_depth_partial h a i : current t h a -> nth_error h a = Some i ->
  exists A h', ancestors_of (a_pk (i_row i)) F = Some A /\ h_get_depth t h a true = Ok (h', Z.of_nat (S (length A))) /\
    forall x, current t h x -> current t h' x.
Proof.
  intros C E. destruct (depth_ok o t F St h a i true C E) as (A & h' & d & i' & EA & Ed & G & _ & _ & _ & D).
  exists A, h'. rewrite <- (D (or_introl eq_refl)). split; auto. split; auto. intros x. apply (grows_current _ _ _ _ _ G).
Qed.

(** ** Which instances are up to date *)

(** Instances that were just fetched ... *)
Theorem C50_load h k : In k (ids F) -> exists h' a i, load t h k = Ok (h', a) /\ nth_error h' a = Some i /\
  a_pk (i_row i) = k /\ In (i_row i) t /\ current t h' a /\ forall x, current t h x -> current t h' x.
Proof.
  intros Hk. destruct (load_ok o t F St h k Hk) as (h' & b & j & El & G & C & Ej & Pj & Hj & _).
  exists h', b, j. repeat (split; auto). intros x. apply (grows_current _ _ _ _ _ (G (fun _ => True))).
Qed.

(** ... or reloaded, whatever they were before ... *)
Theorem C50_refresh h a i : nth_error h a = Some i -> In (a_pk (i_row i)) (ids F) ->
  exists h', refresh t h a = Ok h' /\ current t h' a /\ exists i', nth_error h' a = Some i' /\ In (i_row i') t /\
    a_pk (i_row i') = a_pk (i_row i) /\ o_depth (i_obj i') = None.
Proof. apply (refresh_current o t F h a i St). Qed.

(** ... or added; adding a node leaves all others up to date ... *)
Theorem C50_add_root h x : ~ In (nid x) (ids F) -> (o <> [] -> has_values o (ndata x)) ->
  exists t' h' a, h_add_root o t h x = Ok (t', h', a) /\ stores o t' (sp_add_root (gt_opt o (ndata x)) x F) /\
    (exists i, nth_error h' a = Some i /\ row_node (i_row i) = x) /\ current t' h' a /\
    forall y, current t h y -> current t' h' y.
Proof. apply (add_root_current o t F h x St). Qed.

Theorem C50_add_child h b g x : current t h b -> nth_error h b = Some g -> ~ In (nid x) (ids F) ->
  (o <> [] -> has_values o (ndata x)) ->
  exists t' h' a, h_add_child o t h b x = Ok (t', h', a) /\
    stores o t' (sp_add_child (gt_opt o (ndata x)) (a_pk (i_row g)) x F) /\
    (exists i, nth_error h' a = Some i /\ row_node (i_row i) = x) /\ current t' h' a /\
    forall y, current t h y -> current t' h' y.
Proof. apply (add_child_current o t F h b g x St). Qed.

Theorem C50_add_sibling h b g p P x : nth_error h b = Some g -> In (i_row g) t -> ~ In (nid x) (ids F) ->
  (o <> [] -> has_values o (ndata x)) -> prepare_pos_add (is_sorted o) p = Ok P ->
  exists t' h' a, h_add_sibling o t h b p x = Ok (t', h', a) /\
    stores o t' (sp_add_sibling (a_pk (i_row g)) P (gt_of o (ndata x)) x F) /\
    (exists i, nth_error h' a = Some i /\ row_node (i_row i) = x) /\ current t' h' a /\
    forall y, current t h y -> current t' h' y.
Proof. apply (add_sibling_current o t F h b g p P x St). Qed.

(** ... or moved; the move leaves the target up to date and every instance except those that
    have another instance of the moved node among their cached parents. *)
Theorem C50_move h a b i g p P : current t h a -> current t h b ->
  nth_error h a = Some i -> nth_error h b = Some g -> In (i_row i) t -> In (i_row g) t -> cache_pos (i_obj i) ->
  prepare_pos_move (is_sorted o) p = Ok P ->
  (inside F (a_pk (i_row i)) (a_pk (i_row g)) P /\ h_move o t h a b p = Err InvalidMoveToDescendant) \/
  (~ inside F (a_pk (i_row i)) (a_pk (i_row g)) P /\ exists t' h', h_move o t h a b p = Ok (t', h') /\
     stores o t' (sp_move (a_pk (i_row i)) (a_pk (i_row g)) P (gt_of o (a_data (i_row i))) F) /\
     (exists i', nth_error h' a = Some i' /\ In (i_row i') t' /\ a_pk (i_row i') = a_pk (i_row i)) /\
     current t' h' a /\ current t' h' b /\
     forall x, current t h x ->
       (forall y j, above h x y -> nth_error h y = Some j -> a_pk (i_row j) = a_pk (i_row i) -> y = a) -> current t' h' x).
Proof. apply (move_current o t F h a b i g p P St). Qed.
End AL.

(** ** Out of date parents *)

(** A program: the node 3 is read and its depth asked for, then its parent 1 is moved below 7
    by way of other instances.  All rows of the last heap that belong to 3 are unchanged. *)
Definition stale_run : res (al_table * heap * nat) :=
  do '(h, n) <- load ex_t [] 3;
  do '(h, _) <- h_get_depth ex_t h n false;
  do '(h, c) <- load ex_t h 1;
  do '(h, d) <- load ex_t h 7;
  do '(t, h) <- h_move [] ex_t h c d (Some "last-child");
  Ok (t, h, n).

(** With update=True the depth, the parent object and the root are still the former ones, though
    the row of the instance itself is the one in the table. *)
Theorem C50_refuted : exists t h n F, stale_run = Ok (t, h, n) /\ stores [] t F /\
  (exists i, nth_error h n = Some i /\ In (i_row i) t /\ a_pk (i_row i) = 3) /\
  (exists A, ancestors_of 3 F = Some A /\ map nid A = [7; 1]) /\
  (exists h', h_get_depth t h n true = Ok (h', 2%Z)) /\
  (exists h' b j, h_get_parent t h n true = Ok (h', Some b) /\ nth_error h' b = Some j /\ a_pk (i_row j) = 1 /\
     a_parent (i_row j) = None /\ parent_of 1 F = Some (Some 7)) /\
  (exists h' b j, h_get_root t h n = Ok (h', b) /\ nth_error h' b = Some j /\ a_pk (i_row j) = 1).
Proof.
  assert (H := al_call_ok [] ex_t ex_F (CMove 1 7 (Some "last-child")) ex_stores).
  assert (E : exists t, al_exec [] ex_t (CMove 1 7 (Some "last-child")) = Ok t /\ exists h n, stale_run = Ok (t, h, n)).
  { eexists. split; [vm_compute; reflexivity|]. eexists _, _. vm_compute. reflexivity. }
  assert (EF : exists F, sp_exec [] ex_F (CMove 1 7 (Some "last-child")) = Ok F) by (eexists; vm_compute; reflexivity).
  destruct E as (t & E & h & n & Es), EF as (F & EF). rewrite E, EF in H. exists t, h, n, F. split; auto. split.
  { apply H; [intros i []|congruence]. }
  clear H. vm_compute in Es. injection Es as <- <- <-. vm_compute in EF. injection EF as <-.
  split; [eexists; split; [reflexivity|]; split; [vm_compute; tauto|reflexivity]|].
  split; [eexists; split; reflexivity|]. split; [eexists; vm_compute; reflexivity|].
  split; eexists _, _, _; vm_compute; auto.
Qed.

(** ** Examples *)

(** The instances of 3 and of its parent 1, and one of 7 *)
Definition ex_h : heap := Eval vm_compute in
  match (do '(h, n) <- load ex_t [] 3; do '(h, _) <- h_get_depth ex_t h n false; do '(h, d) <- load ex_t h 7; Ok h) with
  | Ok h => h | Err _ => [] end.

Example C50_current_example : current ex_t ex_h 0 /\ current ex_t ex_h 1 /\ current ex_t ex_h 2.
Proof.
  assert (C1 : current ex_t ex_h 1).
  { eapply cur; [reflexivity| |discriminate|discriminate]. exists (row ex_t 1). vm_compute. tauto. }
  split; [|split; auto].
  - eapply cur; [reflexivity|exists (row ex_t 3); vm_compute; tauto| |]; intros b Eb; injection Eb as <-; auto.
    eexists. split; reflexivity.
  - eapply cur; [reflexivity| |discriminate|discriminate]. exists (row ex_t 7). vm_compute. tauto.
Qed.

Example C50_read_example : exists i h', nth_error ex_h 0 = Some i /\ i_up i = Some 1 /\
  h_get_parent ex_t ex_h 0 true = Ok (h', Some 1) /\ h_get_ancestors ex_t ex_h 0 = Ok (ex_h, [1]) /\
  h_get_root ex_t ex_h 0 = Ok (ex_h, 1) /\ exists h2, h_get_depth ex_t ex_h 0 true = Ok (h2, 2%Z).
Proof. eexists _, _. vm_compute. repeat (split; auto). eexists. reflexivity. Qed.

(** The parent itself is moved, so its child sees the move: the depth is 3 now. *)
Example C50_move_example : exists t' h', h_move [] ex_t ex_h 1 2 (Some "last-child") = Ok (t', h') /\
  (exists h2, h_get_depth t' h' 0 true = Ok (h2, 3%Z)) /\
  forall y j, above ex_h 0 y -> nth_error ex_h y = Some j -> a_pk (i_row j) = 1 -> y = 1.
Proof.
  eexists _, _. split; [vm_compute; reflexivity|]. split; [eexists; vm_compute; reflexivity|].
  intros y j A E P. inversion A as [|x i b y' E1 E2 E3]; subst; [vm_compute in E; injection E as <-; discriminate|].
  vm_compute in E1. injection E1 as <-. vm_compute in E2. injection E2 as <-.
  inversion E3 as [|x i b y' E4 E5 E6]; subst; auto. vm_compute in E4. injection E4 as <-. discriminate.
Qed.

Example C50_refresh_example : exists t h n h', stale_run = Ok (t, h, n) /\ refresh t h n = Ok h' /\
  exists h2, h_get_depth t h' n false = Ok (h2, 3%Z).
Proof.
  eexists _, _, _, _. split; [vm_compute; reflexivity|]. split; [vm_compute; reflexivity|]. eexists. vm_compute. reflexivity.
Qed.

Example C50_add_example : exists t h a t2 h2 b t3 h3 c, h_add_child [] ex_t ex_h 0 (mkNode 20 []) = Ok (t, h, a) /\
  h_add_sibling [] t h a (Some "left") (mkNode 21 []) = Ok (t2, h2, b) /\ h_add_root [] t2 h2 (mkNode 22 []) = Ok (t3, h3, c) /\
  exists h4 h5, h_get_depth t3 h3 a true = Ok (h4, 3%Z) /\ h_get_depth t3 h3 b true = Ok (h5, 3%Z).
Proof.
  eexists _, _, _, _, _, _, _, _, _. split; [vm_compute; reflexivity|]. split; [vm_compute; reflexivity|]. split; [vm_compute; reflexivity|].
  eexists _, _. vm_compute. auto.
Qed.

Example C50_load_example : exists h', load ex_t ex_h 10 = Ok (h', 3).
Proof. eexists. vm_compute. reflexivity. Qed.

Print Assumptions C50_parent_partial.
Print Assumptions C50_ancestors_partial.
Print Assumptions C50_root_partial.
Print Assumptions C50_depth_partial.
Print Assumptions C50_load.
Print Assumptions C50_refresh.
Print Assumptions C50_add_root.
Print Assumptions C50_add_child.
Print Assumptions C50_add_sibling.
Print Assumptions C50_move.
Print Assumptions C50_refuted.
