(** Properties of concurrent add_root and add_child calls on adjacency lists (C81). *)
From Coq Require Import List Arith Lia Bool ZArith Permutation.
From Verif Require Import Prelude Forest Fixture SpecFacts SpecSane CommonModel Order History
  ALModel ALInv ALHist PropsAL ConcModel ConcRun ConcAL ConcALModel ConcRoots ConcALRoots.
Import ListNotations.
Local Open Scope nat_scope.

(** Without node_order_by, any number of concurrent add_root and add_child calls, in any
    schedule: none fails, and apart from the numbers in sib_order the rows are those of the
    finished calls made one after the other.  New nodes come after the old ones among their
    siblings, but two of them can get the same number (C41_al_refuted, C74_roots_refuted). *)
Theorem C81_al_partial t F (calls : list growth) schedule : stores [] t F ->
  NoDup (map (fun c => nid (grown_by c)) calls) ->
  (forall c, In c calls -> ~ In (nid (grown_by c)) (ids F) /\ (forall k x, c = Child k x -> In k (ids F))) ->
  let without_order (r : alrow) := (a_pk r, a_parent r, a_data r) in
  let W := play a_pk al_same (all_begin t (map (al_begun []) calls)) schedule in
  exists t', one_by_one (al_grow_exec []) calls t (map fst (w_log W)) = (t', w_log W) /\ NoDup (map fst (w_log W)) /\
  Forall (fun e => snd e = None) (w_log W) /\
  stores [] t' (fold_left grow (succeeded calls (w_log W)) F) /\
  Permutation (map without_order (w_rows W)) (map without_order t') /\
  (forall r s, In r (w_rows W) -> In s (w_rows W) -> a_parent r = a_parent s -> In (a_pk r) (ids F) -> ~ In (a_pk s) (ids F) ->
     (a_sib r < a_sib s)%Z) /\
  (finished W = true -> Permutation (map fst (w_log W)) (seq 0 (length calls))) /\
  exists schedule', finished (play a_pk al_same W schedule') = true.
Proof.
  intros St ND Fr wo W.
  assert (Rd : forall c, In c calls -> prepared t c).
  { intros c Hc. destruct (Fr c Hc) as [H1 H2]. split; [|rewrite <- (ids_iff [] t F _ St); auto].
    intros k Ek. rewrite <- (ids_iff [] t F _ St). destruct c as [k' x|x]; [|discriminate]. injection Ek as <-. eapply H2; eauto. }
  destruct (al_roots [] calls t ND Rd F schedule St) as (t' & H1 & H2 & H3 & H4 & H5 & H6 & H7 & H8); [intros No; destruct (No eq_refl)|].
  exists t'. fold W in H1, H2, H3, H4, H5, H6, H7, H8. split; auto. split; auto. split; auto. split.
  { revert H4. generalize (succeeded calls (w_log W)). intros l. generalize F. induction l as [|c l IH]; intros G H; cbn in *; auto. }
  split; [|auto]. apply (Permutation_map fst) in H5. rewrite !map_map in H5. exact H5.
Qed.

(** With node_order_by the rows are exactly those, and the table stores the forest. *)
Theorem C81_al_sorted o t F (calls : list growth) schedule : o <> [] -> stores o t F ->
  NoDup (map (fun c => nid (grown_by c)) calls) ->
  (forall c, In c calls -> ~ In (nid (grown_by c)) (ids F) /\ (forall k x, c = Child k x -> In k (ids F))) ->
  Forall (fun c => has_values o (ndata (grown_by c))) calls ->
  let W := play a_pk al_same (all_begin t (map (al_begun o) calls)) schedule in
  (exists t', one_by_one (al_grow_exec o) calls t (map fst (w_log W)) = (t', w_log W) /\ Permutation (w_rows W) t') /\
  NoDup (map fst (w_log W)) /\ Forall (fun e => snd e = None) (w_log W) /\
  stores o (w_rows W) (fold_left (grow_sorted o) (succeeded calls (w_log W)) F) /\
  (finished W = true -> Permutation (map fst (w_log W)) (seq 0 (length calls))) /\
  exists schedule', finished (play a_pk al_same W schedule') = true.
Proof.
  intros No St ND Fr V W.
  assert (Rd : forall c, In c calls -> prepared t c).
  { intros c Hc. destruct (Fr c Hc) as [H1 H2]. split; [|rewrite <- (ids_iff o t F _ St); auto].
    intros k Ek. rewrite <- (ids_iff o t F _ St). destruct c as [k' x|x]; [|discriminate]. injection Ek as <-. eapply H2; eauto. }
  destruct (al_roots o calls t ND Rd F schedule St (fun _ => V)) as (t' & H1 & H2 & H3 & H4 & H5 & _ & H7 & H8).
  fold W in H1, H2, H3, H4, H5, H7, H8.
  assert (P : Permutation (w_rows W) t').
  { apply (Permutation_map (fun p : nat * option nat * fields * Z => mkAL (fst (fst (fst p))) (snd (fst (fst p))) (snd p) (snd (fst p)))) in H5.
    rewrite !map_map in H5.
    assert (E : forall l : al_table, map (fun r => let p := plain o r in mkAL (fst (fst (fst p))) (snd (fst (fst p))) (snd p) (snd (fst p))) l = l).
    { intros l. rewrite <- (map_id l) at 2. apply map_ext. intros r. unfold plain, is_sorted. destruct o as [|a o']; [contradiction|]. destruct r; reflexivity. }
    cbv zeta in E. rewrite !E in H5. exact H5. }
  split; [exists t'; auto|]. split; auto. split; auto. split; [|auto].
  destruct H4 as (Wf & Od & so & Fit & Inc). split; auto. split; auto. exists so. split; auto.
  intros p. specialize (Fit p). rewrite <- Fit.
  clear - P. induction P; cbn; auto.
  - destruct (par_eqb (a_parent x) p); auto.
  - destruct (par_eqb (a_parent x) p), (par_eqb (a_parent y) p); auto. constructor.
  - eapply Permutation_trans; eauto.
Qed.

Example C81_al_example :
  let calls := [Root (nd 21 0); Root (nd 22 0); Child 1 (nd 23 0); Child 1 (nd 24 0)] in
  let W := play a_pk al_same (all_begin ex_t (map (al_begun []) calls)) [0; 1; 2; 1; 0; 2; 0; 1; 3; 2; 3; 3] in
  stores [] ex_t ex_F /\ NoDup (map (fun c => nid (grown_by c)) calls) /\
  (forall c, In c calls -> ~ In (nid (grown_by c)) (ids ex_F) /\ (forall k x, c = Child k x -> In k (ids ex_F))) /\
  finished W = true /\ w_log W = [(0, None); (1, None); (2, None); (3, None)] /\
  map (fun r => (a_pk r, a_sib r)) (kids [] (w_rows W) None) = [(7, 1%Z); (1, 2%Z); (2, 3%Z); (22, 4%Z); (21, 4%Z)] /\
  map (fun r => (a_pk r, a_sib r)) (kids [] (w_rows W) (Some 1)) = [(3, 1%Z); (5, 2%Z); (24, 3%Z); (23, 3%Z)].
Proof.
  cbv zeta. split; [apply ex_stores|]. split; [repeat constructor; cbn; intuition lia|]. split.
  { intros c [<-|[<-|[<-|[<-|[]]]]]; (split; [apply has_false; reflexivity|]); intros k x E; try discriminate; injection E as <- _; apply has_spec; reflexivity. }
  vm_compute. auto 10.
Qed.

Example C81_al_sorted_example :
  let calls := [Root (nd 21 7); Root (nd 22 30); Child 6 (nd 23 9)] in
  let W := play a_pk al_same (all_begin so_t (map (al_begun so) calls)) [0; 1; 2; 2; 1; 0] in
  so <> [] /\ stores so so_t so_F /\ NoDup (map (fun c => nid (grown_by c)) calls) /\
  (forall c, In c calls -> ~ In (nid (grown_by c)) (ids so_F) /\ (forall k x, c = Child k x -> In k (ids so_F))) /\
  Forall (fun c => has_values so (ndata (grown_by c))) calls /\
  finished W = true /\ w_log W = [(2, None); (1, None); (0, None)] /\
  map a_pk (kids so (w_rows W) None) = [22; 2; 6; 21].
Proof.
  cbv zeta. split; [discriminate|]. split; [apply so_stores|]. split; [repeat constructor; cbn; intuition lia|]. split.
  { intros c [<-|[<-|[<-|[]]]]; (split; [apply has_false; reflexivity|]); intros k x E; try discriminate; injection E as <- _; apply has_spec; reflexivity. }
  split; [apply Forall_forall; intros c [<-|[<-|[<-|[]]]]; intros f b [E|[]]; injection E as <- <-; discriminate|]. vm_compute. auto.
Qed.

Print Assumptions C81_al_partial.
Print Assumptions C81_al_sorted.
