(** Properties of concurrent add_root and add_child calls on materialized paths (C81). *)
From Coq Require Import List Arith Lia Bool ZArith Permutation.
From Verif Require Import Prelude Forest Fixture SpecFacts SpecSane CommonModel Order History
  MPModel MPStep MPInv MPHist PropsMP ConcModel ConcRun ConcMP ConcRoots.
Import ListNotations.
Local Open Scope nat_scope.

Lemma calls_apart (calls : list growth) : NoDup (map (fun c => nid (grown_by c)) calls) ->
  forall i j c d, i <> j -> nth_error calls i = Some c -> nth_error calls j = Some d -> nid (grown_by c) <> nid (grown_by d).
Proof.
  intros ND i j c d N Ec Ed Q. apply N. apply (proj1 (NoDup_nth_error _) ND).
  - rewrite map_length. apply nth_error_Some. congruence.
  - rewrite !nth_error_map, Ec, Ed. cbn. congruence.
Qed.

(** Any number of concurrent add_root and add_child calls, in any schedule: the rows are those
    of a tree, the one of the calls that succeeded, one after the other in the order they
    ended.  A call that failed changed nothing, and it failed as it would have alone at that
    point, or, an add_root, because an add_root that had succeeded before took its path.  From
    any point all calls can be brought to their ends. *)
Theorem C81_partial cfg t F (calls : list growth) schedule :
  2 <= radix cfg -> 1 <= steplen cfg -> order_by cfg = [] -> stores cfg t F ->
  NoDup (map (fun c => nid (grown_by c)) calls) -> (forall c, In c calls -> ~ In (nid (grown_by c)) (ids F)) ->
  let W := play m_pk mp_same (all_begin t (map (begun cfg) calls)) schedule in
  stores cfg (w_rows W) (fold_left grow (succeeded calls (w_log W)) F) /\
  serial cfg calls t (w_log W) (w_rows W) /\ NoDup (map fst (w_log W)) /\
  (finished W = true -> Permutation (map fst (w_log W)) (seq 0 (length calls))) /\
  exists schedule', finished (play m_pk mp_same W schedule') = true.
Proof.
  intros R S U St ND Fr W.
  assert (Fr' : forall c, In c calls -> fresh t c).
  { intros c Hc. unfold fresh. rewrite <- (ids_iff cfg t F _ St). auto. }
  destruct (roots_concurrent cfg R S U calls t F (calls_apart calls ND) St Fr' schedule) as (H1 & H2 & H3 & H4 & H5).
  auto.
Qed.

(** When there is one add_root among them, the outcome, exceptions included, is the one of the
    calls one after the other in the order they ended. *)
Theorem C81_one_root_partial cfg t F (calls : list growth) schedule :
  2 <= radix cfg -> 1 <= steplen cfg -> order_by cfg = [] -> stores cfg t F ->
  NoDup (map (fun c => nid (grown_by c)) calls) -> (forall c, In c calls -> ~ In (nid (grown_by c)) (ids F)) ->
  (forall i j c d, nth_error calls i = Some c -> nth_error calls j = Some d -> is_root_call c -> is_root_call d -> i = j) ->
  let W := play m_pk mp_same (all_begin t (map (begun cfg) calls)) schedule in
  one_by_one (grow_exec cfg) calls t (map fst (w_log W)) = (w_rows W, w_log W).
Proof.
  intros R S U St ND Fr O W. destruct (C81_partial cfg t F calls schedule R S U St ND Fr) as (_ & H1 & H2 & _).
  fold W in H1, H2. apply (serial_one_root cfg calls t _ _ H1 H2 O).
Qed.

(** An add_root that failed can be called again: alone it succeeds and adds the root, unless
    there is no path left. *)
Theorem C81_again_partial cfg t F (calls : list growth) schedule i x e :
  2 <= radix cfg -> 1 <= steplen cfg -> order_by cfg = [] -> stores cfg t F ->
  NoDup (map (fun c => nid (grown_by c)) calls) -> (forall c, In c calls -> ~ In (nid (grown_by c)) (ids F)) ->
  let W := play m_pk mp_same (all_begin t (map (begun cfg) calls)) schedule in
  nth_error calls i = Some (Root x) -> In (i, Some e) (w_log W) ->
  (exists t', grow_exec cfg (w_rows W) (Root x) = Ok t' /\
     stores cfg t' (sp_add_root None x (fold_left grow (succeeded calls (w_log W)) F))) \/
  grow_exec cfg (w_rows W) (Root x) = Err PathOverflow.
Proof.
  intros R S U St ND Fr W Ei Hi. destruct (C81_partial cfg t F calls schedule R S U St ND Fr) as (H0 & H1 & H2 & _).
  fold W in H0, H1, H2.
  assert (Fr' : forall c, In c calls -> fresh t c).
  { intros c Hc. unfold fresh. rewrite <- (ids_iff cfg t F _ St). auto. }
  destruct (serial_facts cfg R S U calls t F (calls_apart calls ND) St Fr' _ _ H1 H2) as [_ K].
  assert (Rx : fresh (w_rows W) (Root x)).
  { apply (K i); auto. intros Q. clear - H2 Q Hi. induction (w_log W) as [|a l IH]; [destruct Q|].
    cbn in H2. apply NoDup_cons_iff in H2. destruct H2 as [N1 N2].
    destruct Q as [->|Q]; destruct Hi as [Hi|Hi]; try congruence.
    - apply N1. cbn. apply in_map_iff. exists (i, Some e). auto.
    - apply N1. subst a. cbn. apply in_map_iff. exists (i, None). auto.
    - auto. }
  destruct (root_cases cfg R S U _ _ x H0 Rx) as [[_ E]|(np & _ & E & _ & E')]; eauto.
Qed.

(** Two add_root and two add_child calls: the second add_root fails, and succeeds when called
    again. *)
Example C81_example :
  let calls := [Root (nd 21 0); Root (nd 22 0); Child 1 (nd 23 0); Child 1 (nd 24 0)] in
  let W := play m_pk mp_same (all_begin (db_rows ex_db) (map (begun c10) calls))
             [0; 1; 2; 0; 3; 1; 2; 2; 0; 1; 2; 2; 2; 3; 3; 3; 3; 3; 3] in
  stores c10 (db_rows ex_db) ex_F /\ order_by c10 = [] /\ NoDup (map (fun c => nid (grown_by c)) calls) /\
  (forall c, In c calls -> ~ In (nid (grown_by c)) (ids ex_F)) /\ finished W = true /\
  w_log W = [(0, None); (1, Some IntegrityError); (2, None); (3, None)] /\
  (exists t', grow_exec c10 (w_rows W) (Root (nd 22 0)) = Ok t' /\ length t' = length (db_rows ex_db) + 4).
Proof.
  cbv zeta. split; [apply ex_stores|]. split; auto. split; [repeat constructor; cbn; intuition lia|].
  split; [intros c [<-|[<-|[<-|[<-|[]]]]]; vm_compute; intuition lia|].
  split; [vm_compute; reflexivity|]. split; [vm_compute; reflexivity|].
  eexists. split; vm_compute; reflexivity.
Qed.

(** One add_root between two add_child calls, one on a node that is not there. *)
Example C81_one_root_example :
  let calls := [Child 1 (nd 23 0); Root (nd 21 0); Child 99 (nd 24 0)] in
  let W := play m_pk mp_same (all_begin (db_rows ex_db) (map (begun c10) calls)) [0; 1; 0; 2; 0; 1; 0; 1; 0; 0] in
  NoDup (map (fun c => nid (grown_by c)) calls) /\ (forall c, In c calls -> ~ In (nid (grown_by c)) (ids ex_F)) /\
  (forall i j c d, nth_error calls i = Some c -> nth_error calls j = Some d -> is_root_call c -> is_root_call d -> i = j) /\
  finished W = true /\ w_log W = [(2, Some DoesNotExist); (1, None); (0, None)].
Proof.
  cbv zeta. split; [repeat constructor; cbn; intuition lia|].
  split; [intros c [<-|[<-|[<-|[]]]]; vm_compute; intuition lia|]. split.
  - intros [|[|[|i]]] [|[|[|j]]] c d E1 E2; cbn in E1, E2; try (destruct i; discriminate); try (destruct j; discriminate);
      injection E1 as <-; injection E2 as <-; cbn; tauto.
  - split; vm_compute; reflexivity.
Qed.

Print Assumptions C81_partial.
Print Assumptions C81_one_root_partial.
Print Assumptions C81_again_partial.
