(** Properties of concurrent add_root and add_child calls on ltree paths (C81). *)
From Coq Require Import List Arith Lia Bool ZArith Permutation.
From Verif Require Import Prelude Forest Fixture SpecFacts SpecSane SpecPerm CommonModel Order History SpecRun
  LTModel LTLabel LTInv LTHist PropsLT ConcModel ConcLTModel ConcRun ConcLT ConcLTRoots.
From Verif Require ConcRoots PropsConcRoots.
Import ConcRoots(growth(..), grown_by, is_root_call, grow).
Import ListNotations.
Local Open Scope nat_scope.

(** As on materialized paths; the siblings may come in another order, as without concurrency
    (C30). *)
Theorem C81_lt_partial cfg t F (calls : list growth) schedule :
  lt_order cfg = [] -> 2 <= label_max cfg -> stores cfg t F ->
  NoDup (map (fun c => nid (grown_by c)) calls) -> (forall c, In c calls -> ~ In (nid (grown_by c)) (ids F)) ->
  let W := play l_pk lt_same (all_begin t (map (begun cfg) calls)) schedule in
  (exists F', stores cfg (w_rows W) F' /\ same_kids (fold_left grow (succeeded calls (w_log W)) F) F') /\
  serial cfg calls t (w_log W) (w_rows W) /\ NoDup (map fst (w_log W)) /\
  (finished W = true -> Permutation (map fst (w_log W)) (seq 0 (length calls))) /\
  exists schedule', finished (play l_pk lt_same W schedule') = true.
Proof.
  intros U L St ND Fr W.
  assert (Fr' : forall c, In c calls -> fresh t c).
  { intros c Hc. unfold fresh. rewrite <- (ids_iff cfg t F _ St). auto. }
  destruct (roots_concurrent cfg U L calls t F (PropsConcRoots.calls_apart calls ND) St Fr' schedule) as (H1 & H2 & [_ H3] & H4 & H5).
  auto.
Qed.

(** When there is one add_root among them, the outcome, exceptions included, is the one of the
    calls one after the other in the order they ended. *)
Theorem C81_lt_one_root_partial cfg t F (calls : list growth) schedule :
  lt_order cfg = [] -> 2 <= label_max cfg -> stores cfg t F ->
  NoDup (map (fun c => nid (grown_by c)) calls) -> (forall c, In c calls -> ~ In (nid (grown_by c)) (ids F)) ->
  (forall i j c d, nth_error calls i = Some c -> nth_error calls j = Some d -> is_root_call c -> is_root_call d -> i = j) ->
  let W := play l_pk lt_same (all_begin t (map (begun cfg) calls)) schedule in
  one_by_one (grow_exec cfg) calls t (map fst (w_log W)) = (w_rows W, w_log W).
Proof.
  intros U L St ND Fr O W. destruct (C81_lt_partial cfg t F calls schedule U L St ND Fr) as (_ & H1 & H2 & _).
  fold W in H1, H2. apply (serial_one_root cfg calls t _ _ H1 H2 O).
Qed.

(** An add_root that failed can be called again: alone it succeeds and adds the root, unless
    no label is left or the next one is too long. *)
Theorem C81_lt_again_partial cfg t F (calls : list growth) schedule i x e :
  lt_order cfg = [] -> 2 <= label_max cfg -> stores cfg t F ->
  NoDup (map (fun c => nid (grown_by c)) calls) -> (forall c, In c calls -> ~ In (nid (grown_by c)) (ids F)) ->
  let W := play l_pk lt_same (all_begin t (map (begun cfg) calls)) schedule in
  nth_error calls i = Some (Root x) -> In (i, Some e) (w_log W) ->
  (exists t' F', grow_exec cfg (w_rows W) (Root x) = Ok t' /\ stores cfg t' F' /\
     same_kids (sp_add_root None x (fold_left grow (succeeded calls (w_log W)) F)) F') \/
  (grow_exec cfg (w_rows W) (Root x) = Err DataError /\
     exists r l, In r (w_rows W) /\ In l (l_path r) /\ label_max cfg <= length l) \/
  (grow_exec cfg (w_rows W) (Root x) = Err ValueError /\
     exists q, forall l, letters l -> exists r, In r (w_rows W) /\ l_path r = q ++ [l]).
Proof.
  intros U L St ND Fr W Ei Hi. destruct (C81_lt_partial cfg t F calls schedule U L St ND Fr) as (_ & H1 & H2 & _).
  fold W in H1, H2.
  assert (Fr' : forall c, In c calls -> fresh t c).
  { intros c Hc. unfold fresh. rewrite <- (ids_iff cfg t F _ St). auto. }
  destruct (serial_facts cfg U L calls t F (PropsConcRoots.calls_apart calls ND) St Fr' _ _ H1 H2) as [Ho K].
  assert (Rx : fresh (w_rows W) (Root x)).
  { apply (K i); auto. intros Q. clear - H2 Q Hi. induction (w_log W) as [|a l IH]; [destruct Q|].
    cbn in H2. apply NoDup_cons_iff in H2. destruct H2 as [N1 N2].
    destruct Q as [->|Q]; destruct Hi as [Hi|Hi]; try congruence.
    - apply N1. cbn. apply in_map_iff. exists (i, Some e). auto.
    - apply N1. subst a. cbn. apply in_map_iff. exists (i, None). auto.
    - auto. }
  destruct (grow_exec cfg (w_rows W) (Root x)) as [t'|f] eqn:E.
  - left. destruct (grow_stores cfg U L _ _ _ _ Ho Rx E) as (_ & F' & S1 & S2). exists t', F'. auto.
  - right. destruct Ho as (_ & G & SG & _). unfold grow_exec in E.
    assert (Fc : fresh_call G (call_of (Root x))).
    { intros n [<-|[]]. rewrite (ids_iff cfg (w_rows W) G _ SG). exact Rx. }
    destruct (C30_call_partial cfg (mkLTDB (w_rows W) []) G (call_of (Root x)) L SG Fc)
      as [(db' & F' & S' & E2 & _)|[(f' & E2 & E3)|[[E2 H]|[E2 H]]]]; rewrite E2 in E; cbn [bind] in E; try discriminate;
      injection E as <-; auto.
Qed.

(** Two add_root and two add_child calls: the second add_root fails, and succeeds when called
    again. *)
Example C81_lt_example :
  let calls := [Root (nd 21 0); Root (nd 22 0); Child 1 (nd 23 0); Child 1 (nd 24 0)] in
  let W := play l_pk lt_same (all_begin (lt_rows ex_db) (map (begun c0) calls))
             [0; 1; 2; 0; 3; 1; 2; 0; 0; 1; 2; 2; 2; 2; 3; 3; 3; 3; 3; 3] in
  stores c0 (lt_rows ex_db) ex_F /\ lt_order c0 = [] /\ 2 <= label_max c0 /\
  NoDup (map (fun c => nid (grown_by c)) calls) /\
  (forall c, In c calls -> ~ In (nid (grown_by c)) (ids ex_F)) /\ finished W = true /\
  w_log W = [(0, None); (1, Some IntegrityError); (2, None); (3, None)] /\
  (exists t', grow_exec c0 (w_rows W) (Root (nd 22 0)) = Ok t' /\ length t' = length (lt_rows ex_db) + 4).
Proof.
  cbv zeta. split; [apply ex_stores|]. split; auto. split; [cbn; lia|]. split; [repeat constructor; cbn; intuition lia|].
  split; [intros c [<-|[<-|[<-|[<-|[]]]]]; vm_compute; intuition lia|].
  split; [vm_compute; reflexivity|]. split; [vm_compute; reflexivity|].
  eexists. split; vm_compute; reflexivity.
Qed.

(** One add_root between two add_child calls, one on a node that is not there. *)
Example C81_lt_one_root_example :
  let calls := [Child 1 (nd 23 0); Root (nd 21 0); Child 99 (nd 24 0)] in
  let W := play l_pk lt_same (all_begin (lt_rows ex_db) (map (begun c0) calls)) [0; 1; 0; 2; 0; 1; 0; 1; 0; 1; 0; 0] in
  NoDup (map (fun c => nid (grown_by c)) calls) /\ (forall c, In c calls -> ~ In (nid (grown_by c)) (ids ex_F)) /\
  (forall i j c d, nth_error calls i = Some c -> nth_error calls j = Some d -> is_root_call c -> is_root_call d -> i = j) /\
  finished W = true /\ length (w_log W) = 3 /\ In (2, Some DoesNotExist) (w_log W) /\
  In (1, None) (w_log W) /\ In (0, None) (w_log W).
Proof.
  cbv zeta. split; [repeat constructor; cbn; intuition lia|].
  split; [intros c [<-|[<-|[<-|[]]]]; vm_compute; intuition lia|]. split.
  - intros [|[|[|i]]] [|[|[|j]]] c d E1 E2; cbn in E1, E2; try (destruct i; discriminate); try (destruct j; discriminate);
      injection E1 as <-; injection E2 as <-; cbn; tauto.
  - split; [vm_compute; reflexivity|]. split; [vm_compute; reflexivity|]. vm_compute. tauto.
Qed.

Print Assumptions C81_lt_partial.
Print Assumptions C81_lt_one_root_partial.
Print Assumptions C81_lt_again_partial.
