(** Theorems about adjacency list trees, al_tree.py (C25-C28 and the adjacency list parts of
    C24, C37, C38, C44). *)
From Coq Require Import String List Arith Lia Bool ZArith Sorted Permutation.
From Verif Require Import Prelude Forest SpecFacts SpecSane CommonModel Order History SpecRun
  SpecKids ALModel ALInv ALReads ALUpd ALOk ALHist ALAnswers Fixture.
Import ListNotations.
Local Open Scope string_scope.
Local Open Scope list_scope.
Local Open Scope nat_scope.

Lemma stores_wf o t F : stores o t F -> wf_ids F.
Proof. intros (W & _). exact W. Qed.
Lemma stores_ids o t F r : stores o t F -> In r t -> In (a_pk r) (ids F).
Proof. intros (W & _ & so & Fit & _) Hr. apply (fits_pk so t F W Fit r Hr). Qed.

(** ** The example tables *)
Definition ex_t : al_table := Eval vm_compute in fst (run (al_exec []) [] ex_calls).
Definition so_t : al_table := Eval vm_compute in fst (run (al_exec so) [] so_calls).
Definition row (t : al_table) (i : nat) : alrow :=
  match get_by_pk t i with Ok r => r | Err _ => mkAL 0 None 0 [] end.

Lemma ex_stores : stores [] ex_t ex_F.
Proof.
  assert (H := al_history [] ex_calls ex_new (fun n => match n eq_refl with end)).
  assert (E : fst (run (al_exec []) [] ex_calls) = ex_t) by (vm_compute; reflexivity).
  destruct (run (al_exec []) [] ex_calls) as [d c]. cbn in E. subst d. rewrite ex_calls_F in H. apply H.
Qed.
Lemma so_stores : stores so so_t so_F.
Proof.
  assert (H := al_history so so_calls so_new (fun _ => so_values)).
  assert (E : fst (run (al_exec so) [] so_calls) = so_t) by (vm_compute; reflexivity).
  destruct (run (al_exec so) [] so_calls) as [d c]. cbn in E. subst d. rewrite so_calls_F in H. apply H.
Qed.

(** ** C25: histories and adding *)

(** Every history, sorted or not, with failing calls: the same calls succeed as on the
    forest, and the table holds the forest. *)
Theorem C25_histories (o : ordering) (cs : list call) :
  NoDup (flat_map new_ids cs) -> (o <> [] -> Forall (call_values o) cs) ->
  let (t, done) := run (al_exec o) [] cs in
  let (F, done') := run (sp_exec o) Nil cs in
  done = done' /\ stores o t F.
Proof. apply al_history. Qed.

Theorem C25_call (o : ordering) t F c : stores o t F -> fresh_call F c -> (o <> [] -> call_values o c) ->
  match al_exec o t c, sp_exec o F c with
  | Ok t', Ok G => stores o t' G
  | Err e, Err e' => e = e'
  | _, _ => False
  end.
Proof. intros S Fr V. assert (H := al_call_ok o t F c S Fr V). exact H. Qed.

(** What is stored: one row per node, carrying its id, data and parent; without
    node_order_by the sib_order of the siblings increases strictly. *)
Theorem C25_integrity (o : ordering) t F : stores o t F ->
  Permutation (map a_pk t) (ids F) /\ NoDup (map a_pk t) /\
  (forall r, In r t -> parent_of (a_pk r) F = Some (a_parent r) /\ In (row_node r) (preorder F)) /\
  (o = [] -> forall p L, kid_list p F = Some L -> exists R, map row_node R = L /\
     (forall r, In r R <-> In r t /\ a_parent r = p) /\ StronglySorted (fun a b => (a_sib a < a_sib b)%Z) R).
Proof.
  intros S. destruct S as (W & O & so & Fit & I).
  assert (P : Permutation (map a_pk t) (ids F)).
  { apply (perm_pks so t F W Fit). }
  split; auto. split; [apply (nodup_pks so t F W Fit)|]. split.
  - intros r Hr. destruct (fits_pk so t F W Fit r Hr) as (_ & Hp & Hk & _). split; auto. eapply kl_pre; eauto.
  - intros -> p L E. exists (map (arow so p) L). split; [apply map_row_node|].
    assert (EL := kl_kid_list _ _ _ E). split.
    + intros r. assert (X := Fit p). rewrite EL in X. split.
      * intros Hr. apply (Permutation_in _ (Permutation_sym X)) in Hr. apply filter_In in Hr.
        destruct Hr as (Hr & Hp). apply par_eqb_spec in Hp. auto.
      * intros (Hr & Hp). apply (Permutation_in _ X). apply filter_In. split; auto. apply par_eqb_spec. auto.
    + assert (X := proj1 (I eq_refl p)). rewrite EL in X. clear - X. induction X as [|a L S IH H]; cbn; constructor; auto.
      rewrite Forall_map. revert H. apply Forall_impl. intros b. cbn. auto.
Qed.

Section ALProps.
Variable o : ordering.
Definition gt_new (x n : node) : bool := sorted_after o (ndata x) (ndata n).

Lemma gt_opt_shape x L1 L2 :
  match gt_opt o (ndata x) with None => L2 = [] | Some g => ins_split (PSorted g) L1 L2 end ->
  if is_sorted o then ins_split (PSorted (gt_new x)) L1 L2 else L2 = [].
Proof. unfold gt_opt. change (is_sorted o) with (sorts o). destruct (sorts o); auto. Qed.

Theorem C25_add_root t F x : stores o t F -> ~ In (nid x) (ids F) -> (o <> [] -> has_values o (ndata x)) ->
  exists t' obj G L1 L2, add_root o t x = Ok (t', obj) /\ In (o_row obj) t' /\ row_node (o_row obj) = x /\
    stores o t' G /\ added F G None x L1 L2 /\
    (if is_sorted o then ins_split (PSorted (gt_new x)) L1 L2 else L2 = []).
Proof.
  intros S Hx V. destruct (add_root_ok o t F x S Hx V) as (t' & r & E & S' & Hr & Er & _).
  destruct (add_root_sane (gt_opt o (ndata x)) x F (stores_wf _ _ _ S) Hx) as (L1 & L2 & A & M).
  exists t', r, (sp_add_root (gt_opt o (ndata x)) x F), L1, L2. repeat (split; auto). apply gt_opt_shape. auto.
Qed.

Theorem C25_add_child t F target x : stores o t F -> In (a_pk (o_row target)) (ids F) -> ~ In (nid x) (ids F) ->
  (o <> [] -> has_values o (ndata x)) ->
  exists t' obj G L1 L2, add_child o t target x = Ok (t', obj) /\ In (o_row obj) t' /\ row_node (o_row obj) = x /\
    stores o t' G /\ added F G (Some (a_pk (o_row target))) x L1 L2 /\
    (if is_sorted o then ins_split (PSorted (gt_new x)) L1 L2 else L2 = []).
Proof.
  intros S Ht Hx V. destruct (add_child_ok o t F target x S Ht Hx V) as (t' & r & E & S' & Hr & Er & _).
  destruct (add_child_sane (gt_opt o (ndata x)) (a_pk (o_row target)) x F (stores_wf _ _ _ S) Ht Hx) as (L1 & L2 & A & M).
  exists t', r, (sp_add_child (gt_opt o (ndata x)) (a_pk (o_row target)) x F), L1, L2. repeat (split; auto).
  apply gt_opt_shape. auto.
Qed.

Theorem C25_add_sibling t F target p P x : stores o t F -> In target t -> ~ In (nid x) (ids F) ->
  (o <> [] -> has_values o (ndata x)) -> prepare_pos_add (is_sorted o) p = Ok P ->
  exists t' obj G up L1 L2, add_sibling o t target p x = Ok (t', obj) /\ In (o_row obj) t' /\ row_node (o_row obj) = x /\
    stores o t' G /\ parent_of (a_pk target) F = Some up /\ added F G up x L1 L2 /\
    ins_split (sib_place P (a_pk target) (gt_new x)) L1 L2.
Proof.
  intros S Ht Hx V EP. destruct (add_sibling_ok o t F target p P x S Ht Hx V EP) as (t' & r & E & S' & Hr & Er & _).
  destruct (add_sibling_sane (a_pk target) P (gt_new x) x F (stores_wf _ _ _ S) (stores_ids _ _ _ _ S Ht) Hx
    (prepare_add_sib _ _ _ EP)) as (up & L1 & L2 & Ep & A & Sp).
  exists t', r, (sp_add_sibling (a_pk target) P (gt_new x) x F), up, L1, L2. auto 10.
Qed.

(** ** C26, C38, C24: moving *)

(** The node object may carry any (even outdated) positive cached depth. *)
Theorem C26_move t F n target p P : stores o t F -> In (o_row n) t -> cache_pos n -> In target t ->
  prepare_pos_move (is_sorted o) p = Ok P ->
  let i := a_pk (o_row n) in
  let gt := fun x : node => sorted_after o (a_data (o_row n)) (ndata x) in
  ~ inside F i (a_pk target) P ->
  exists t' n' G, move o t n target p = Ok (t', n') /\ stores o t' G /\
    (i = a_pk target /\ (P = Left \/ P = Right) /\ G = F \/
     exists up a L1 L2,
       (if is_child_pos P then up = Some (a_pk target) else parent_of (a_pk target) F = Some up) /\
       nid a = i /\ SpecSane.moved F G up a L1 L2 /\ ins_split (sib_place P (a_pk target) gt) L1 L2).
Proof.
  intros S Hn Hc Ht EP i gt NI.
  destruct (move_ok o t F n target p P S Hn Hc Ht EP) as [[H _]|[_ (t' & n' & E & S' & _)]]; [tauto|].
  exists t', n', (sp_move i (a_pk target) P gt F). split; auto. split; auto.
  destruct (move_sane i (a_pk target) P gt F (stores_wf _ _ _ S) (stores_ids _ _ _ _ S Hn) (stores_ids _ _ _ _ S Ht) NI); auto.
Qed.

Theorem C38_al_no_move_inside t F n target p P : stores o t F -> In (o_row n) t -> cache_pos n -> In target t ->
  prepare_pos_move (is_sorted o) p = Ok P ->
  move o t n target p = Err InvalidMoveToDescendant <->
  descends F (a_pk (o_row n)) (a_pk target) \/ (a_pk (o_row n) = a_pk target /\ is_child_pos P = true).
Proof.
  intros S Hn Hc Ht EP. assert (H := move_ok o t F n target p P S Hn Hc Ht EP). unfold inside in H.
  destruct H as [[H1 H2]|[H1 (a & b & E & _)]]; [tauto|]. rewrite E. split; [discriminate|tauto].
Qed.

(** After a move the fields of the caller's node object are those stored (the target's
    sib_order may be outdated, C24_al_target_refuted; the cached depth too, C28). *)
Theorem C24_al_move_partial t F n target p t' n' : stores o t F -> In (o_row n) t -> cache_pos n -> In target t ->
  move o t n target p = Ok (t', n') -> In (o_row n') t' /\ a_pk (o_row n') = a_pk (o_row n).
Proof.
  intros S Hn Hc Ht E. destruct (prepare_pos_move (is_sorted o) p) as [P|e] eqn:EP.
  - destruct (move_ok o t F n target p P S Hn Hc Ht EP) as [[_ H]|[_ (t1 & n1 & E1 & _ & H & M)]]; [congruence|].
    rewrite E in E1. injection E1 as <- <-. split; auto. apply M.
  - unfold move in E. rewrite EP in E. discriminate.
Qed.

(** add_child leaves the parent's row, hence the parent object, as it was. *)
Theorem C24_al_add_child t F target x t' obj : stores o t F -> In (o_row target) t -> ~ In (nid x) (ids F) ->
  add_child o t target x = Ok (t', obj) -> In (o_row target) t' /\ In (o_row obj) t'.
Proof.
  intros S Ht Hx E. unfold add_child in E. injection E as <- <-. destruct S as (W & _ & so & Fit & _).
  assert (N : existsb (fun r => a_pk r =? nid x) t = false).
  { apply not_true_iff_false. intros Hb. apply existsb_exists in Hb. destruct Hb as (r & Hr & Er). apply Nat.eqb_eq in Er.
    apply Hx. rewrite <- Er. apply (fits_pk so t F W Fit r Hr). }
  unfold save_row. cbn [a_pk o_row]. rewrite N. cbn. auto.
Qed.

(** ** C28: get_depth *)

(** With update=True it is the level, whatever was cached. *)
Theorem C28_update t F n : stores o t F -> In (o_row n) t -> exists A c,
  ancestors_of (a_pk (o_row n)) F = Some A /\ get_depth t n true = Ok (Z.of_nat (S (length A)), c).
Proof.
  intros (W & _ & so & Fit & _) Hn. destruct (read_depth so t F W Fit _ Hn) as (A & EA & Ed). exists A.
  unfold get_depth. destruct (a_parent (o_row n)) as [q|] eqn:Ep.
  - rewrite Ed. cbn [bind]. eauto.
  - destruct (fits_pk so t F W Fit _ Hn) as (Hi & P & _). rewrite Ep in P.
    destruct (anc_parent _ F W Hi) as (A0 & E0 & [(_ & ->)|(q & A' & P' & _)]); [|congruence].
    rewrite EA in E0. injection E0 as ->. cbn. eauto.
Qed.

(** Without it, after moving an object that had no cached depth: the level in the tree
    BEFORE the move if the node was not a root and does not become one. *)
Theorem C28_after_move_partial t F n target p t' n' : stores o t F -> In (o_row n) t -> o_depth n = None -> In target t ->
  move o t n target p = Ok (t', n') -> forall G, stores o t' G ->
  exists A B z c, ancestors_of (a_pk (o_row n)) F = Some A /\ ancestors_of (a_pk (o_row n)) G = Some B /\
    get_depth t' n' false = Ok (z, c) /\
    z = Z.of_nat (S (length (match A, B with [], _ => B | _, [] => [] | _, _ => A end))).
Proof.
  intros S Hn Hc Ht E G SG.
  assert (Hcp : cache_pos n) by (unfold cache_pos; rewrite Hc; auto).
  destruct (C28_update t F n S Hn) as (A & c0 & EA & ED). exists A.
  destruct (prepare_pos_move (is_sorted o) p) as [P|e] eqn:EP; [|unfold move in E; rewrite EP in E; discriminate].
  destruct (move_ok o t F n target p P S Hn Hcp Ht EP) as [[_ H]|[_ (t1 & n1 & E1 & _ & H & M1 & _ & d & c & Ec & Eo)]]; [congruence|].
  rewrite E in E1. injection E1 as <- <-.
  destruct (C28_update t' G n' SG H) as (B & c1 & EB & ED'). rewrite M1 in EB. exists B.
  destruct S as (W & _ & so & Fit & _). destruct SG as (W' & _ & so' & Fit' & _).
  destruct (fits_pk so t F W Fit _ Hn) as (Hi & Hp & _). destruct (fits_pk so' t' G W' Fit' _ H) as (Hi' & Hp' & _).
  rewrite M1 in Hi', Hp'.
  assert (NA : match a_parent (o_row n) with None => A = [] | Some _ => A <> [] end).
  { destruct (anc_parent _ F W Hi) as (A0 & E0 & [(Q & ->)|(b & A' & Q & _ & _ & ->)]); rewrite Hp in Q; injection Q as ->;
      rewrite EA in E0; injection E0 as ->; auto. destruct A'; discriminate. }
  assert (NB : match a_parent (o_row n') with None => B = [] | Some _ => B <> [] end).
  { destruct (anc_parent _ G W' Hi') as (A0 & E0 & [(Q & ->)|(b & A' & Q & _ & _ & ->)]); rewrite Hp' in Q; injection Q as ->;
      rewrite EB in E0; injection E0 as ->; auto. destruct A'; discriminate. }
  unfold get_depth in ED, ED', Ec |- *. rewrite Hc in Ec.
  destruct (a_parent (o_row n)).
  - assert (Eo' : o_depth n' = Some (Z.of_nat (Datatypes.S (length A)))).
    { destruct (count_depth t (o_row n)) as [v|]; [|discriminate]. cbn [bind] in ED, Ec.
      injection ED as -> _. injection Ec as _ <-. exact Eo. }
    destruct (a_parent (o_row n')) as [q'|].
    + rewrite Eo'. eexists. eexists. split; auto. split; auto. split; [reflexivity|].
      destruct A; [congruence|]. destruct B; [congruence|]. auto.
    + eexists. eexists. split; auto. split; auto. split; [reflexivity|]. subst B. destruct A; auto.
  - injection Ec as _ <-. rewrite Hc in Eo. rewrite Eo. subst A.
    exists (Z.of_nat (Datatypes.S (length B))), c1. auto.
Qed.

(** New nodes report the right level if the parent object's cache, if any, is right. *)
Theorem C28_add_child t F target x t' obj : stores o t F -> In (o_row target) t -> ~ In (nid x) (ids F) ->
  (o <> [] -> has_values o (ndata x)) -> good_depth F target -> add_child o t target x = Ok (t', obj) ->
  forall G, stores o t' G -> exists B c, ancestors_of (nid x) G = Some B /\
    get_depth t' obj false = Ok (Z.of_nat (S (length B)), c).
Proof.
  intros S Ht Hx V Hg E G SG.
  destruct (C24_al_add_child t F target x t' obj S Ht Hx E) as (Ht' & Ho).
  assert (Er : row_node (o_row obj) = x /\ a_parent (o_row obj) = Some (a_pk (o_row target)) /\
    o_depth obj = option_map (fun d => d + 1)%Z (o_depth target)).
  { unfold add_child in E. injection E as <- <-. destruct x. auto. }
  destruct Er as (Er & Ep & Eo). assert (Ei : a_pk (o_row obj) = nid x) by (rewrite <- Er; auto).
  destruct (C28_update t' G obj SG Ho) as (B & c & EB & ED). rewrite Ei in EB. exists B.
  unfold get_depth in *. rewrite Ep in *. destruct (o_depth target) as [d|] eqn:Ed; cbn [option_map] in Eo; rewrite Eo.
  - eexists. split; auto. f_equal. f_equal.
    destruct S as (W & _ & so & Fit & _). destruct SG as (W' & _ & so' & Fit' & _).
    destruct (fits_pk so t F W Fit _ Ht) as (Hti & Htp & _).
    destruct (fits_pk so' t' G W' Fit' _ Ho) as (Hi' & Hp' & _). rewrite Ei in Hi', Hp'.
    destruct (anc_parent _ G W' Hi') as (B0 & E0 & [(Q & _)|(b & B' & Q & _ & EB' & ->)]); [congruence|].
    rewrite EB in E0. injection E0 as ->. rewrite Hp', Ep in Q. injection Q as Q. rewrite <- Q in EB'.
    destruct (read_depth so t F W Fit _ Ht) as (A & EA & EcA). assert (Dt := Hg d A Ed EA).
    destruct (read_depth so' t' G W' Fit' _ Ht') as (A' & EA' & EcA'). rewrite EB' in EA'. injection EA' as <-.
    (* the old rows are still there: the chain of the target is the same *)
    assert (Same : count_depth t' (o_row target) = count_depth t (o_row target)).
    { destruct (read_ancestors so t F W Fit _ Ht) as (L & _ & EL & _).
      destruct (read_ancestors so' t' G W' Fit' _ Ht') as (L' & _ & EL' & _).
      assert (L' = L) as ->; [|unfold count_depth; rewrite EL, EL'; auto].
      assert (Sub : forall r, In r t -> In r t').
      { assert (N : existsb (fun r => a_pk r =? nid x) t = false).
        { apply not_true_iff_false. intros Hb. apply existsb_exists in Hb. destruct Hb as (r & Hr & Er').
          apply Nat.eqb_eq in Er'. apply Hx. rewrite <- Er'. apply (fits_pk so t F W Fit r Hr). }
        unfold add_child in E. injection E as <- _. unfold save_row. cbn [a_pk]. rewrite N. cbn. auto. }
      assert (Get : forall q r, get_by_pk t q = Ok r -> get_by_pk t' q = Ok r).
      { intros q r Eq. destruct (get_cases so t F W Fit q) as [(E1 & _)|(r1 & E1 & H1 & P1 & _)]; [congruence|].
        rewrite Eq in E1. injection E1 as <-. rewrite <- P1. apply (get_in so' t' G W' Fit'). auto. }
      unfold get_ancestors in EL, EL'. revert EL EL'. generalize (o_row target). intros r0 EL EL'.
      assert (Up : forall k r L, up_chain k t r = Ok L -> forall k' L', up_chain k' t' r = Ok L' -> L' = L).
      { clear - Get. induction k as [|k IH]; intros r L H; [discriminate|]. intros [|k'] L' H'; [discriminate|]. cbn [up_chain] in *.
        destruct (a_parent r) as [q|]; [|congruence].
        destruct (get_by_pk t q) as [y|] eqn:Ey; [|discriminate]. rewrite (Get _ _ Ey) in H'. cbn [bind] in *.
        destruct (up_chain k t y) as [M|] eqn:EM; [|discriminate]. destruct (up_chain k' t' y) as [M'|] eqn:EM'; [|discriminate].
        cbn [bind] in *. assert (M' = M) by eauto. congruence. }
      eapply Up; eauto. }
    rewrite EcA, EcA' in Same. injection Same as Same. rewrite app_length. cbn. lia.
  - eauto.
Qed.
End ALProps.

(** ** C25: deleting *)
Theorem C25_delete o t F (sel : alrow -> bool) : stores o t F ->
  let S i := existsb (fun r => (a_pk r =? i) && sel r) t in
  exists G, stores o (delete_queryset t sel) G /\
    kid_list None G = option_map (filter (fun x => negb (S (nid x)))) (kid_list None F) /\
    (forall q A, ancestors_of q F = Some A -> kid_list (Some q) G =
       if S q || existsb (fun a => S (nid a)) A then None
       else option_map (filter (fun x => negb (S (nid x)))) (kid_list (Some q) F)).
Proof.
  intros St S. exists (remove_all S F). split.
  - assert (E : delete_queryset t sel = delete_queryset t (fun r => S (a_pk r))).
    { unfold delete_queryset. assert (Ef : filter sel t = filter (fun r => S (a_pk r)) t); [|rewrite Ef; auto].
      apply filter_ext_in. intros r Hr. unfold S. apply eq_true_iff_eq. rewrite existsb_exists. split.
      - intros H. exists r. rewrite Nat.eqb_refl. auto.
      - intros (y & Hy & Ey). apply andb_true_iff in Ey. destruct Ey as (Ey & Hs). apply Nat.eqb_eq in Ey.
        destruct St as (W & _ & so & Fit & _). rewrite (pk_same so t F W Fit r y); auto. }
    rewrite E. apply delete_ok. auto.
  - split; [apply SpecSane.remove_all_roots|]. intros q A E. apply remove_all_sane; auto. apply (stores_wf _ _ _ St).
Qed.

(** ** C27, C37, C44: reading *)

(** Without node_order_by, or if no two siblings compare equal, every query answers about
    the stored forest ([answers] in ALAnswers.v lists them). *)
Theorem C27_reads o t F : stores o t F -> o = [] \/ strict o F -> answers o t F.
Proof.
  intros (W & O & so & Fit & I) H. destruct o as [|c o].
  - apply (lists_answers [] so); auto. apply unsorted_lists; auto.
  - destruct H as [H|H]; [discriminate|]. destruct (O ltac:(discriminate)) as (_ & V).
    apply (lists_answers _ so); auto. apply sorted_lists; auto. discriminate.
Qed.

(** With ties the database may list equal siblings in another order than they were
    inserted, but all queries agree on one forest that is stored in the table. *)
Theorem C27_ties o t F : stores o t F -> exists F', stores o t F' /\ answers o t F' /\
  forall p, match kid_list p F, kid_list p F' with
            | Some L, Some L' => Permutation L L'
            | None, None => True
            | _, _ => False
            end.
Proof.
  intros (W & O & so & Fit & I). destruct o as [|c o].
  { exists F. split; [split; auto; split; auto; exists so; auto|]. split.
    - apply (lists_answers [] so); auto. apply unsorted_lists; auto.
    - intros p. destruct (kid_list p F); auto. }
  destruct (relist (c :: o) so t F W Fit) as (F' & W' & Fit' & Ls & P & PK). exists F'. split; [|split].
  - split; auto. split; [|exists so; split; auto; discriminate]. apply (relist_ordered (c :: o) so t F F'); auto.
  - eapply lists_answers; eauto.
  - intros p. assert (X := PK p). unfold kl in X. destruct p as [q|]; [|exact X].
    unfold kid_list in *. cbn [kids_of] in *.
    destruct (children_of q F) as [l|] eqn:E1, (children_of q F') as [l'|] eqn:E2; auto.
    + apply children_in in E1. apply (Permutation_in _ P) in E1. destruct (children_some _ _ E1). congruence.
    + apply children_in in E2. apply (Permutation_in _ (Permutation_sym P)) in E2. destruct (children_some _ _ E2). congruence.
    + cbn. exact Logic.I.
Qed.

Theorem C27_ancestors o t F r : stores o t F -> In r t -> exists L A, get_ancestors t r = Ok L /\
  ancestors_of (a_pk r) F = Some A /\ map row_node L = A /\ (forall x, In x L -> In x t) /\
  (exists x, get_root t r = Ok x /\ In x t /\ row_node x = hd (row_node r) A) /\
  (is_root r = true <-> A = []) /\
  (exists c, get_depth t (fresh r) false = Ok (Z.of_nat (S (length A)), c)).
Proof.
  intros S Hr. assert (S' := S). destruct S' as (W & _ & so & Fit & _).
  destruct (read_ancestors so t F W Fit r Hr) as (L & A & E & EA & EL & Hin). exists L, A.
  destruct (fits_pk so t F W Fit r Hr) as (Hi & Hp & _). do 4 (split; auto). split; [|split].
  - exists (hd r L). unfold get_root. rewrite E. cbn [bind]. subst A. destruct L as [|q L]; [cbn; auto|]. split; auto. split; auto. apply Hin. cbn; auto.
  - unfold is_root. rewrite par_eqb_spec.
    destruct (anc_parent _ F W Hi) as (A0 & E0 & [(Q & ->)|(b & A' & Q & _ & _ & ->)]); rewrite Hp in Q; injection Q as ->;
      rewrite EA in E0; injection E0 as ->; [tauto|]. split; [discriminate|]. intros H. destruct A'; discriminate.
  - destruct (get_depth_ok so t F W Fit (fresh r) false Hr Logic.I) as (d & c & Ed & _ & (A0 & E0 & ->)); auto.
    cbn [fresh o_row] in E0. rewrite EA in E0. injection E0 as <-. eauto.
Qed.

Theorem C27_parent o t F r : stores o t F -> In r t -> exists q, get_parent t r = Ok q /\
  parent_of (a_pk r) F = Some (option_map a_pk q) /\ (forall x, q = Some x -> In x t).
Proof.
  intros (W & _ & so & Fit & _) Hr. destruct (fits_pk so t F W Fit r Hr) as (Hi & Hp & _). unfold get_parent.
  destruct (a_parent r) as [q|].
  - destruct (anc_parent _ F W Hi) as (A0 & _ & [(Q & _)|(b & A' & Q & Hb & _)]); rewrite Hp in Q; [discriminate|].
    injection Q as ->. destruct (fits_ex so t F W Fit (nid b)) as (x & Hx & Ex); [apply in_map; auto|].
    exists (Some x). rewrite <- Ex in *. rewrite (get_in so t F W Fit x Hx). cbn [bind option_map]. split; auto. split; auto.
    intros y H. injection H as <-. auto.
  - exists None. split; auto. split; auto. discriminate.
Qed.

Theorem C27_predicates o t F r n : stores o t F -> In r t -> In (o_row n) t -> cache_pos n ->
  (is_child_of r (o_row n) = true <-> parent_of (a_pk r) F = Some (Some (a_pk (o_row n)))) /\
  (is_sibling_of r (o_row n) = true <-> parent_of (a_pk r) F = parent_of (a_pk (o_row n)) F) /\
  (exists b, is_descendant_of o t r n = Ok b /\ (b = true <-> descends F (a_pk (o_row n)) (a_pk r))).
Proof.
  intros (W & _ & so & Fit & _) Hr Hn Hc.
  destruct (fits_pk so t F W Fit r Hr) as (_ & Hp & _). destruct (fits_pk so t F W Fit _ Hn) as (_ & Hq & _).
  rewrite Hp, Hq. unfold is_child_of, is_sibling_of. rewrite !par_eqb_spec.
  split; [split; congruence|]. split; [split; congruence|]. apply (is_descendant_ok o so); auto.
Qed.

Theorem C27_neighbours_partial t F r : stores [] t F -> In r t ->
  exists next prev, get_next_sibling [] t r = Ok next /\ option_map row_node next = next_of (a_pk r) (siblings_of (a_pk r) F) /\
    get_prev_sibling [] t r = Ok prev /\ option_map row_node prev = prev_of (a_pk r) (siblings_of (a_pk r) F).
Proof. intros (W & _ & so & Fit & I). apply neighbours with so; auto. Qed.

(** The tables with max_depth: [levels] is the identity except at 0. *)
Theorem C37_al_partial t F d : stores [] t F -> d <> 0 -> exists L,
  get_tree [] t None (Some (Z.of_nat d)) = Ok L /\ map obj_node L = preorder (prune d F).
Proof.
  intros S Hd. destruct (an_tree _ _ _ (C27_reads [] t F S (or_introl eq_refl)) (Some d)) as (L & E & EL & _).
  exists L. split; auto. assert (X : map snd (map with_level L) = map snd (map at_level (preorder_d 1 (prune_opt (levels (Some d)) F)))) by congruence.
  rewrite !map_map in X. cbn [with_level at_level snd] in X. change (map (fun x => obj_node x) L) with (map obj_node L) in X.
  rewrite X. destruct d; [congruence|]. cbn [levels prune_opt].
  assert (PD : forall k G, map (fun x : nat * node => snd x) (preorder_d k G) = preorder G); [|apply PD].
  { clear. intros k G. revert k. induction G as [|a c IHc r IHr]; intros k; auto. cbn. rewrite map_app, IHc, IHr. auto. }
Qed.

Theorem C44_al_group_counts o t F parent : stores o t F -> o = [] \/ strict o F -> (forall p, parent = Some p -> In p t) ->
  exists K L, kid_list (option_map a_pk parent) F = Some K /\ get_descendants_group_count o t parent = Ok L /\
    map (fun x => (row_node (fst x), snd x)) L =
    map (fun a => (a, match children_of (nid a) F with Some k => size k | None => 0 end)) K.
Proof. intros S H. apply (an_groups _ _ _ (C27_reads o t F S H)). Qed.

(** ** Examples *)
Local Ltac pick := vm_compute; repeat (first [left; reflexivity | right]).
Lemma no_b (i : nat) l : existsb (Nat.eqb i) l = false -> ~ In i l.
Proof. intros E H. assert (existsb (Nat.eqb i) l = true) by (apply existsb_exists; exists i; rewrite Nat.eqb_refl; auto). congruence. Qed.

Definition tree_pks (o : ordering) (t : al_table) : res (list nat) :=
  do l <- get_tree o t None None; Ok (map (fun x => a_pk (o_row x)) l).

Example C25_example : run (al_exec []) [] ex_calls = (ex_t, ex_calls) /\
  map (fun r => (a_pk r, (a_parent r, a_sib r))) (kids [] ex_t (Some 2)) = [(4, (Some 2, 1%Z)); (9, (Some 2, 3%Z))] /\
  length (snd (run (al_exec so) [] so_calls)) = 8 /\
  (exists t' x, add_sibling [] ex_t (row ex_t 4) (Some "right") (nd 11 1) = Ok (t', x) /\
     tree_pks [] t' = Ok [7; 1; 3; 5; 2; 4; 6; 11; 9; 10] /\ map a_sib (kids [] t' (Some 2)) = [1; 2; 4]%Z) /\
  (exists t' x, add_sibling so so_t (row so_t 3) None (nd 11 8) = Ok (t', x) /\
     tree_pks so t' = Ok [2; 6; 1; 4; 5; 11; 3]) /\
  (exists t' x, add_child [] ex_t (fresh (row ex_t 2)) (nd 11 1) = Ok (t', x) /\
     map a_pk (get_children [] t' (row t' 2)) = [4; 9; 11]) /\
  tree_pks [] (delete_queryset ex_t (fun r => existsb (Nat.eqb (a_pk r)) [4; 6; 5])) = Ok [7; 1; 3; 2; 9; 10].
Proof.
  split; [vm_compute; reflexivity|]. split; [vm_compute; reflexivity|]. split; [vm_compute; reflexivity|].
  split; [eexists; eexists; vm_compute; auto|]. split; [eexists; eexists; vm_compute; auto|].
  split; [eexists; eexists; vm_compute; auto|]. vm_compute. reflexivity.
Qed.

Example C26_example :
  ~ inside ex_F 9 4 Left /\ ~ inside ex_F 4 5 FirstSibling /\ In (row ex_t 9) ex_t /\
  (exists t' n', move [] ex_t (fresh (row ex_t 9)) (row ex_t 4) (Some "left") = Ok (t', n') /\
     tree_pks [] t' = Ok [7; 1; 3; 5; 2; 9; 10; 4; 6]) /\
  (exists t' n', move [] ex_t (fresh (row ex_t 4)) (row ex_t 5) (Some "first-sibling") = Ok (t', n') /\
     tree_pks [] t' = Ok [7; 1; 4; 6; 3; 5; 2; 9; 10]) /\
  (exists t' n', move [] ex_t (fresh (row ex_t 4)) (row ex_t 7) (Some "first-child") = Ok (t', n') /\
     tree_pks [] t' = Ok [7; 4; 6; 1; 3; 5; 2; 9; 10]) /\
  move [] ex_t (fresh (row ex_t 2)) (row ex_t 10) (Some "left") = Err InvalidMoveToDescendant /\
  move [] ex_t (fresh (row ex_t 2)) (row ex_t 2) (Some "last-child") = Err InvalidMoveToDescendant.
Proof.
  split; [apply insideb_false; reflexivity|]. split; [apply insideb_false; reflexivity|]. split; [pick|].
  split; [eexists; eexists; vm_compute; auto|]. split; [eexists; eexists; vm_compute; auto|].
  split; [eexists; eexists; vm_compute; auto|]. split; vm_compute; reflexivity.
Qed.

(** [strict] holds of the sorted example. *)
Example C27_example : strict so so_F /\
  (do l <- get_tree [] ex_t None (Some 2%Z); Ok (map (fun x => (Z.of_nat (a_pk (o_row x)), o_depth x)) l)) =
    Ok [(7, Some 1); (1, Some 1); (3, Some 2); (5, Some 2); (2, Some 1); (4, Some 2); (9, Some 2)]%Z /\
  (do l <- get_descendants [] ex_t (fresh (row ex_t 2)) false (Some 1%Z); Ok (map (fun x => a_pk (o_row x)) l)) = Ok [4; 9] /\
  (do l <- get_ancestors ex_t (row ex_t 10); Ok (map a_pk l)) = Ok [2; 9] /\
  (do l <- get_descendants_group_count [] ex_t None; Ok (map (fun x => (a_pk (fst x), snd x)) l)) = Ok [(7, 0); (1, 2); (2, 4)].
Proof.
  split.
  - intros [q|].
    + destruct (in_dec Nat.eq_dec q [2; 6; 1; 4; 5; 3]) as [H|H].
      * cbn in H. repeat destruct H as [<-|H]; try contradiction; vm_compute; repeat constructor.
      * rewrite (kl_notin q so_F); [constructor|exact H].
    + vm_compute. repeat constructor.
  - vm_compute. auto.
Qed.

Example C28_example : exists t' n', move [] ex_t (fresh (row ex_t 6)) (row ex_t 9) (Some "left") = Ok (t', n') /\
  get_depth t' n' true = Ok (2%Z, mkAObj (o_row n') (Some 2%Z)).
Proof. eexists. eexists. vm_compute. auto. Qed.

Print Assumptions C25_histories.
Print Assumptions C25_call.
Print Assumptions C25_integrity.
Print Assumptions C25_add_root.
Print Assumptions C25_add_child.
Print Assumptions C25_add_sibling.
Print Assumptions C25_delete.
Print Assumptions C26_move.
Print Assumptions C38_al_no_move_inside.
Print Assumptions C24_al_move_partial.
Print Assumptions C24_al_add_child.
Print Assumptions C28_update.
Print Assumptions C28_after_move_partial.
Print Assumptions C28_add_child.
Print Assumptions C27_reads.
Print Assumptions C27_ties.
Print Assumptions C27_ancestors.
Print Assumptions C27_parent.
Print Assumptions C27_predicates.
Print Assumptions C27_neighbours_partial.
Print Assumptions C37_al_partial.
Print Assumptions C44_al_group_counts.
