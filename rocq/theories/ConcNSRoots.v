(** Concurrent add_child calls and one add_root on nested sets without node_order_by (C81). *)
From Coq Require Import String List Arith Lia Bool ZArith Permutation.
From Verif Require Import Prelude Forest SpecFacts CommonModel Order History
  NSModel NSInv NSReads NSUpd NSAdd NSHist ConcModel ConcRun ConcNS ConcRoots.
Import ListNotations.
Local Open Scope nat_scope.

Section Roots.
(** The tree_id of each parent. *)
Variable treeof : nat -> Z.

(** The calls, /repo/treebeard/ns_tree.py:112-179 *)
Definition ns_begun (c : growth) : prog nsrow := match c with Child k x => ns_add_child k x | Root x => ns_add_root x end.
(** The same calls on their own, /repo/treebeard/ns_tree.py:112-179 *)
Definition ns_grow_exec (t : ns_table) (c : growth) : res ns_table :=
  do db <- ns_exec [] (mkNSDB t []) (match c with Child k x => CAddChild k x | Root x => CAddRoot x end); Ok (ns_rows db).

(** The parent is in the tree that treeof names, and the key of the new node is not there. *)
Definition prepared (t : ns_table) (c : growth) : Prop :=
  match c with Child k x => ready treeof t (k, x) | Root x => ~ In (nid x) (map n_pk t) end.
(** Two calls add different nodes; children of one node or in different trees; not two roots. *)
Definition apart2 (c d : growth) : Prop := nid (grown_by c) <> nid (grown_by d) /\
  match c, d with
  | Child k _, Child j _ => k = j \/ treeof k <> treeof j
  | Root _, Root _ => False
  | _, _ => True
  end.
(** Calls that do not wait for each other. *)
Definition compat2 (c d : growth) : Prop := match c, d with Child k _, Child j _ => k <> j | _, _ => True end.

(** The tree_id and the row of a new root, /repo/treebeard/ns_tree.py:112-138 *)
Definition new_tree (t : ns_table) : Z := match get_last_root_node t with Some last => n_tree last + 1 | None => 1 end.
(** The row. *)
Definition rootrow (t : ns_table) (x : node) : nsrow := mkNS (nid x) (new_tree t) 1 2 1 (ndata x).

Notation solo := (solo n_pk ns_same).
Notation reach := (reach nsrow n_pk ns_same growth ns_begun).

Lemma last_max t : ok t -> match get_last_root_node t with
  | Some l => In l t /\ forall r, In r t -> (n_tree r <= n_tree l)%Z
  | None => t = [] end.
Proof.
  intros [F (W & ts & I & P)]. assert (EL := get_root_nodes_heads _ F ts I P). assert (I' := I). destruct I' as (I1 & I2 & I3).
  assert (ET : map n_tree (get_root_nodes t) = ts) by (rewrite EL; apply heads_trees; auto).
  destruct (get_last_root_node t) as [lr|] eqn:El; unfold get_last_root_node in El.
  - apply last_opt_Some in El. destruct El as [L0 El]. split.
    + apply (heads_in _ F ts P). rewrite <- EL, El. apply in_app_iff. simpl. auto.
    + intros r Hr. apply (in_t _ F ts P) in Hr. apply layout_tree in Hr.
      rewrite <- ET, El, map_app in I2, Hr. cbn [map] in I2, Hr. apply sorted_mid in I2.
      apply in_app_iff in Hr. destruct Hr as [Hr|[<-|[]]]; [|lia]. apply I2 in Hr. lia.
  - apply last_opt_None in El. rewrite El in ET. cbn in ET. subst ts.
    assert (H := heads_roots [] F I1). rewrite <- EL, El in H. destruct F; [|discriminate]. cbn in P. apply Permutation_sym, Permutation_nil in P. auto.
Qed.

Lemma new_tree_above t r : ok t -> In r t -> n_tree r <> new_tree t.
Proof.
  intros Ht Hr. assert (H := last_max t Ht). unfold new_tree. destruct (get_last_root_node t) as [l|].
  - apply (proj2 H) in Hr. lia.
  - subst t. destruct Hr.
Qed.

Lemma root_eq t x : ok t -> ~ In (nid x) (map n_pk t) -> ns_grow_exec t (Root x) = Ok (rootrow t x :: t).
Proof.
  intros Ht Nx. unfold ns_grow_exec, ns_exec, add_root, rootrow, new_tree. cbn [ns_rows is_sorted].
  destruct (get_last_root_node t); cbn [bind fst]; rewrite save_new by auto; reflexivity.
Qed.

Lemma root_keeps t x F : stores t F -> ~ In (nid x) (map n_pk t) -> stores (rootrow t x :: t) (sp_add_root None x F).
Proof.
  intros St Nx. assert (E := root_eq t x (ex_intro _ F St) Nx). unfold ns_grow_exec in E.
  assert (Fr : fresh_call F (CAddRoot x)) by (intros i [<-|[]]; rewrite (ids_iff t F _ St); exact Nx).
  assert (A := ns_call_ok [] (mkNSDB t []) F (CAddRoot x) St Fr).
  destruct (ns_exec [] (mkNSDB t []) (CAddRoot x)) as [db|]; [|discriminate]. cbn [bind] in E. injection E as E. rewrite <- E. exact A.
Qed.

(** Calls of one kind in terms of ConcNS.v. *)
Lemma child_reach t k x y : reach t (Child k x) y <-> ConcRun.reach nsrow n_pk ns_same (nat * node) start t (k, x) y.
Proof.
  split; induction 1.
  - apply reach_first. auto.
  - eapply reach_next; eauto.
  - apply reach_first. auto.
  - eapply reach_next; eauto.
Qed.

(** The states of add_root between its statements, /repo/treebeard/ns_tree.py:112-138 *)
Inductive midroot (t : ns_table) (x : node) : tx nsrow -> Prop :=
| mr_insert : midroot t x (mkTx (Insert (rootrow t x) Commit) [] [] None)
| mr_commit : midroot t x (mkTx Commit [New (rootrow t x)] [] None).

Lemma unused t (r : nsrow) : ~ In (n_pk r) (map n_pk t) -> existsb (ns_same r) t = false.
Proof.
  intros N. apply not_true_iff_false. intros E. apply existsb_exists in E. destruct E as (a & Ha & E).
  apply Nat.eqb_eq in E. apply N. rewrite E. apply in_map. auto.
Qed.

Lemma solo_root t x : solo t (begin (ns_begun (Root x))) = Go (mkTx (Insert (rootrow t x) Commit) [] [] None).
Proof. reflexivity. Qed.
Lemma solo_root_insert t x : ~ In (nid x) (map n_pk t) ->
  solo t (mkTx (Insert (rootrow t x) Commit) [] [] None) = Go (mkTx Commit [New (rootrow t x)] [] None).
Proof. intros N. unfold ConcModel.solo, visible. cbn [x_prog x_writes fold_left]. rewrite unused by exact N. reflexivity. Qed.

Lemma root_reach t x y : ~ In (nid x) (map n_pk t) -> reach t (Root x) y <-> midroot t x y.
Proof.
  intros N. split.
  - induction 1 as [y E1|y y' R IH E1].
    + rewrite solo_root in E1. injection E1 as <-. constructor.
    + destruct IH; [rewrite solo_root_insert in E1 by auto; injection E1 as <-; constructor|discriminate].
  - intros [|]; [apply reach_first; apply solo_root|].
    eapply reach_next; [apply reach_first; apply solo_root|]. apply solo_root_insert; auto.
Qed.

Lemma new_tree_stable t k x t' : ok t -> ready treeof t (k, x) -> ns_table_exec t (k, x) = Ok t' -> new_tree t' = new_tree t.
Proof.
  intros Ht Rd E. assert (Ht' := exec_keeps treeof t k x t' Ht Rd E).
  destruct (exec_ok treeof t k x t' Ht Rd E) as (nd & r & Hn & Ek & Et & _ & _ & Er & ->).
  assert (M := last_max t Ht). assert (M' := last_max _ Ht').
  assert (Tr : forall a, n_tree (if sel nd a then shift nd a else a) = n_tree a) by (intros a; destruct (sel nd a); auto).
  unfold new_tree. destruct (get_last_root_node t) as [l|]; [|subst t; destruct Hn].
  destruct (get_last_root_node (r :: shifted nd t)) as [l'|]; [|discriminate]. f_equal.
  destruct M as [M1 M2], M' as [M1' M2'].
  assert (H1 : (n_tree l <= n_tree l')%Z).
  { rewrite <- (Tr l). apply M2'. right. unfold shifted. apply in_map_iff. exists l. auto. }
  assert (H2 : (n_tree l' <= n_tree l)%Z).
  { destruct M1' as [<-|M1']; [rewrite Er; auto|]. unfold shifted in M1'. apply in_map_iff in M1'. destruct M1' as (a & <- & Ha).
    rewrite Tr. auto. }
  lia.
Qed.

(** A new root changes nothing for the calls in other trees. *)
Lemma root_stable t x nd : ok t -> In nd t ->
  found nd (rootrow t x :: t) = found nd t /\ puts nd (rootrow t x :: t) = puts nd t /\
  forall z, newrow (rootrow t x :: t) nd z = newrow t nd z.
Proof.
  intros Ht Hn. assert (N := new_tree_above t nd Ht Hn).
  assert (Fs : forall P : nsrow -> bool, (forall a, P a = true -> n_tree a = n_tree nd) -> filter P (rootrow t x :: t) = filter P t).
  { intros P HP. cbn [filter]. destruct (P (rootrow t x)) eqn:E; auto. apply HP in E. cbn in E. congruence. }
  assert (Fsel : filter (sel nd) (rootrow t x :: t) = filter (sel nd) t).
  { apply Fs. intros a Ha. unfold sel, alter_sel in Ha. apply andb_true_iff in Ha. apply Z.eqb_eq, Ha. }
  unfold found, puts. rewrite Fsel. split; auto. split; auto. intros z. unfold newrow. destruct (is_leaf nd) eqn:El; auto.
  unfold get_last_child, get_children, get_descendants, get_tree. rewrite El.
  rewrite Fs; auto. intros a Ha. rewrite !andb_true_iff in Ha. apply Z.eqb_eq, Ha.
Qed.

Lemma ready_root t x k z : ready treeof t (k, z) -> nid z <> nid x -> ready treeof (rootrow t x :: t) (k, z).
Proof.
  intros [(nd & Hn & E1 & E2) N] A. split; [exists nd; split; [right; auto|auto]|]. cbn. intros [H|H]; auto.
Qed.

Lemma child_pks t k x t' i : ok t -> ready treeof t (k, x) -> ns_table_exec t (k, x) = Ok t' ->
  In i (map n_pk t') -> i = nid x \/ In i (map n_pk t).
Proof.
  intros Ht Rd E H. destruct (exec_ok treeof t k x t' Ht Rd E) as (nd & r & _ & _ & _ & _ & Ep & _ & ->).
  cbn [map] in H. rewrite shifted_pks, Ep in H. destruct H; auto.
Qed.

Lemma ns_roots_serializable : serializable nsrow n_pk ns_same growth ns_begun ns_grow_exec ok prepared apart2 compat2.
Proof.
  assert (SZ := ns_serializable treeof).
  constructor.
  - intros t [k x|x] rows; [apply (s_start _ _ _ _ _ _ _ _ _ _ SZ t (k, x))|discriminate].
  - intros t [k x|x] y Ht Rd R E.
    + rewrite child_reach in R. apply (s_past _ _ _ _ _ _ _ _ _ _ SZ t (k, x) y Ht Rd R). exact E.
    + rewrite root_reach in R by exact Rd. destruct R; discriminate.
  - intros t [k x|x] y rows e Ht Rd M E.
    + apply (s_end _ _ _ _ _ _ _ _ _ _ SZ t (k, x) y rows e Ht Rd); auto. rewrite child_reach in M. exact M.
    + cbn [prepared] in Rd. rewrite (root_eq t x Ht Rd). destruct M as [->|M]; [rewrite solo_root in E; discriminate|].
      rewrite root_reach in M by auto. destruct M; [rewrite solo_root_insert in E by auto; discriminate|]. injection E as <- <-. reflexivity.
  - intros t [k x|x] t' Ht Rd E; [apply (exec_keeps treeof t k x t' Ht Rd E)|].
    cbn [prepared] in Rd. rewrite (root_eq t x Ht Rd) in E. injection E as <-. destruct Ht as [F St]. eexists. apply root_keeps; eauto.
  - intros t t' c d Ht Rc Rd A E. destruct A as [A1 A2]. destruct d as [j z|z].
    + destruct c as [k x|x].
      * apply (s_ready _ _ _ _ _ _ _ _ _ _ SZ t t' (k, x) (j, z)); auto. split; auto.
      * cbn [prepared grown_by] in *. intros H. apply (child_pks t j z t' _ Ht Rd E) in H. destruct H; auto.
    + cbn [prepared] in Rd. rewrite (root_eq t z Ht Rd) in E. injection E as <-. destruct c as [k x|x]; [|destruct A2].
      apply ready_root; auto.
  - intros t t' c d y Ht Rc Rd A C E R. destruct A as [A1 A2]. destruct d as [j z|z].
    + destruct c as [k x|x].
      * rewrite child_reach in *. apply (s_stable _ _ _ _ _ _ _ _ _ _ SZ t t' (k, x) (j, z) y Ht Rc Rd (conj A1 A2) C E R).
      * rewrite root_reach in R by exact Rc. assert (Et := new_tree_stable t j z t' Ht Rd E).
        assert (Er : rootrow t' x = rootrow t x) by (unfold rootrow; rewrite Et; auto).
        rewrite root_reach.
        -- destruct R; rewrite <- Er; constructor.
        -- intros H. apply (child_pks t j z t' _ Ht Rd E) in H. destruct H; [apply A1; auto|apply Rc; auto].
    + cbn [prepared] in Rd. rewrite (root_eq t z Ht Rd) in E. injection E as <-. destruct c as [k x|x]; [|destruct A2].
      assert (Rc' := ready_root t z k x Rc A1).
      assert (Ht' : ok (rootrow t z :: t)) by (destruct Ht as [F St]; eexists; apply root_keeps; eauto).
      rewrite child_reach in *. apply (mid_reach treeof _ k x y Ht' Rc'). apply (reach_mid treeof t k x y Ht Rc) in R.
      destruct R as [nd Hn Ek El|nd r Hn Ek Er|nd r Hn Ek Er|nd r Hn Ek Er|nd r Hn Ek Er];
        destruct (root_stable t z nd Ht Hn) as (K2 & K3 & K4); rewrite <- ?K2, <- ?K3;
        assert (Hn' : In nd (rootrow t z :: t)) by (right; auto).
      * apply mid_select; auto.
      * apply mid_update; auto. congruence.
      * apply mid_found; auto. congruence.
      * apply (mid_insert _ k x nd r); auto. congruence.
      * apply (mid_commit _ k x nd r); auto. congruence.
  - intros t [k x|x] [j z|z] y y' Ht Rc Rd [A1 A2] E R Wt; try exact Logic.I.
    rewrite child_reach in R. apply (s_first _ _ _ _ _ _ _ _ _ _ SZ t (k, x) (j, z) y y' Ht Rc Rd (conj A1 A2) E R Wt).
  - intros t c d y y' Ht Rc Rd [A1 A2] C R R'. destruct c as [k x|x], d as [j z|z].
    + rewrite child_reach in *. apply (s_free _ _ _ _ _ _ _ _ _ _ SZ t (k, x) (j, z) y y' Ht Rc Rd (conj A1 A2) C R R').
    + rewrite child_reach in R. rewrite root_reach in R' by exact Rd. apply (reach_mid treeof t k x y Ht Rc) in R.
      assert (Lk : x_locks y' = []) by (destruct R'; auto).
      assert (Wr : forall w, In w (x_writes y') -> n_pk (written w) = nid z) by (destruct R'; cbn; intros w Hw; [destruct Hw|destruct Hw as [<-|[]]; auto]).
      destruct R as [nd Hn Ek El|nd r Hn Ek Er|nd r Hn Ek Er|nd r Hn Ek Er|nd r Hn Ek Er]; unfold waits; cbn [x_prog select_prog update_prog insert_prog x_found]; auto.
      * rewrite Lk. cbn. clear. induction (found nd t); auto.
      * apply not_true_iff_false. intros E. apply existsb_exists in E. destruct E as (w & Hw & E). apply Nat.eqb_eq in E.
        destruct (newrow_some t nd x Ht Hn) as (r' & Er' & Ep & _). assert (r' = r) by congruence. subst r'.
        rewrite (Wr w Hw), Ep in E. apply A1. auto.
    + rewrite root_reach in R by exact Rc. rewrite child_reach in R'. apply (reach_mid treeof t j z y' Ht Rd) in R'.
      destruct R; [|reflexivity]. unfold waits. cbn [x_prog].
      apply not_true_iff_false. intros E. apply existsb_exists in E. destruct E as (w & Hw & E). apply Nat.eqb_eq in E.
      assert (Pt : forall nd, In w (puts nd t) -> In (n_pk (written w)) (map n_pk t)).
      { intros nd H. unfold puts in H. apply in_map_iff in H. destruct H as (r & <- & Hr). apply filter_In in Hr. cbn. apply in_map, Hr. }
      change (n_pk (rootrow t x)) with (nid x) in E. cbn [prepared] in Rc.
      destruct R' as [nd Hn Ek El|nd r Hn Ek Er|nd r Hn Ek Er|nd r Hn Ek Er|nd r Hn Ek Er]; cbn [x_writes] in Hw; try destruct Hw.
      * apply Rc. rewrite E. eauto.
      * rewrite in_app_iff in Hw. destruct Hw as [Hw|[<-|[]]]; [apply Rc; rewrite E; eauto|].
        destruct (newrow_some t nd z Ht Hn) as (r' & Er' & Ep & _). assert (r' = r) by congruence. subst r'. cbn in E. apply A1. cbn. congruence.
    + destruct A2.
  - intros [k x|x] [j z|z]; cbn; auto.
Qed.
End Roots.

Theorem ns_one_root t F calls schedule : stores t F ->
  NoDup (map (fun c => nid (grown_by c)) calls) ->
  (forall c, In c calls -> ~ In (nid (grown_by c)) (ids F) /\ (forall k x, c = Child k x -> In k (ids F))) ->
  (forall j k x y r s, In (Child j x) calls -> In (Child k y) calls -> In r t -> In s t -> n_pk r = j -> n_pk s = k -> n_tree r = n_tree s -> j = k) ->
  (forall i j c d, nth_error calls i = Some c -> nth_error calls j = Some d -> is_root_call c -> is_root_call d -> i = j) ->
  let W := play n_pk ns_same (all_begin t (map ns_begun calls)) schedule in
  one_by_one ns_grow_exec calls t (map fst (w_log W)) = (w_rows W, w_log W) /\ NoDup (map fst (w_log W)) /\
  Forall (fun e => snd e = None) (w_log W) /\
  stores (w_rows W) (fold_left grow (succeeded calls (w_log W)) F) /\
  (finished W = true -> Permutation (map fst (w_log W)) (seq 0 (length calls))) /\
  exists schedule', finished (play n_pk ns_same W schedule') = true.
Proof.
  intros St ND Fr Tr One W.
  set (treeof := fun k => match get_by_pk t k with Ok r => n_tree r | Err _ => 0%Z end).
  assert (Tof : forall r, In r t -> treeof (n_pk r) = n_tree r).
  { intros r Hr. unfold treeof. destruct St as (Wf & ts & I & P). rewrite (get_by_pk_in t F ts Wf I P r Hr). auto. }
  assert (Row : forall k x, In (Child k x) calls -> exists r, In r t /\ n_pk r = k).
  { intros k x Hc. assert (H := proj2 (Fr _ Hc) k x eq_refl). rewrite (ids_iff t F _ St) in H. apply in_map_iff in H. destruct H as (r & Er & Hr). eauto. }
  assert (Ap : forall i j c d, i <> j -> nth_error calls i = Some c -> nth_error calls j = Some d -> apart2 treeof c d).
  { intros i j c d N Ec Ed. split.
    - intros Q. apply N. apply (proj1 (NoDup_nth_error _) ND).
      + rewrite map_length. apply nth_error_Some. congruence.
      + rewrite !nth_error_map, Ec, Ed. cbn. congruence.
    - destruct c as [k x|x], d as [l y|y]; auto.
      + apply nth_error_In in Ec. apply nth_error_In in Ed. destruct (Row k x Ec) as (r & Hr & Er). destruct (Row l y Ed) as (s & Hs & Es).
        destruct (Z.eq_dec (n_tree r) (n_tree s)) as [E|E]; [left; apply (Tr k l x y r s); auto|].
        right. rewrite <- Er, <- Es, !Tof by auto. auto.
      + apply N. eapply One; eauto; exact Logic.I. }
  assert (Rd : forall c, In c calls -> prepared treeof t c).
  { intros [k x|x] Hc; assert (Nx := proj1 (Fr _ Hc)); rewrite (ids_iff t F _ St) in Nx; [|exact Nx].
    destruct (Row k x Hc) as (r & Hr & Er). split; [exists r; cbn [fst]; rewrite <- Er, Tof; auto|exact Nx]. }
  clearbody treeof. assert (Ok0 : ok t) by (exists F; auto).
  destruct (reached_serial nsrow n_pk ns_same _ ns_begun ns_grow_exec ok (prepared treeof) (apart2 treeof) compat2 (ns_roots_serializable treeof) calls t Ap
    Ok0 Rd schedule) as (H1 & _ & H3 & H4 & H5). fold W in H1, H3, H4, H5.
  split; auto. split; auto.
  assert (K : forall order t F t' log, stores t F -> NoDup order -> (forall i c, In i order -> nth_error calls i = Some c -> prepared treeof t c) ->
    one_by_one ns_grow_exec calls t order = (t', log) -> Forall (fun e => snd e = None) log /\
    stores t' (fold_left grow (succeeded calls log) F)).
  { clear - ND Ap. induction order as [|i order IH]; intros t F t' log St NO Rd E; cbn [one_by_one] in E.
    - injection E as <- <-. auto.
    - apply NoDup_cons_iff in NO. destruct NO as [Ni NO]. destruct (nth_error calls i) as [c|] eqn:Ec.
      2:{ apply (IH t F t' log); auto. intros; eapply Rd; eauto; right; auto. }
      assert (Rc := Rd i c (or_introl eq_refl) Ec). assert (Ht : ok t) by (exists F; auto).
      assert (Ex : exists t2, ns_grow_exec t c = Ok t2 /\ stores t2 (grow F c)).
      { destruct c as [k x|x]; [|exists (rootrow t x :: t); split; [apply root_eq; auto|apply root_keeps; auto]].
        destruct Rc as [(nd & Hn & Ek & _) Nx]. cbn [fst snd] in *.
        destruct (exec_eq t nd x Ht Hn Nx) as (r & _ & Ex). rewrite Ek in Ex. exists (r :: shifted nd t). split; [exact Ex|].
        assert (Fr : fresh_call F (CAddChild k x)) by (intros j [<-|[]]; rewrite (ids_iff t F _ St); exact Nx).
        assert (A := ns_call_ok [] (mkNSDB t []) F (CAddChild k x) St Fr). unfold ns_table_exec in Ex. cbn [fst snd] in Ex.
        destruct (ns_exec [] (mkNSDB t []) (CAddChild k x)) as [db|]; [|discriminate]. cbn [bind] in Ex. injection Ex as <-.
        unfold sp_exec in A. assert (Hk : has k F = true) by (apply has_spec; rewrite (ids_iff t F _ St), <- Ek; apply in_map; auto).
        rewrite Hk in A. exact A. }
      destruct Ex as (t2 & Ex & St2). rewrite Ex in E.
      destruct (one_by_one ns_grow_exec calls t2 order) as [rr l] eqn:E2. injection E as <- <-.
      unfold succeeded. cbn [flat_map fst snd]. rewrite Ec. cbn [app fold_left fst snd]. fold (succeeded calls l).
      destruct (IH t2 (grow F c) rr l) as [K1 K2]; auto.
      intros j d Hj Ed. apply (s_ready _ _ _ _ _ _ _ _ _ _ (ns_roots_serializable treeof) t _ d c); auto.
        * apply (Rd j); auto. right. auto.
        * apply (Ap j i); auto. intros ->. auto. }
  destruct (K _ t F (w_rows W) (w_log W) St H3) as [K1 K2]; auto.
  intros i c _ Ec. apply Rd. eapply nth_error_In; eauto.
Qed.
