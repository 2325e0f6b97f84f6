(** Concurrent add_child calls on nested sets without node_order_by, where any two of them
    have one parent or work in different trees (C41). *)
From Coq Require Import String List Arith Lia Bool ZArith Permutation.
From Verif Require Import Prelude Forest SpecFacts CommonModel Order History
  NSModel NSInv NSReads NSUpd NSAdd NSHist ConcModel ConcRun.
Import ListNotations.
Local Open Scope nat_scope.

(** The writes of an UPDATE. *)
Section Puts.
Variable R : Type.
Variable pk : R -> nat.
Variable f : R -> R.
Hypothesis f_pk : forall r, pk (f r) = pk r.

Lemma key_unique (t : list R) a b : NoDup (map pk t) -> In a t -> In b t -> pk a = pk b -> a = b.
Proof. intros N Ha Hb E. eapply NoDup_map_inj; eauto. Qed.

Lemma puts_in l : forall t, NoDup (map pk t) -> NoDup (map pk l) -> incl l t ->
  fold_left (apply_write pk) (map (fun r => Put (f r)) l) t =
  map (fun r => if existsb (Nat.eqb (pk r)) (map pk l) then f r else r) t.
Proof.
  induction l as [|a l IH]; intros t N Nl Il.
  - cbn. rewrite map_id. reflexivity.
  - cbn [map] in Nl. apply NoDup_cons_iff in Nl. destruct Nl as [Na Nl]. cbn [map fold_left apply_write]. rewrite f_pk.
    assert (Em : map pk (map (fun x => if pk x =? pk a then f a else x) t) = map pk t).
    { rewrite map_map. apply map_ext. intros x. destruct (Nat.eqb_spec (pk x) (pk a)) as [->|]; auto. }
    rewrite IH.
    + rewrite map_map. apply map_ext_in. intros x Hx. destruct (Nat.eqb_spec (pk x) (pk a)) as [E|E].
      * assert (x = a) by (apply (key_unique t); auto; apply Il; left; auto). subst x. cbn [existsb]. rewrite Nat.eqb_refl. cbn [orb].
        rewrite f_pk. destruct (existsb _ (map pk l)) eqn:Ex; auto. exfalso. apply existsb_exists in Ex. destruct Ex as (k & Hk & E').
        apply Nat.eqb_eq in E'. subst k. auto.
      * cbn [existsb]. apply Nat.eqb_neq in E. rewrite E. reflexivity.
    + rewrite Em. auto.
    + auto.
    + intros x Hx. apply in_map_iff. exists x. split; [|apply Il; right; auto].
      destruct (Nat.eqb_spec (pk x) (pk a)) as [E|]; auto. exfalso. apply Na. rewrite <- E. apply in_map. auto.
Qed.

Lemma nodup_filter (sel : R -> bool) t : NoDup (map pk t) -> NoDup (map pk (filter sel t)).
Proof.
  induction t as [|a t IH]; cbn; auto. intros N. apply NoDup_cons_iff in N. destruct N as [N1 N2].
  destruct (sel a); auto. cbn. constructor; auto. intros H. apply N1. apply in_map_iff in H. destruct H as (b & <- & Hb).
  apply filter_In in Hb. apply in_map, Hb.
Qed.

Lemma hit_eq (sel : R -> bool) t : filter (fun r => sel r && existsb (Nat.eqb (pk r)) (map pk (filter sel t))) t = filter sel t.
Proof.
  apply filter_ext_In. intros a Ha. destruct (sel a) eqn:E; auto. cbn [andb]. apply existsb_exists. exists (pk a).
  split; [apply in_map, filter_In; auto|apply Nat.eqb_refl].
Qed.

Lemma puts_sel (sel : R -> bool) t : NoDup (map pk t) ->
  fold_left (apply_write pk) (map (fun r => Put (f r)) (filter sel t)) t = map (fun r => if sel r then f r else r) t.
Proof.
  intros N. rewrite puts_in; auto.
  - apply map_ext_in. intros a Ha. destruct (sel a) eqn:E.
    + assert (Ex : existsb (Nat.eqb (pk a)) (map pk (filter sel t)) = true).
      { apply existsb_exists. exists (pk a). split; [apply in_map, filter_In; auto|apply Nat.eqb_refl]. }
      rewrite Ex. reflexivity.
    + destruct (existsb _ _) eqn:Ex; auto. apply existsb_exists in Ex. destruct Ex as (k & Hk & E'). apply Nat.eqb_eq in E'. subst k.
      apply in_map_iff in Hk. destruct Hk as (b & Eb & Hb). apply filter_In in Hb. destruct Hb as [Hb Sb].
      assert (b = a) by (apply (key_unique t); auto). congruence.
  - apply nodup_filter. auto.
  - intros a Ha. apply filter_In in Ha. apply Ha.
Qed.
End Puts.

Section NS.
(** The tree_id of each parent. *)
Variable treeof : nat -> Z.

Definition ns_table_exec (t : ns_table) (c : nat * node) : res ns_table :=
  do db <- ns_exec [] (mkNSDB t []) (CAddChild (fst c) (snd c)); Ok (ns_rows db).

Definition ok (t : ns_table) : Prop := exists F, stores t F.
Definition ready (t : ns_table) (c : nat * node) : Prop :=
  (exists nd, In nd t /\ n_pk nd = fst c /\ n_tree nd = treeof (fst c)) /\ ~ In (nid (snd c)) (map n_pk t).
Definition apart (c d : nat * node) : Prop := nid (snd c) <> nid (snd d) /\ (fst c = fst d \/ treeof (fst c) <> treeof (fst d)).
Definition compat (c d : nat * node) : Prop := fst c <> fst d.
Definition start (c : nat * node) := ns_add_child (fst c) (snd c).

Definition newrow (t : ns_table) (nd : nsrow) (x : node) : res nsrow :=
  if is_leaf nd then Ok (mkNS (nid x) (n_tree nd) (n_lft nd + 1) (n_lft nd + 2) (n_depth nd + 1) (ndata x))
  else match get_last_child t nd with
       | Some last => Ok (mkNS (nid x) (n_tree last) (n_rgt nd) (n_rgt nd + 1) (n_depth last) (ndata x))
       | None => Err AttributeError
       end.

Definition sel (nd : nsrow) := alter_sel (n_tree nd) (n_rgt nd).
Definition shift (nd : nsrow) := alter_row (n_rgt nd) 2.
Definition shifted (nd : nsrow) (t : ns_table) : ns_table := map (fun r => if sel nd r then shift nd r else r) t.
Definition found (nd : nsrow) (t : ns_table) : list nat := map n_pk (filter (sel nd) t).
Definition puts (nd : nsrow) (t : ns_table) : list (write nsrow) := map (fun r => Put (shift nd r)) (filter (sel nd) t).

Lemma ids_iff t F k : stores t F -> In k (ids F) <-> In k (map n_pk t).
Proof.
  intros (W & ts & I & P). split; intros H.
  - apply (Permutation_in _ (Permutation_sym (pks t F ts I P))); auto.
  - apply (Permutation_in _ (pks t F ts I P)); auto.
Qed.
Lemma nodup t : ok t -> NoDup (map n_pk t).
Proof. intros [F (W & ts & I & P)]. apply (Permutation_NoDup (Permutation_sym (pks t F ts I P))). apply W. Qed.

Lemma get_row t nd : ok t -> In nd t -> filter (fun r => n_pk r =? n_pk nd) t = [nd].
Proof. intros [F (W & ts & I & P)] H. apply (filter_pk t F ts W I P nd H). Qed.
Lemma row_unique t a b : ok t -> In a t -> In b t -> n_pk a = n_pk b -> a = b.
Proof. intros H. apply key_unique, nodup, H. Qed.

Lemma shifted_pks nd t : map n_pk (shifted nd t) = map n_pk t.
Proof. unfold shifted. rewrite map_map. apply map_ext. intros r. destruct (sel nd r); reflexivity. Qed.

Lemma last_child t nd last : ok t -> In nd t -> get_last_child t nd = Some last -> is_root last = false /\ n_tree last = n_tree nd.
Proof.
  intros [F (W & ts & I & P)] Hn E. assert (Hc := get_last_child_in _ _ _ E).
  destruct (kids_row t F ts W I P nd Hn) as (k & P1 & P2 & Ek & A & C).
  destruct (child_row t F ts nd k P1 P2 last W I P Hn A Ek C Hc) as (_ & _ & _ & R). split; auto.
  rewrite (around_tops t F ts W I P _ _ _ _ Hn A) in Hc. apply tops_tree in Hc. apply Hc.
Qed.

Lemma last_some t nd : ok t -> In nd t -> is_leaf nd = false -> exists last, get_last_child t nd = Some last.
Proof.
  intros [F (W & ts & I & P)] Hn El. destruct (kids_row t F ts W I P nd Hn) as (k & P1 & P2 & Ek & A & C).
  assert (Lf := leaf_iff F ts _ _ _ _ A). unfold get_last_child. rewrite (around_tops t F ts W I P _ _ _ _ Hn A).
  destruct (last_opt _) eqn:E; eauto. exfalso.
  apply last_opt_None in E. assert (R := tops_roots (n_tree nd) k (n_depth nd + 1) (n_lft nd + 1)).
  rewrite E in R. destruct k; [|discriminate]. assert (is_leaf nd = true) by (apply Lf; auto). congruence.
Qed.

Lemma newrow_some t nd x : ok t -> In nd t -> exists r, newrow t nd x = Ok r /\ n_pk r = nid x /\ n_tree r = n_tree nd.
Proof.
  intros Ht Hn. unfold newrow. destruct (is_leaf nd) eqn:El; [eexists; split; [reflexivity|auto]|].
  destruct (last_some t nd Ht Hn El) as [last E]. rewrite E. eexists. split; [reflexivity|].
  split; auto. cbn. apply (last_child t nd last Ht Hn E).
Qed.

Lemma exec_eq t nd x : ok t -> In nd t -> ~ In (nid x) (map n_pk t) ->
  exists r, newrow t nd x = Ok r /\ ns_table_exec t (n_pk nd, x) = Ok (r :: shifted nd t).
Proof.
  intros Ht Hn Nx. destruct (newrow_some t nd x Ht Hn) as (r & Er & Ep & _). exists r. split; auto.
  unfold ns_table_exec, ns_exec. cbn [fst snd ns_rows]. unfold get_by_pk at 1. rewrite (get_row t nd Ht Hn). cbn [bind].
  unfold add_child, get_by_pk. cbn [ns_rows]. rewrite (get_row t nd Ht Hn). cbn [bind]. unfold newrow in Er.
  assert (Sv : forall T s q, n_pk q = nid x -> T = n_tree nd -> s = n_rgt nd ->
    ns_rows (save_row (alter_gap (mkNSDB t []) T s 2) q) = q :: shifted nd t).
  { intros T s q Eq -> ->. rewrite save_new; [reflexivity|]. rewrite alter_gap_pks. rewrite Eq. exact Nx. }
  destruct (is_leaf nd) eqn:El; cbn [negb].
  - injection Er as <-. cbn [bind fst]. rewrite Sv by auto. reflexivity.
  - destruct (get_last_child t nd) as [last|] eqn:Ea; [|discriminate]. injection Er as <-.
    destruct (last_child t nd last Ht Hn Ea) as [Rl Tl].
    cbn [is_sorted]. unfold add_sibling. change (prepare_pos_add (is_sorted []) (Some "last-sibling"%string)) with (Ok LastSibling : res pos).
    cbn [bind o_row]. rewrite Rl. cbn [bind normalize parent_rgt get_parent o_row o_up]. unfold parent_rgt, get_parent. cbn [o_row o_up].
    rewrite Rl. cbn [bind fst]. rewrite Sv by auto. reflexivity.
Qed.

(** The states in the middle of the call. *)
Definition insert_prog (r : nsrow) : prog nsrow := Insert r Commit.
Definition update_prog (nd r : nsrow) : prog nsrow := Update (sel nd) (shift nd) (insert_prog r).
Definition select_prog (nd : nsrow) (x : node) : prog nsrow :=
  Select (fun t => else_raise (get_last_child t nd) AttributeError (fun last =>
    update_prog nd (mkNS (nid x) (n_tree last) (n_rgt nd) (n_rgt nd + 1) (n_depth last) (ndata x)))).

Inductive mid (t : ns_table) (k : nat) (x : node) : tx nsrow -> Prop :=
| mid_select nd : In nd t -> n_pk nd = k -> is_leaf nd = false -> mid t k x (mkTx (select_prog nd x) [] [k] None)
| mid_update nd r : In nd t -> n_pk nd = k -> newrow t nd x = Ok r -> mid t k x (mkTx (update_prog nd r) [] [k] None)
| mid_found nd r : In nd t -> n_pk nd = k -> newrow t nd x = Ok r -> mid t k x (mkTx (update_prog nd r) [] [k] (Some (found nd t)))
| mid_insert nd r : In nd t -> n_pk nd = k -> newrow t nd x = Ok r ->
    mid t k x (mkTx (insert_prog r) (puts nd t) (found nd t ++ [k]) None)
| mid_commit nd r : In nd t -> n_pk nd = k -> newrow t nd x = Ok r ->
    mid t k x (mkTx Commit (puts nd t ++ [New r]) (found nd t ++ [k]) None).

Notation solo := (solo n_pk ns_same).
Notation reach := (reach nsrow n_pk ns_same (nat * node) start).

Lemma solo_first t k x nd : ok t -> In nd t -> n_pk nd = k -> solo t (begin (start (k, x))) =
  if is_leaf nd then match newrow t nd x with Ok r => Go (mkTx (update_prog nd r) [] [k] None) | Err e => End t (Some e) end
  else Go (mkTx (select_prog nd x) [] [k] None).
Proof.
  intros Ht Hn <-. unfold ConcModel.solo, begin, start, ns_add_child, visible. cbn [x_prog x_writes x_locks x_found fst snd fold_left].
  rewrite (get_row t nd Ht Hn). cbn [hd_error else_raise]. unfold newrow. destruct (is_leaf nd); reflexivity.
Qed.

Lemma solo_select t k x nd : is_leaf nd = false -> solo t (mkTx (select_prog nd x) [] [k] None) =
  match newrow t nd x with Ok r => Go (mkTx (update_prog nd r) [] [k] None) | Err e => End t (Some e) end.
Proof.
  intros El. unfold ConcModel.solo, select_prog, visible, newrow. cbn [x_prog x_writes x_locks x_found fold_left]. rewrite El.
  destruct (get_last_child t nd); reflexivity.
Qed.

Lemma solo_update t k nd r : solo t (mkTx (update_prog nd r) [] [k] None) = Go (mkTx (update_prog nd r) [] [k] (Some (found nd t))).
Proof. reflexivity. Qed.

Lemma solo_found t k nd r : solo t (mkTx (update_prog nd r) [] [k] (Some (found nd t))) =
  Go (mkTx (insert_prog r) (puts nd t) (found nd t ++ [k]) None).
Proof.
  unfold ConcModel.solo, update_prog, visible. cbn [x_prog x_writes x_locks x_found fold_left].
  unfold found at 1. rewrite hit_eq. reflexivity.
Qed.

Lemma visible_puts t nd p ls fo : ok t -> visible n_pk t (mkTx p (puts nd t) ls fo) = shifted nd t.
Proof. intros Ht. unfold visible, puts. cbn [x_writes]. apply puts_sel; auto. apply nodup. auto. Qed.

Lemma solo_insert t k nd r : ok t -> ~ In (n_pk r) (map n_pk t) ->
  solo t (mkTx (insert_prog r) (puts nd t) (found nd t ++ [k]) None) =
  Go (mkTx Commit (puts nd t ++ [New r]) (found nd t ++ [k]) None).
Proof.
  intros Ht Nr. unfold ConcModel.solo, insert_prog. cbn [x_prog]. rewrite visible_puts by auto.
  assert (E : existsb (ns_same r) (shifted nd t) = false).
  { apply not_true_iff_false. intros E. apply existsb_exists in E. destruct E as (a & Ha & E). apply Nat.eqb_eq in E.
    apply Nr. rewrite <- (shifted_pks nd), E. apply in_map. auto. }
  rewrite E. reflexivity.
Qed.

Lemma solo_commit t k nd r : ok t -> solo t (mkTx Commit (puts nd t ++ [New r]) (found nd t ++ [k]) None) = End (r :: shifted nd t) None.
Proof.
  intros Ht. unfold ConcModel.solo. cbn [x_prog]. f_equal. unfold visible. cbn [x_writes]. rewrite fold_left_app. cbn [fold_left apply_write].
  f_equal. apply (visible_puts t nd Commit [] None Ht).
Qed.

Lemma reach_mid t k x y : ok t -> ready t (k, x) -> reach t (k, x) y -> mid t k x y.
Proof.
  intros Ht [(nd0 & Hn0 & Ek0 & _) Nx]. cbn [fst snd] in *. induction 1 as [y E1|y y' R IH E1].
  - rewrite (solo_first t k x nd0 Ht Hn0 Ek0) in E1. destruct (is_leaf nd0) eqn:El.
    + destruct (newrow t nd0 x) as [r|] eqn:Er; [|discriminate]. injection E1 as <-. apply mid_update; auto.
    + injection E1 as <-. apply mid_select; auto.
  - destruct IH as [nd Hn Ek El|nd r Hn Ek Er|nd r Hn Ek Er|nd r Hn Ek Er|nd r Hn Ek Er].
    + rewrite (solo_select t k x nd El) in E1. destruct (newrow t nd x) as [r|] eqn:Er; [|discriminate]. injection E1 as <-.
      apply mid_update; auto.
    + rewrite solo_update in E1. injection E1 as <-. apply mid_found; auto.
    + rewrite solo_found in E1. injection E1 as <-. apply (mid_insert t k x nd r); auto.
    + destruct (newrow_some t nd x Ht Hn) as (r' & Er' & Ep & _). assert (r' = r) by congruence. subst r'.
      rewrite solo_insert in E1 by (auto; rewrite Ep; auto). injection E1 as <-. apply (mid_commit t k x nd r); auto.
    + rewrite solo_commit in E1 by auto. discriminate.
Qed.

Lemma mid_reach t k x y : ok t -> ready t (k, x) -> mid t k x y -> reach t (k, x) y.
Proof.
  intros Ht [_ Nx]. cbn [snd] in Nx.
  assert (K1 : forall nd, In nd t -> n_pk nd = k -> is_leaf nd = false -> reach t (k, x) (mkTx (select_prog nd x) [] [k] None)).
  { intros nd Hn Ek El. apply reach_first. rewrite (solo_first t k x nd Ht Hn Ek), El. reflexivity. }
  assert (K2 : forall nd r, In nd t -> n_pk nd = k -> newrow t nd x = Ok r -> reach t (k, x) (mkTx (update_prog nd r) [] [k] None)).
  { intros nd r Hn Ek Er. destruct (is_leaf nd) eqn:El.
    - apply reach_first. rewrite (solo_first t k x nd Ht Hn Ek), El, Er. reflexivity.
    - eapply reach_next; [apply K1; eauto|]. rewrite (solo_select t k x nd El), Er. reflexivity. }
  assert (K3 : forall nd r, In nd t -> n_pk nd = k -> newrow t nd x = Ok r -> reach t (k, x) (mkTx (update_prog nd r) [] [k] (Some (found nd t)))).
  { intros nd r Hn Ek Er. eapply reach_next; [apply K2; eauto|]. apply solo_update. }
  assert (K4 : forall nd r, In nd t -> n_pk nd = k -> newrow t nd x = Ok r -> reach t (k, x) (mkTx (insert_prog r) (puts nd t) (found nd t ++ [k]) None)).
  { intros nd r Hn Ek Er. eapply reach_next; [apply K3; eauto|]. apply solo_found. }
  intros [nd Hn Ek El|nd r Hn Ek Er|nd r Hn Ek Er|nd r Hn Ek Er|nd r Hn Ek Er]; auto.
  eapply reach_next; [apply K4; eauto|]. apply solo_insert; auto.
  destruct (newrow_some t nd x Ht Hn) as (r' & Er' & Ep & _). assert (r' = r) by congruence. subst r'. rewrite Ep. auto.
Qed.

Lemma exec_ok t k x t' : ok t -> ready t (k, x) -> ns_table_exec t (k, x) = Ok t' ->
  exists nd r, In nd t /\ n_pk nd = k /\ n_tree nd = treeof k /\ newrow t nd x = Ok r /\ n_pk r = nid x /\ n_tree r = n_tree nd /\ t' = r :: shifted nd t.
Proof.
  intros Ht [(nd & Hn & Ek & Et) Nx] E. cbn [fst snd] in *. destruct (exec_eq t nd x Ht Hn Nx) as (r & Er & E'). rewrite Ek in E'.
  rewrite E in E'. injection E' as ->. exists nd, r. destruct (newrow_some t nd x Ht Hn) as (r' & Er' & Ep & Ett).
  assert (r' = r) by congruence. subst r'. auto 8.
Qed.

Lemma exec_keeps t k x t' : ok t -> ready t (k, x) -> ns_table_exec t (k, x) = Ok t' -> ok t'.
Proof.
  intros [F St] [(nd & Hn & Ek & _) Nx] E. cbn [fst snd] in *. unfold ns_table_exec in E. cbn [fst snd] in E.
  destruct (ns_exec [] (mkNSDB t []) (CAddChild k x)) as [db|] eqn:E1; [|discriminate]. cbn [bind] in E. injection E as <-.
  assert (Fr : fresh_call F (CAddChild k x)).
  { intros i [<-|[]]. rewrite (ids_iff t F _ St). exact Nx. }
  assert (A := ns_call_ok [] (mkNSDB t []) F (CAddChild k x) St Fr). rewrite E1 in A.
  destruct (sp_exec [] F (CAddChild k x)) as [G|]; [|destruct A]. exists G. exact A.
Qed.

(** Rows of other trees are not touched. *)
Lemma filter_other (P : nsrow -> bool) T nd r t : (forall a, P a = true -> n_tree a = T) -> n_tree nd <> T -> n_tree r = n_tree nd ->
  filter P (r :: shifted nd t) = filter P t.
Proof.
  intros HP Nt Er. cbn [filter]. destruct (P r) eqn:E; [apply HP in E; congruence|].
  unfold shifted. induction t as [|a t IH]; auto. cbn [map filter].
  destruct (sel nd a) eqn:Es.
  - unfold sel, alter_sel in Es. apply andb_true_iff in Es. destruct Es as [_ Es]. apply Z.eqb_eq in Es.
    destruct (P (shift nd a)) eqn:E1; [apply HP in E1; cbn in E1; congruence|].
    destruct (P a) eqn:E2; [apply HP in E2; congruence|]. apply IH.
  - destruct (P a); [f_equal|]; apply IH.
Qed.

Lemma stable t k x t' nd : ok t -> ready t (k, x) -> ns_table_exec t (k, x) = Ok t' -> In nd t -> n_tree nd <> treeof k ->
  In nd t' /\ found nd t' = found nd t /\ puts nd t' = puts nd t /\ forall z, newrow t' nd z = newrow t nd z.
Proof.
  intros Ht Rd E Hn Nt. destruct (exec_ok t k x t' Ht Rd E) as (kd & r & Hk & Ek & Et & _ & _ & Er & ->).
  rewrite <- Et in Nt. split.
  - right. unfold shifted. apply in_map_iff. exists nd. split; auto. destruct (sel kd nd) eqn:Es; auto.
    unfold sel, alter_sel in Es. apply andb_true_iff in Es. destruct Es as [_ Es]. apply Z.eqb_eq in Es. congruence.
  - assert (Fs : filter (sel nd) (r :: shifted kd t) = filter (sel nd) t).
    { apply (filter_other _ (n_tree nd)); auto. intros a Ha. unfold sel, alter_sel in Ha. apply andb_true_iff in Ha.
      apply Z.eqb_eq, Ha. }
    unfold found, puts. rewrite Fs. split; auto. split; auto. intros z. unfold newrow. destruct (is_leaf nd) eqn:El; auto.
    unfold get_last_child, get_children, get_descendants, get_tree. rewrite El.
    rewrite (filter_other _ (n_tree nd)); auto. intros a Ha. rewrite !andb_true_iff in Ha. apply Z.eqb_eq, Ha.
Qed.

Lemma mid_lock t k x y : mid t k x y -> existsb (Nat.eqb k) (x_locks y) = true.
Proof.
  intros [nd Hn Ek El|nd r Hn Ek Er|nd r Hn Ek Er|nd r Hn Ek Er|nd r Hn Ek Er]; cbn [x_locks existsb];
    rewrite ?existsb_app; cbn [existsb]; rewrite Nat.eqb_refl, ?orb_true_r; auto.
Qed.

(** The locks are on rows of the tree. *)
Lemma mid_locked t k x y i : mid t k x y -> ready t (k, x) -> ok t -> In i (x_locks y) ->
  exists r, In r t /\ n_pk r = i /\ n_tree r = treeof k.
Proof.
  intros M [(nd0 & H0 & E0 & T0) _] Ht Hi. cbn [fst] in *.
  assert (K : i = k \/ exists nd, In nd t /\ n_pk nd = k /\ In i (found nd t)).
  { destruct M as [nd Hn Ek El|nd r Hn Ek Er|nd r Hn Ek Er|nd r Hn Ek Er|nd r Hn Ek Er]; cbn [x_locks] in Hi; rewrite ?in_app_iff in Hi;
    cbn [In] in Hi; try (destruct Hi as [<-|[]]; left; reflexivity); (destruct Hi as [Hi|[Hi|[]]]; [right; exists nd; auto|left; auto]). }
  destruct K as [->|(nd & Hn & Ek & Hf)]; [exists nd0; auto|].
  assert (nd = nd0) by (apply (row_unique t); auto; congruence). subst nd.
  unfold found in Hf. apply in_map_iff in Hf. destruct Hf as (r & Er & Hr). apply filter_In in Hr. destruct Hr as [Hr Sr].
  exists r. split; auto. split; auto. unfold sel, alter_sel in Sr. apply andb_true_iff in Sr. destruct Sr as [_ Sr].
  apply Z.eqb_eq in Sr. congruence.
Qed.

Lemma ns_serializable : serializable nsrow n_pk ns_same (nat * node) start ns_table_exec ok ready apart compat.
Proof.
  constructor.
  - intros t [k x] rows. unfold ConcModel.solo, begin, start, ns_add_child. cbn [x_prog x_writes x_locks x_found fst snd].
    destruct (hd_error _) as [nd|]; cbn [else_raise]; [|discriminate]. destruct (is_leaf nd); discriminate.
  - intros t [k x] y Ht Rd R E. apply reach_mid in R; auto. apply mid_lock in R. subst y. discriminate.
  - intros t [k x] y rows e Ht Rd M E. assert (Rd' := Rd). destruct Rd' as [(nd & Hn & Ek & _) Nx]. cbn [fst snd] in *.
    destruct (exec_eq t nd x Ht Hn Nx) as (r & Er & Ex). rewrite Ek in Ex. rewrite Ex.
    assert (U : forall nd', In nd' t -> n_pk nd' = k -> nd' = nd) by (intros; apply (row_unique t); auto; congruence).
    destruct M as [->|M].
    + rewrite (solo_first t k x nd Ht Hn Ek), Er in E. destruct (is_leaf nd); discriminate.
    + apply reach_mid in M; auto.
      destruct M as [nd' Hn' Ek' El|nd' r' Hn' Ek' Er'|nd' r' Hn' Ek' Er'|nd' r' Hn' Ek' Er'|nd' r' Hn' Ek' Er'];
        assert (nd' = nd) by auto; subst nd'; try (assert (r' = r) by congruence; subst r').
      * rewrite (solo_select t k x nd El), Er in E. discriminate.
      * discriminate.
      * rewrite solo_found in E. discriminate.
      * destruct (newrow_some t nd x Ht Hn) as (r' & Er2 & Ep & _). assert (r' = r) by congruence. subst r'.
        rewrite solo_insert in E by (auto; rewrite Ep; auto). discriminate.
      * rewrite solo_commit in E by auto. injection E as <- <-. reflexivity.
  - intros t [k x] t' Ht Rd E. eapply exec_keeps; eauto.
  - intros t t' [k x] [j z] Ht Rc Rd A E. destruct (exec_ok t j z t' Ht Rd E) as (kd & r & Hk & Ek & Et & _ & Ep & Er & ->).
    destruct Rc as [(nd & Hn & Ek' & Et') Nx]. cbn [fst snd] in *. split; cbn [fst snd].
    + exists (if sel kd nd then shift kd nd else nd). split; [right; unfold shifted; apply in_map_iff; exists nd; auto|].
      destruct (sel kd nd); auto.
    + cbn [map]. rewrite Ep, shifted_pks. intros [H|H]; auto. apply (proj1 A). cbn. auto.
  - intros t t' [k x] [j z] y Ht Rc Rd A C E R. unfold compat in C. cbn [fst] in C.
    assert (Rc' : ready t' (k, x)).
    { destruct (exec_ok t j z t' Ht Rd E) as (kd & r & Hk & Ek & Et & _ & Ep & Er & ->).
      destruct Rc as [(nd & Hn & Ek' & Et') Nx]. cbn [fst snd] in *. split; cbn [fst snd].
      - exists (if sel kd nd then shift kd nd else nd). split; [right; unfold shifted; apply in_map_iff; exists nd; auto|].
        destruct (sel kd nd); auto.
      - cbn [map]. rewrite Ep, shifted_pks. intros [H|H]; auto. apply (proj1 A). cbn. auto. }
    apply mid_reach; [eapply exec_keeps; eauto|auto|]. apply reach_mid in R; auto.
    assert (Nt : forall nd, In nd t -> n_pk nd = k -> n_tree nd <> treeof j).
    { intros nd Hn Ek. destruct Rc as [(nd0 & H0 & E0 & T0) _]. cbn [fst] in *.
      assert (nd = nd0) by (apply (row_unique t); auto; congruence). subst nd0. rewrite T0. destruct A as [_ [A|A]]; cbn in A; auto. }
    destruct R as [nd Hn Ek El|nd r Hn Ek Er|nd r Hn Ek Er|nd r Hn Ek Er|nd r Hn Ek Er];
      destruct (stable t j z t' nd Ht Rd E Hn (Nt nd Hn Ek)) as (K1 & K2 & K3 & K4); rewrite <- ?K2, <- ?K3.
    + apply mid_select; auto.
    + apply mid_update; auto. congruence.
    + apply mid_found; auto. congruence.
    + apply (mid_insert t' k x nd r); auto. congruence.
    + apply (mid_commit t' k x nd r); auto. congruence.
  - intros t [k x] [j z] y y' Ht Rc Rd A _ R Wt. apply reach_mid in R; auto.
    unfold waits, start, ns_add_child, begin in Wt. cbn [x_prog fst snd] in Wt. apply mid_lock in R.
    unfold compat. cbn. intros ->. congruence.
  - intros t [k x] [j z] y y' Ht Rc Rd A C R R'. unfold compat in C. cbn [fst] in C. apply reach_mid in R; auto. apply reach_mid in R'; auto.
    assert (Lk : forall i, In i (x_locks y') -> forall nd, In nd t -> n_pk nd = k -> ~ In i (found nd t)).
    { intros i Hi nd Hn Ek Hf. destruct (mid_locked t j z y' i R' Rd Ht Hi) as (r & Hr & Er & Et).
      unfold found in Hf. apply in_map_iff in Hf. destruct Hf as (r' & Er' & Hr'). apply filter_In in Hr'. destruct Hr' as [Hr' Sr].
      assert (r' = r) by (apply (row_unique t); auto; congruence). subst r'. unfold sel, alter_sel in Sr. apply andb_true_iff in Sr.
      destruct Sr as [_ Sr]. apply Z.eqb_eq in Sr. destruct Rc as [(nd0 & H0 & E0 & T0) _]. cbn [fst] in *.
      assert (nd = nd0) by (apply (row_unique t); auto; congruence). subst nd0. destruct A as [_ [A|A]]; cbn in A; congruence. }
    assert (Wr : forall w, In w (x_writes y') -> In (n_pk (written w)) (map n_pk t) \/ n_pk (written w) = nid z).
    { intros w Hw.
      assert (Pt : forall nd, In w (puts nd t) -> In (n_pk (written w)) (map n_pk t)).
      { intros nd H. unfold puts in H. apply in_map_iff in H. destruct H as (r & <- & Hr). apply filter_In in Hr. cbn. apply in_map, Hr. }
      destruct R' as [nd Hn Ek El|nd r Hn Ek Er|nd r Hn Ek Er|nd r Hn Ek Er|nd r Hn Ek Er]; cbn [x_writes] in Hw; try destruct Hw; eauto.
      rewrite in_app_iff in Hw. destruct Hw as [Hw|[<-|[]]]; eauto. right. cbn.
      destruct (newrow_some t nd z Ht Hn) as (r' & Er' & Ep & _). congruence. }
    destruct R as [nd Hn Ek El|nd r Hn Ek Er|nd r Hn Ek Er|nd r Hn Ek Er|nd r Hn Ek Er]; unfold waits; cbn [x_prog select_prog update_prog insert_prog x_found]; auto.
    + apply not_true_iff_false. intros E. apply existsb_exists in E. destruct E as (i & Hi & E). apply existsb_exists in E.
      destruct E as (i' & Hi' & E). apply Nat.eqb_eq in E. subst i'. apply (Lk i Hi' nd Hn Ek Hi).
    + apply not_true_iff_false. intros E. apply existsb_exists in E. destruct E as (w & Hw & E). apply Nat.eqb_eq in E.
      destruct (newrow_some t nd x Ht Hn) as (r' & Er' & Ep & _). assert (r' = r) by congruence. subst r'. rewrite Ep in E.
      destruct (Wr w Hw) as [H|H]; rewrite <- E in H; [apply (proj2 Rc); auto|apply (proj1 A); auto].
  - intros c d. unfold compat. auto.
Qed.
End NS.

Theorem ns_concurrent t F calls schedule : stores t F ->
  NoDup (map (fun c => nid (snd c)) calls) -> (forall c, In c calls -> In (fst c) (ids F) /\ ~ In (nid (snd c)) (ids F)) ->
  (forall c d r s, In c calls -> In d calls -> In r t -> In s t -> n_pk r = fst c -> n_pk s = fst d -> n_tree r = n_tree s -> fst c = fst d) ->
  let W := play n_pk ns_same (all_begin t (map start calls)) schedule in
  one_by_one ns_table_exec calls t (map fst (w_log W)) = (w_rows W, w_log W) /\ NoDup (map fst (w_log W)) /\
  Forall (fun e => snd e = None) (w_log W) /\
  stores (w_rows W) (fold_left (fun F c => sp_add_child None (fst c) (snd c) F) (succeeded calls (w_log W)) F) /\
  (finished W = true -> Permutation (map fst (w_log W)) (seq 0 (length calls))) /\
  exists schedule', finished (play n_pk ns_same W schedule') = true.
Proof.
  intros St ND Fr Tr W.
  set (treeof := fun k => match get_by_pk t k with Ok r => n_tree r | Err _ => 0%Z end).
  assert (Tof : forall r, In r t -> treeof (n_pk r) = n_tree r).
  { intros r Hr. unfold treeof. destruct St as (Wf & ts & I & P). rewrite (get_by_pk_in t F ts Wf I P r Hr). auto. }
  assert (Row : forall c, In c calls -> exists r, In r t /\ n_pk r = fst c).
  { intros c Hc. assert (H := proj1 (Fr c Hc)). rewrite (ids_iff t F _ St) in H. apply in_map_iff in H. destruct H as (r & Er & Hr). eauto. }
  assert (Ap : forall i j c d, i <> j -> nth_error calls i = Some c -> nth_error calls j = Some d -> apart treeof c d).
  { intros i j c d N Ec Ed. split.
    - intros Q. apply N. apply (proj1 (NoDup_nth_error _) ND).
      + rewrite map_length. apply nth_error_Some. congruence.
      + rewrite !nth_error_map, Ec, Ed. cbn. congruence.
    - apply nth_error_In in Ec. apply nth_error_In in Ed. destruct (Row c Ec) as (r & Hr & Er). destruct (Row d Ed) as (s & Hs & Es).
      destruct (Z.eq_dec (n_tree r) (n_tree s)) as [E|E]; [left; apply (Tr c d r s); auto|].
      right. rewrite <- Er, <- Es, !Tof by auto. auto. }
  assert (Rd : forall c, In c calls -> ready treeof t c).
  { intros c Hc. destruct (Row c Hc) as (r & Hr & Er). split; [exists r; rewrite <- Er, Tof; auto|].
    rewrite <- (ids_iff t F _ St). apply Fr. auto. }
  clearbody treeof. assert (Ok0 : ok t) by (exists F; auto).
  destruct (reached_serial nsrow n_pk ns_same _ start ns_table_exec ok (ready treeof) (apart treeof) compat (ns_serializable treeof) calls t Ap
    Ok0 Rd schedule) as (H1 & _ & H3 & H4 & H5). fold W in H1, H3, H4, H5.
  split; auto. split; auto.
  assert (K : forall order t F t' log, stores t F -> NoDup order -> (forall i c, In i order -> nth_error calls i = Some c -> ready treeof t c) ->
    one_by_one ns_table_exec calls t order = (t', log) -> Forall (fun e => snd e = None) log /\
    stores t' (fold_left (fun F c => sp_add_child None (fst c) (snd c) F) (succeeded calls log) F)).
  { clear - ND Ap. induction order as [|i order IH]; intros t F t' log St NO Rd E; cbn [one_by_one] in E.
    - injection E as <- <-. auto.
    - apply NoDup_cons_iff in NO. destruct NO as [Ni NO]. destruct (nth_error calls i) as [c|] eqn:Ec.
      2:{ apply (IH t F t' log); auto. intros; eapply Rd; eauto; right; auto. }
      assert (Rc := Rd i c (or_introl eq_refl) Ec). assert (Ht : ok t) by (exists F; auto).
      destruct c as [k x]. assert (Rc' := Rc). destruct Rc' as [(nd & Hn & Ek & _) Nx]. cbn [fst snd] in *.
      destruct (exec_eq t nd x Ht Hn Nx) as (r & _ & Ex). rewrite Ek in Ex. rewrite Ex in E.
      destruct (one_by_one ns_table_exec calls (r :: shifted nd t) order) as [rr l] eqn:E2. injection E as <- <-.
      unfold succeeded. cbn [flat_map fst snd]. rewrite Ec. cbn [app fold_left fst snd]. fold (succeeded calls l).
      destruct (IH (r :: shifted nd t) (sp_add_child None k x F) rr l) as [K1 K2]; auto.
      + assert (Fr : fresh_call F (CAddChild k x)) by (intros j [<-|[]]; rewrite (ids_iff t F _ St); exact Nx).
        assert (A := ns_call_ok [] (mkNSDB t []) F (CAddChild k x) St Fr). unfold ns_table_exec in Ex. cbn [fst snd] in Ex.
        destruct (ns_exec [] (mkNSDB t []) (CAddChild k x)) as [db|]; [|discriminate]. cbn [bind] in Ex. injection Ex as <-.
        unfold sp_exec in A. assert (Hk : has k F = true) by (apply has_spec; rewrite (ids_iff t F _ St), <- Ek; apply in_map; auto).
        rewrite Hk in A. exact A.
      + intros j d Hj Ed. apply (s_ready _ _ _ _ _ _ _ _ _ _ (ns_serializable treeof) t _ d (k, x)); auto.
        * apply (Rd j); auto. right. auto.
        * apply (Ap j i); auto. intros ->. auto. }
  destruct (K _ t F (w_rows W) (w_log W) St H3) as [K1 K2]; auto.
  intros i c _ Ec. apply Rd. eapply nth_error_In; eauto.
Qed.
