(** Concurrent add_child calls on ltree trees without node_order_by (C41). *)
From Coq Require Import List Arith Lia Bool ZArith Permutation.
From Verif Require Import Prelude Forest SpecFacts SpecSane CommonModel Order History SpecRun
  LTModel LTInv LTAdd LTCheck LTHist PropsLT ConcModel ConcRun.
Import ListNotations.
Local Open Scope nat_scope.

Section LT.
Variable cfg : lt_cfg.
Hypothesis unsorted : lt_order cfg = [].

Definition lt_table_exec (t : lt_table) (c : nat * node) : res lt_table :=
  do db <- lt_exec cfg (mkLTDB t []) (CAddChild (fst c) (snd c)); Ok (lt_rows db).

Definition ok (t : lt_table) : Prop := NoDup (map l_pk t) /\ NoDup (map l_path t).
Definition ready (t : lt_table) (c : nat * node) : Prop := ~ In (nid (snd c)) (map l_pk t).
Definition apart (c d : nat * node) : Prop := nid (snd c) <> nid (snd d).
Definition compat (c d : nat * node) : Prop := fst c <> fst d.
Definition start (c : nat * node) := lt_add_child cfg (fst c) (snd c).

Definition newpath (t : lt_table) (nd : ltrow) : res lpath :=
  do np <- (if is_leaf t nd then generate_path (l_path nd) None None []
    else do last <- opt_res (get_last_child t nd) AttributeError;
         generate_path (l_path nd) None (Some (last_label (l_path last))) (map l_path (get_children t nd)));
  if fits_ltree cfg np then Ok np else Err DataError.

Definition newrow (x : node) (np : lpath) : ltrow := mkLT (nid x) np (ndata x).

Lemma not_sorted : is_sorted cfg = false.
Proof. unfold is_sorted. rewrite unsorted. reflexivity. Qed.

Lemma filter_pk t k : NoDup (map l_pk t) -> forall nd, In nd t -> l_pk nd = k -> filter (fun r => l_pk r =? k) t = [nd].
Proof.
  induction t as [|a t IH]; intros N nd Hn E; [destruct Hn|]. cbn in N. apply NoDup_cons_iff in N. destruct N as [N1 N2].
  cbn. destruct Hn as [->|Hn].
  - subst k. rewrite Nat.eqb_refl. f_equal. clear IH N2. induction t as [|b t IH]; auto. cbn in *.
    destruct (Nat.eqb_spec (l_pk b) (l_pk nd)) as [E|]; [exfalso; apply N1; auto|]. apply IH. tauto.
  - destruct (Nat.eqb_spec (l_pk a) k) as [E1|]; [|apply IH; auto]. exfalso. apply N1. subst k. rewrite E1.
    apply in_map. auto.
Qed.

Lemma row_unique t a b : NoDup (map l_pk t) -> In a t -> In b t -> l_pk a = l_pk b -> a = b.
Proof.
  intros N Ha Hb E. assert (Fa := filter_pk t (l_pk b) N a Ha E). rewrite (filter_pk t (l_pk b) N b Hb eq_refl) in Fa. congruence.
Qed.

Lemma unique_paths_iff t : unique_paths t = true <-> NoDup (map l_path t).
Proof.
  induction t as [|r t IH]; cbn; [split; auto; constructor|]. rewrite andb_true_iff, negb_true_iff, IH, NoDup_cons_iff.
  apply and_iff_compat_r. rewrite <- not_true_iff_false. apply not_iff_compat. rewrite existsb_exists, in_map_iff.
  split; intros (a & H1 & H2); exists a; [apply peq_iff in H2; auto|split; auto; apply peq_iff; auto].
Qed.

Lemma newpath_parent t nd np : newpath t nd = Ok np -> exists l, np = l_path nd ++ [l].
Proof.
  unfold newpath. intros H.
  assert (G : forall b a s np, generate_path (l_path nd) b a s = Ok np -> exists l, np = l_path nd ++ [l]).
  { intros b a s q. unfold generate_path. destruct (generate_label _ b a) as [l|]; cbn [bind]; [|discriminate].
    intros E. injection E as <-. eauto. }
  destruct (is_leaf t nd).
  - destruct (generate_path _ None None []) as [q|] eqn:E; cbn [bind] in H; [|discriminate].
    destruct (fits_ltree cfg q); [|discriminate]. injection H as <-. eauto.
  - destruct (get_last_child t nd) as [last|]; cbn [opt_res bind] in H; [|discriminate].
    destruct (generate_path _ None _ _) as [q|] eqn:E; cbn [bind] in H; [|discriminate].
    destruct (fits_ltree cfg q); [|discriminate]. injection H as <-. eauto.
Qed.

(** What the call alone does. *)
Lemma exec_eq t k x : ok t -> ready t (k, x) -> lt_table_exec t (k, x) =
  match filter (fun r => l_pk r =? k) t with
  | [] => Err DoesNotExist
  | nd :: _ =>
      do np <- newpath t nd;
      if existsb (lt_same (newrow x np)) t then Err IntegrityError else Ok (newrow x np :: t)
  end.
Proof.
  intros [N1 N2] Rd. unfold ready in Rd. cbn [snd] in Rd.
  unfold lt_table_exec, lt_exec. cbn [fst snd lt_rows]. unfold get_by_pk at 1.
  destruct (filter (fun r => l_pk r =? k) t) as [|nd l] eqn:Ef; auto. cbn [bind].
  assert (Hn : In nd t /\ l_pk nd = k).
  { assert (H : In nd (filter (fun r => l_pk r =? k) t)) by (rewrite Ef; left; auto). apply filter_In in H.
    destruct H as [H1 H2]. apply Nat.eqb_eq in H2. auto. }
  destruct Hn as [Hn Ek]. unfold add_child, get_by_pk. cbn [lt_rows lt_sig]. rewrite Ek, Ef. cbn [bind].
  rewrite not_sorted. cbn [andb]. unfold newpath.
  destruct (if is_leaf t nd then _ else _) as [np|e]; cbn [bind]; auto.
  change (mkLT (new_pk (new_of x)) np (new_data (new_of x))) with (newrow x np).
  unfold save_row. cbn [l_path newrow]. destruct (fits_ltree cfg np); cbn [negb bind]; auto.
  assert (Npk : existsb (fun a => l_pk a =? l_pk (newrow x np)) t = false).
  { apply not_true_iff_false. intros Ex. apply existsb_exists in Ex. destruct Ex as (a & Ha & Ea).
    apply Nat.eqb_eq in Ea. apply Rd. cbn in Ea. rewrite <- Ea. apply in_map. auto. }
  rewrite Npk. cbn [bind]. unfold commit. cbn [lt_rows unique_paths]. rewrite (proj2 (unique_paths_iff t) N2), andb_true_r.
  assert (Es : existsb (lt_same (newrow x np)) t = existsb (fun a => peq (l_path a) (l_path (newrow x np))) t).
  { clear - Npk. induction t as [|a t IH]; auto. cbn [existsb] in *. apply orb_false_iff in Npk. destruct Npk as [E1 E2].
    rewrite IH; auto. f_equal. unfold lt_same. rewrite Nat.eqb_sym, E1. cbn [orb]. apply eq_true_iff_eq. rewrite !peq_iff.
    split; auto. }
  rewrite Es. destruct (existsb (fun a => peq (l_path a) (l_path (newrow x np))) t); reflexivity.
Qed.

(** The states in the middle of the call. *)
Definition last_select (k : nat) (x : node) (nd : ltrow) : prog ltrow :=
  Select (fun t => else_raise (get_last_child t nd) AttributeError (fun last =>
    Select (fun t => or_raise (generate_path (l_path nd) None (Some (last_label (l_path last)))
                                 (map l_path (get_children t nd))) (lt_insert cfg x)))).
Definition skip_select (x : node) (nd last : ltrow) : prog ltrow :=
  Select (fun t => or_raise (generate_path (l_path nd) None (Some (last_label (l_path last)))
                               (map l_path (get_children t nd))) (lt_insert cfg x)).
Definition leaf_select (k : nat) (x : node) (nd : ltrow) : prog ltrow :=
  Select (fun t => if is_leaf t nd then or_raise (generate_path (l_path nd) None None []) (lt_insert cfg x) else last_select k x nd).

Inductive mid (t : lt_table) (k : nat) (x : node) : tx ltrow -> Prop :=
| mid_leaf nd : In nd t -> l_pk nd = k -> mid t k x (mkTx (leaf_select k x nd) [] [k] None)
| mid_last nd : In nd t -> l_pk nd = k -> is_leaf t nd = false -> mid t k x (mkTx (last_select k x nd) [] [k] None)
| mid_skip nd last : In nd t -> l_pk nd = k -> is_leaf t nd = false -> get_last_child t nd = Some last ->
    mid t k x (mkTx (skip_select x nd last) [] [k] None)
| mid_insert nd np : In nd t -> l_pk nd = k -> newpath t nd = Ok np ->
    mid t k x (mkTx (Insert (newrow x np) Commit) [] [k] None)
| mid_commit nd np : In nd t -> l_pk nd = k -> newpath t nd = Ok np -> existsb (lt_same (newrow x np)) t = false ->
    mid t k x (mkTx Commit [New (newrow x np)] [k] None).

Notation solo := (solo l_pk lt_same).

Lemma solo_first t k x : solo t (begin (start (k, x))) =
  match filter (fun r => l_pk r =? k) t with
  | [] => End t (Some DoesNotExist)
  | nd :: _ => Go (mkTx (leaf_select k x nd) [] [k] None)
  end.
Proof.
  unfold ConcModel.solo, begin, start, lt_add_child, visible. cbn [x_prog x_writes x_locks x_found fst snd fold_left].
  destruct (filter (fun r => l_pk r =? k) t) as [|nd l]; cbn [hd_error else_raise]; auto.
Qed.

Definition to_insert (t : lt_table) (k : nat) (x : node) (r : res lpath) : outcome ltrow :=
  match r with Ok np => Go (mkTx (Insert (newrow x np) Commit) [] [k] None) | Err e => End t (Some e) end.

Lemma insert_step t k x r : goes t (or_raise r (lt_insert cfg x)) [] [k] =
  to_insert t k x (do np <- r; if fits_ltree cfg np then Ok np else Err DataError).
Proof. destruct r as [np|e]; cbn [or_raise bind]; auto. unfold lt_insert. destruct (fits_ltree cfg np); auto. Qed.

Lemma solo_leaf t k x nd : solo t (mkTx (leaf_select k x nd) [] [k] None) =
  if is_leaf t nd then to_insert t k x (newpath t nd) else Go (mkTx (last_select k x nd) [] [k] None).
Proof.
  unfold ConcModel.solo, leaf_select, visible, newpath. cbn [x_prog x_writes x_locks x_found fold_left].
  destruct (is_leaf t nd); [apply insert_step|reflexivity].
Qed.

Lemma solo_last t k x nd : solo t (mkTx (last_select k x nd) [] [k] None) =
  match get_last_child t nd with
  | None => End t (Some AttributeError)
  | Some last => Go (mkTx (skip_select x nd last) [] [k] None)
  end.
Proof.
  unfold ConcModel.solo, last_select, visible. cbn [x_prog x_writes x_locks x_found fold_left].
  destruct (get_last_child t nd); reflexivity.
Qed.

Lemma solo_skip t k x nd last : is_leaf t nd = false -> get_last_child t nd = Some last ->
  solo t (mkTx (skip_select x nd last) [] [k] None) = to_insert t k x (newpath t nd).
Proof.
  intros El Ea. unfold ConcModel.solo, skip_select, visible, newpath. cbn [x_prog x_writes x_locks x_found fold_left].
  rewrite insert_step, El, Ea. reflexivity.
Qed.

Lemma solo_insert t k x np : solo t (mkTx (Insert (newrow x np) Commit) [] [k] None) =
  if existsb (lt_same (newrow x np)) t then End t (Some IntegrityError) else Go (mkTx Commit [New (newrow x np)] [k] None).
Proof. reflexivity. Qed.

Lemma solo_commit t k x np : solo t (mkTx Commit [New (newrow x np)] [k] None) = End (newrow x np :: t) None.
Proof. reflexivity. Qed.

Notation reach := (reach ltrow l_pk lt_same (nat * node) start).

Lemma reach_mid t k x y : reach t (k, x) y -> mid t k x y.
Proof.
  induction 1 as [y E1|y y' R IH E1].
  - rewrite solo_first in E1. destruct (filter _ t) as [|nd l] eqn:Ef; [discriminate|]. injection E1 as <-.
    assert (H : In nd (filter (fun r => l_pk r =? k) t)) by (rewrite Ef; left; auto). apply filter_In in H.
    destruct H as [H1 H2]. apply Nat.eqb_eq in H2. apply mid_leaf; auto.
  - destruct IH as [nd Hn Ek|nd Hn Ek El|nd last Hn Ek El Ea|nd np Hn Ek En|nd np Hn Ek En Ex].
    + rewrite solo_leaf in E1. destruct (is_leaf t nd) eqn:El.
      * destruct (newpath t nd) as [np|e] eqn:En; [|discriminate]. injection E1 as <-. eapply mid_insert; eauto.
      * injection E1 as <-. apply mid_last; auto.
    + rewrite solo_last in E1. destruct (get_last_child t nd) as [last|] eqn:Ea; [|discriminate].
      injection E1 as <-. apply mid_skip; auto.
    + rewrite (solo_skip t k x nd last El Ea) in E1. destruct (newpath t nd) as [np|e] eqn:En; [|discriminate].
      injection E1 as <-. eapply mid_insert; eauto.
    + rewrite solo_insert in E1. destruct (existsb _ t) eqn:Ex; [discriminate|]. injection E1 as <-. eapply mid_commit; eauto.
    + discriminate.
Qed.

Lemma mid_reach t k x y : ok t -> mid t k x y -> reach t (k, x) y.
Proof.
  intros [N _].
  assert (K1 : forall nd, In nd t -> l_pk nd = k -> reach t (k, x) (mkTx (leaf_select k x nd) [] [k] None)).
  { intros nd Hn Ek. apply reach_first. rewrite solo_first, (filter_pk t k N nd Hn Ek). reflexivity. }
  assert (K2 : forall nd, In nd t -> l_pk nd = k -> is_leaf t nd = false -> reach t (k, x) (mkTx (last_select k x nd) [] [k] None)).
  { intros nd Hn Ek El. eapply reach_next; [apply K1; eauto|]. rewrite solo_leaf, El. reflexivity. }
  assert (K3 : forall nd last, In nd t -> l_pk nd = k -> is_leaf t nd = false -> get_last_child t nd = Some last ->
    reach t (k, x) (mkTx (skip_select x nd last) [] [k] None)).
  { intros nd last Hn Ek El Ea. eapply reach_next; [apply K2; eauto|]. rewrite solo_last, Ea. reflexivity. }
  assert (K4 : forall nd np, In nd t -> l_pk nd = k -> newpath t nd = Ok np ->
    reach t (k, x) (mkTx (Insert (newrow x np) Commit) [] [k] None)).
  { intros nd np Hn Ek En. destruct (is_leaf t nd) eqn:El.
    - eapply reach_next; [apply K1; eauto|]. rewrite solo_leaf, El, En. reflexivity.
    - destruct (get_last_child t nd) as [last|] eqn:Ea.
      + eapply reach_next; [apply (K3 nd last); auto|]. rewrite solo_skip, En by auto. reflexivity.
      + unfold newpath in En. rewrite El, Ea in En. discriminate. }
  intros [nd Hn Ek|nd Hn Ek El|nd last Hn Ek El Ea|nd np Hn Ek En|nd np Hn Ek En Ex]; eauto.
  eapply reach_next; [eapply K4; eauto|]. rewrite solo_insert, Ex. reflexivity.
Qed.

Lemma exec_ok t k x t' : ok t -> ready t (k, x) -> lt_table_exec t (k, x) = Ok t' ->
  exists nd np, In nd t /\ l_pk nd = k /\ newpath t nd = Ok np /\ existsb (lt_same (newrow x np)) t = false /\ t' = newrow x np :: t.
Proof.
  intros Ht Rd E. rewrite exec_eq in E by auto. destruct (filter _ t) as [|nd l] eqn:Ef; [discriminate|].
  assert (H : In nd (filter (fun r => l_pk r =? k) t)) by (rewrite Ef; left; auto). apply filter_In in H.
  destruct H as [H1 H2]. apply Nat.eqb_eq in H2. destruct (newpath t nd) as [np|] eqn:En; [|discriminate]. cbn [bind] in E.
  destruct (existsb (lt_same (newrow x np)) t) eqn:Ex; [discriminate|]. injection E as <-. exists nd, np. auto 6.
Qed.

(** Another call does not change what this one reads. *)
Lemma children_stable t x np nd kd : ok t -> In kd t -> newpath t kd = Ok np -> In nd t -> l_pk nd <> l_pk kd -> 
  get_children (newrow x np :: t) nd = get_children t nd.
Proof.
  intros [N1 N2] Hk En Hn Ne. unfold get_children. f_equal. cbn [filter].
  destruct (ppre (l_path nd) (l_path (newrow x np)) && _) eqn:E; auto. exfalso. apply Ne.
  apply andb_true_iff in E. destruct E as [E1 E2]. apply ppre_iff in E1. destruct E1 as [z Ez]. apply Nat.eqb_eq in E2.
  cbn [newrow l_path] in Ez, E2. destruct (newpath_parent t kd np En) as [l ->].
  assert (l_path kd = l_path nd).
  { rewrite Ez, app_length in E2. destruct z as [|a [|b z]]; cbn in E2; try lia.
    apply app_inj_tail in Ez. tauto. }
  f_equal. eapply NoDup_map_inj; [exact N2| | |]; auto.
Qed.

Lemma newpath_stable t k x t' nd : ok t -> ready t (k, x) -> lt_table_exec t (k, x) = Ok t' ->
  In nd t -> l_pk nd <> k -> In nd t' /\ is_leaf t' nd = is_leaf t nd /\ get_last_child t' nd = get_last_child t nd /\
  newpath t' nd = newpath t nd.
Proof.
  intros Ht Rd E Hn Nk. destruct (exec_ok t k x t' Ht Rd E) as (kd & np & Hk & Ek & En & _ & ->).
  assert (C : get_children (newrow x np :: t) nd = get_children t nd).
  { apply (children_stable t x np nd kd); auto. congruence. }
  split; [right; auto|]. unfold newpath, is_leaf, get_last_child. rewrite C. auto.
Qed.

Lemma mid_locks t k x y j : mid t k x y -> existsb (Nat.eqb j) (x_locks y) = (j =? k).
Proof.
  intros [nd Hn Ek|nd Hn Ek El|nd last Hn Ek El Ea|nd np Hn Ek En|nd np Hn Ek En Ex]; cbn; destruct (j =? k); auto.
Qed.

Lemma lt_serializable : serializable ltrow l_pk lt_same (nat * node) start lt_table_exec ok ready apart compat.
Proof.
  assert (Rdy : forall t t' k x j z, ok t -> ready t (k, x) -> ready t (j, z) -> apart (k, x) (j, z) ->
    lt_table_exec t (j, z) = Ok t' -> ready t' (k, x)).
  { intros t t' k x j z Ht Rc Rd A E. destruct (exec_ok t j z t' Ht Rd E) as (nd & np & _ & _ & _ & _ & ->).
    unfold ready, apart in *. cbn [fst snd] in *. cbn [map newrow l_pk]. intros [H|H]; [congruence|]. auto. }
  assert (Oky : forall t c t', ok t -> ready t c -> lt_table_exec t c = Ok t' -> ok t').
  { intros t [k x] t' Ht Rd E. destruct (exec_ok t k x t' Ht Rd E) as (nd & np & _ & _ & _ & Ex & ->). destruct Ht as [N1 N2].
    split; cbn [map newrow l_pk l_path]; constructor; auto. intros H. apply in_map_iff in H. destruct H as (a & Ea & Ha).
    apply not_true_iff_false in Ex. apply Ex. apply existsb_exists. exists a. split; auto. unfold lt_same.
    apply orb_true_iff. right. apply peq_iff. auto. }
  constructor.
  - intros t [k x] rows. rewrite solo_first. destruct (filter _ t) as [|nd l]; discriminate.
  - intros t [k x] y Ht Rd R E. apply (reach_mid t k x y) in R. apply (mid_locks t k x y k) in R.
    rewrite Nat.eqb_refl in R. subst y. discriminate.
  - intros t [k x] y rows e Ht Rd M E. assert (N : NoDup (map l_pk t)) by apply Ht. rewrite exec_eq by auto.
    destruct M as [->|M].
    + rewrite solo_first in E. destruct (filter _ t) as [|nd l]; [|discriminate]. injection E as <- <-. auto.
    + apply (reach_mid t k x y) in M.
      destruct M as [nd Hn Ek|nd Hn Ek El|nd last Hn Ek El Ea|nd np Hn Ek En|nd np Hn Ek En Ex]; rewrite (filter_pk t k N nd Hn Ek).
      * rewrite solo_leaf in E. destruct (is_leaf t nd); [|discriminate].
        destruct (newpath t nd) as [np|e']; [discriminate|]. injection E as <- <-. auto.
      * rewrite solo_last in E. destruct (get_last_child t nd) as [last|] eqn:Ea; [discriminate|]. injection E as <- <-.
        unfold newpath. rewrite El, Ea. auto.
      * rewrite (solo_skip t k x nd last El Ea) in E. destruct (newpath t nd) as [np|e']; [discriminate|]. injection E as <- <-. auto.
      * rewrite solo_insert in E. rewrite En. cbn [bind]. destruct (existsb (lt_same (newrow x np)) t); [|discriminate]. injection E as <- <-. auto.
      * rewrite solo_commit in E. injection E as <- <-. rewrite En. cbn [bind]. rewrite Ex. auto.
  - auto.
  - intros t t' [k x] [j z] Ht Rc Rd A E. eapply Rdy; eauto.
  - intros t t' [k x] [j z] y Ht Rc Rd A C E R. unfold compat in C. cbn [fst] in C.
    apply mid_reach; [eapply Oky; eauto|]. apply reach_mid in R.
    assert (K : forall nd, In nd t -> l_pk nd = k -> In nd t' /\ is_leaf t' nd = is_leaf t nd /\ get_last_child t' nd = get_last_child t nd /\ newpath t' nd = newpath t nd).
    { intros nd Hn Ek. apply (newpath_stable t j z t' nd Ht Rd E Hn). congruence. }
    assert (Cl : forall nd np, In nd t -> l_pk nd = k -> newpath t nd = Ok np -> existsb (lt_same (newrow x np)) t = false -> existsb (lt_same (newrow x np)) t' = false).
    { intros nd np Hn Ek En Ex. destruct (exec_ok t j z t' Ht Rd E) as (kd & np' & Hk & Ej & En' & _ & ->). cbn [existsb]. rewrite Ex, orb_false_r.
      apply not_true_iff_false. intros Q. unfold lt_same in Q. apply orb_true_iff in Q. destruct Q as [Q|Q].
      - apply Nat.eqb_eq in Q. apply A. exact Q.
      - apply peq_iff in Q. cbn in Q. destruct (newpath_parent _ _ _ En) as [l ->]. destruct (newpath_parent _ _ _ En') as [l' ->].
        apply app_inj_tail in Q. destruct Q as [Q _]. apply C. rewrite <- Ek, <- Ej. f_equal. eapply NoDup_map_inj; [apply (proj2 Ht)| | |]; auto. }
    destruct R as [nd Hn Ek|nd Hn Ek El|nd last Hn Ek El Ea|nd np Hn Ek En|nd np Hn Ek En Ex]; destruct (K nd Hn Ek) as (K1 & K2 & K3 & K4).
    + apply mid_leaf; auto.
    + apply mid_last; auto. congruence.
    + apply mid_skip; auto; congruence.
    + eapply mid_insert; eauto; congruence.
    + eapply mid_commit; eauto; congruence.
  - intros t [k x] [j z] y y' Ht Rc Rd A _ R Wt. apply reach_mid in R.
    unfold waits, start, lt_add_child, begin in Wt. cbn [x_prog fst snd] in Wt. rewrite (mid_locks t j z y' k R) in Wt.
    unfold compat. cbn. apply Nat.eqb_neq. auto.
  - intros t [k x] [j z] y y' Ht Rc Rd A C R R'. unfold compat in C. cbn [fst] in C.
    apply reach_mid in R. apply reach_mid in R'.
    destruct R as [nd Hn Ek|nd Hn Ek El|nd last Hn Ek El Ea|nd np Hn Ek En|nd np Hn Ek En Ex]; unfold waits; cbn [x_prog]; auto.
    destruct R' as [kd Hk Ej|kd Hk Ej El|kd last Hk Ej El Ea|kd np' Hk Ej En'|kd np' Hk Ej En' Ex]; cbn [x_writes existsb written]; auto.
    rewrite orb_false_r. apply not_true_iff_false. intros Q. unfold lt_same in Q. apply orb_true_iff in Q. destruct Q as [Q|Q].
    + apply Nat.eqb_eq in Q. apply A. exact Q.
    + apply peq_iff in Q. cbn in Q. destruct (newpath_parent _ _ _ En) as [l ->]. destruct (newpath_parent _ _ _ En') as [l' ->].
      apply app_inj_tail in Q. destruct Q as [Q _]. apply C. rewrite <- Ek, <- Ej. f_equal. eapply NoDup_map_inj; [apply (proj2 Ht)| | |]; auto.
  - intros c d. unfold compat. auto.
Qed.

Lemma stores_ok t F : stores cfg t F -> ok t.
Proof.
  intros St. destruct (proj1 (stores_iff cfg t) (ex_intro _ F St)) as [[_ H _] N]. split; auto.
Qed.
Lemma ids_iff t F k : stores cfg t F -> In k (ids F) <-> In k (map l_pk t).
Proof.
  intros (f & L & <- & W). split; intros H.
  - apply (Permutation_in _ (Permutation_sym (lay_pks cfg _ _ L))); auto.
  - apply (Permutation_in _ (lay_pks cfg _ _ L)); auto.
Qed.

Hypothesis label2 : 2 <= label_max cfg.

Lemma exec_stores t F k x t' : stores cfg t F -> ready t (k, x) -> lt_table_exec t (k, x) = Ok t' ->
  stores cfg t' (sp_add_child None k x F).
Proof.
  intros St Rd E. unfold lt_table_exec in E. cbn [fst snd] in E.
  destruct (lt_exec cfg (mkLTDB t []) (CAddChild k x)) as [db|] eqn:E1; [|discriminate]. cbn [bind] in E. injection E as <-.
  assert (Fr : fresh_call F (CAddChild k x)).
  { intros i [<-|[]]. rewrite (ids_iff t F _ St). exact Rd. }
  destruct (C30_call_partial cfg (mkLTDB t []) F (CAddChild k x) label2 St Fr) as [(db' & F' & S' & E2 & E3 & E4 & _ & E6)|[(e & E2 & _)|[[E2 _]|[E2 _]]]]; try congruence.
  assert (db' = db) by congruence. subst db'. rewrite E6 in E4.
  - unfold sp_exec in E3. rewrite unsorted in E3. destruct (has k F); [|discriminate].
    assert (S' = sp_add_child None k x F) by (injection E3 as <-; reflexivity). subst S'. auto.
  - cbn. intros r Hr Er. unfold calm_child. rewrite not_sorted. exact Logic.I.
Qed.

Lemma one_by_one_stores calls : (forall i j c d, i <> j -> nth_error calls i = Some c -> nth_error calls j = Some d -> apart c d) ->
  forall order t F t' log, stores cfg t F -> NoDup order ->
  (forall i c, In i order -> nth_error calls i = Some c -> ready t c) ->
  one_by_one lt_table_exec calls t order = (t', log) ->
  stores cfg t' (fold_left (fun F c => sp_add_child None (fst c) (snd c) F) (succeeded calls log) F).
Proof.
  intros Ap. induction order as [|i order IH]; intros t F t' log St ND Rd E; cbn in E.
  - injection E as <- <-. auto.
  - apply NoDup_cons_iff in ND. destruct ND as [Ni ND]. destruct (nth_error calls i) as [c|] eqn:Ec.
    2:{ apply (IH t F t' log); auto. intros; eapply Rd; eauto; right; auto. }
    assert (Rc := Rd i c (or_introl eq_refl) Ec).
    destruct (lt_table_exec t c) as [t1|e] eqn:E1.
    + destruct (one_by_one lt_table_exec calls t1 order) as [r l] eqn:E2. injection E as <- <-.
      unfold succeeded. cbn [flat_map fst snd]. rewrite Ec. cbn [app fold_left]. fold (succeeded calls l).
      destruct c as [k x]. apply (IH t1 _ r l); auto; [apply (exec_stores t F k x t1); auto|]. intros j d Hj Ed.
      apply (s_ready _ _ _ _ _ _ _ _ _ _ lt_serializable t t1 d (k, x)); auto.
      * eapply stores_ok; eauto.
      * apply (Rd j); auto. right. auto.
      * apply (Ap j i); auto. intros ->. auto.
    + destruct (one_by_one lt_table_exec calls t order) as [r l] eqn:E2. injection E as <- <-.
      unfold succeeded. cbn [flat_map fst snd app]. fold (succeeded calls l).
      apply (IH t F r l); auto. intros; eapply Rd; eauto; right; auto.
Qed.

Theorem lt_concurrent t F calls schedule : stores cfg t F ->
  NoDup (map (fun c => nid (snd c)) calls) -> (forall c, In c calls -> ~ In (nid (snd c)) (ids F)) ->
  let W := play l_pk lt_same (all_begin t (map start calls)) schedule in
  one_by_one lt_table_exec calls t (map fst (w_log W)) = (w_rows W, w_log W) /\ NoDup (map fst (w_log W)) /\
  stores cfg (w_rows W) (fold_left (fun F c => sp_add_child None (fst c) (snd c) F) (succeeded calls (w_log W)) F) /\
  (finished W = true -> Permutation (map fst (w_log W)) (seq 0 (length calls))) /\
  exists schedule', finished (play l_pk lt_same W schedule') = true.
Proof.
  intros St ND Fr W.
  assert (Ap : forall i j c d, i <> j -> nth_error calls i = Some c -> nth_error calls j = Some d -> apart c d).
  { intros i j c d N Ec Ed Q. apply N. apply (proj1 (NoDup_nth_error _) ND).
    - rewrite map_length. apply nth_error_Some. congruence.
    - rewrite !nth_error_map, Ec, Ed. cbn. congruence. }
  assert (Rd : forall c, In c calls -> ready t c).
  { intros c Hc. unfold ready. rewrite <- (ids_iff t F _ St). auto. }
  destruct (reached_serial ltrow l_pk lt_same _ start lt_table_exec ok ready apart compat lt_serializable calls t Ap
    (stores_ok t F St) Rd schedule) as (H1 & _ & H3 & H4 & H5). fold W in H1, H3, H4, H5.
  split; auto. split; auto. split; auto.
  apply (one_by_one_stores calls Ap _ t F _ _ St H3) in H1; auto.
  intros i c _ Ec. apply Rd. eapply nth_error_In; eauto.
Qed.
End LT.
