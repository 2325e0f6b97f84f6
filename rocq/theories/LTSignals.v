(** The signals of ltree trees describe every change of paths (C46). *)
From Coq Require Import String List Arith ZArith Lia Bool Permutation.
From Verif Require Import Prelude Forest SpecFacts PathTab CommonModel Order History LTModel LTLabel LTInv LTShift LTCheck.
Import ListNotations.

(** ** A listener
    It keeps primary key and path of the nodes and applies each signal as documented in
    /repo/docs/source/ltree.rst:106-167, together with post_save (which Django sends
    from save() of a new or moved node). *)
Definition copy := list (nat * lpath).
Definition copy_of (t : lt_table) : copy := map (fun r => (l_pk r, l_path r)) t.

Inductive event := Sent (s : lt_signal) | Saved (pk : nat) (p : lpath).

(** /repo/docs/source/ltree.rst:119-128: the label in the place of the last one of [p] gets
    an 'A' if it is not smaller and all labels before it are those of [p]. *)
Fixpoint right1 (p q : lpath) : lpath :=
  match p, q with
  | [l0], l :: rest => if lblt l l0 then q else (l ++ [chA]) :: rest
  | x :: p', y :: q' => if lbeq x y then y :: right1 p' q' else q
  | _, _ => q
  end.

(** /repo/docs/source/ltree.rst:140-149 *)
Definition moved1 (old new q : lpath) : lpath := if ppre old q then new ++ skipn (length old) q else q.

Definition hear (c : copy) (e : event) : copy :=
  match e with
  | Sent (MovedRight p) => map (fun x => (fst x, right1 p (snd x))) c
  | Sent (Moved old new) => map (fun x => (fst x, moved1 old new (snd x))) c
  | Sent (Deleted ps) => filter (fun x => negb (existsb (fun p => ppre p (snd x)) ps)) c
  | Saved pk p => if existsb (fun x => fst x =? pk) c
                  then map (fun x => if fst x =? pk then (pk, p) else x) c
                  else (pk, p) :: c
  end.

(** ** Appending the letter *)
Lemma lbeq_refl x : lbeq x x = true.
Proof. apply lbeq_iff. auto. Qed.

Lemma right1_app q l0 s x : right1 (q ++ [l0]) (q ++ s :: x) = q ++ (if lblt s l0 then s else s ++ [chA]) :: x.
Proof.
  induction q as [|a q IH].
  - cbn. destruct (lblt s l0); auto.
  - cbn [app right1]. destruct (q ++ [l0]) as [|c r] eqn:E; [destruct q; discriminate|]. rewrite lbeq_refl, IH. auto.
Qed.

Lemma right1_out q : forall l0 r, ppre q r = false -> right1 (q ++ [l0]) r = r.
Proof.
  induction q as [|a q IH]; intros l0 r H.
  - exfalso. enough (ppre [] r = true) by congruence. apply ppre_iff. exists r. auto.
  - cbn [app right1]. destruct (q ++ [l0]) as [|c w] eqn:E; [destruct q; discriminate|]. rewrite <- E.
    destruct r as [|y r]; auto. destruct (lbeq a y) eqn:Ea; auto. apply lbeq_iff in Ea. subst y. f_equal. apply IH.
    destruct (ppre q r) eqn:Ep; auto. exfalso. apply ppre_iff in Ep. destruct Ep as [x ->].
    enough (ppre (a :: q) (a :: q ++ x) = true) by congruence. apply ppre_iff. exists x. auto.
Qed.

Lemma right1_short p : forall q, length q < length p -> right1 p q = q.
Proof.
  induction p as [|a p IH]; intros [|b q] H; cbn in H; try lia; cbn [right1]; auto.
  - destruct p; auto.
  - destruct p as [|c p]; [cbn in H; lia|]. destruct (lbeq a b); auto. f_equal. apply IH. cbn in *. lia.
Qed.

Lemma right1_len p : forall q, length (right1 p q) = length q.
Proof.
  induction p as [|a p IH]; intros [|b q]; try reflexivity; cbn [right1]; destruct p as [|c p]; try reflexivity.
  - destruct (lblt b a); auto.
  - destruct (lbeq a b); auto. cbn [length]. auto.
Qed.

Lemma right1_inj p : forall a b, right1 p a = right1 p b -> a = b.
Proof.
  induction p as [|x p IH]; intros a b E; [exact E|].
  assert (L : length a = length b) by (rewrite <- (right1_len (x :: p) a), E; apply right1_len).
  destruct a as [|y a], b as [|z b]; try discriminate L; auto. cbn [right1] in E. destruct p as [|c p].
  - assert (E' : relab x [y] = relab x [z] /\ a = b).
    { cbn. destruct (lblt y x), (lblt z x); injection E as -> ->; auto. }
    destruct E' as [E1 ->]. apply relab_inj in E1. congruence.
  - destruct (lbeq x y) eqn:Ey, (lbeq x z) eqn:Ez; try (exact E).
    + apply lbeq_iff in Ey, Ez. subst y z. injection E as E. f_equal. apply IH. auto.
    + injection E as -> _. congruence.
    + injection E as -> _. congruence.
Qed.

Definition set_path (r : ltrow) (p : lpath) : ltrow := mkLT (l_pk r) p (l_data r).
Lemma set_path_same r : set_path r (l_path r) = r.
Proof. destruct r; auto. Qed.

(** All signals of one [_get_new_path]. *)
Definition rights (ps : list lpath) (q : lpath) : lpath := fold_left (fun q p => right1 p q) ps q.

Lemma rights_inj ps : forall a b, rights ps a = rights ps b -> a = b.
Proof. induction ps as [|p ps IH]; cbn; auto. intros a b H. apply IH in H. eapply right1_inj; eauto. Qed.
Lemma rights_len ps : forall q, length (rights ps q) = length q.
Proof. induction ps as [|p ps IH]; cbn; auto. intros q. fold (rights ps (right1 p q)). rewrite IH. apply right1_len. Qed.
Lemma rights_short ps : forall q, Forall (fun p => length q < length p) ps -> rights ps q = q.
Proof.
  induction ps as [|p ps IH]; cbn; auto. intros q H. inversion H; subst. fold (rights ps (right1 p q)).
  rewrite right1_short by auto. apply IH. auto.
Qed.

Lemma hear_rights ps : forall c, fold_left hear (map Sent (map MovedRight ps)) c = map (fun x => (fst x, rights ps (snd x))) c.
Proof.
  induction ps as [|p ps IH]; intros c; cbn [map fold_left].
  - rewrite <- (map_id c) at 1. apply map_ext. intros [? ?]; auto.
  - rewrite IH. cbn [hear]. rewrite map_map. auto.
Qed.

Section LTSignals.
Variable cfg : lt_cfg.

Lemma msr_rows db start q l0 db' : l_path start = q ++ [l0] -> move_subtree_right cfg db start = Ok db' ->
  lt_rows db' = map (fun r => set_path r (right1 (q ++ [l0]) (l_path r))) (lt_rows db) /\
  lt_sig db' = lt_sig db ++ [MovedRight (q ++ [l0])].
Proof.
  intros Ep. unfold move_subtree_right. rewrite Ep. unfold update_path.
  destruct (forallb _ (lt_rows db)); cbn [bind]; [|discriminate].
  match goal with |- context [forallb ?f ?l] => destruct (forallb f l) end; cbn [bind]; [|discriminate].
  intros E. injection E as <-. cbn [lt_rows lt_sig]. split; auto. rewrite map_map. apply map_ext. intros r.
  assert (Pp : parent_path (q ++ [l0]) = q) by apply removelast_last. rewrite Pp.
  assert (Ld : length (q ++ [l0]) = length q + 1) by (rewrite app_length; auto). rewrite Ld.
  destruct (ppre q (l_path r)) eqn:E.
  - assert (E' := E). apply ppre_iff in E'. destruct E' as [x Ex]. rewrite Ex in *. destruct x as [|s x].
    + (* the parent *)
      rewrite app_nil_r in *.
      assert (Lt : plt q (q ++ [l0]) = true) by (apply llt_self_app; [exact lblt_irr|discriminate]).
      rewrite Lt. cbn [negb andb]. rewrite Ex, Lt, !andb_false_r. cbn [andb].
      rewrite right1_short by (rewrite Ld; lia). rewrite <- Ex. symmetry. apply set_path_same.
    + assert (Ls : plt (q ++ s :: x) (q ++ [l0]) = lblt s l0).
      { rewrite plt_pre. unfold plt. cbn [llt]. destruct (lblt s l0) eqn:A; auto. destruct (lblt l0 s) eqn:B; auto.
        destruct x; auto. }
      rewrite Ls, right1_app. destruct (lblt s l0) eqn:El; cbn [negb andb].
      * rewrite Ex, E, Ls. cbn [andb negb]. rewrite <- Ex. symmetry. apply set_path_same.
      * rewrite app_length. cbn [length]. destruct x as [|y x]; cbn [length].
        { rewrite Nat.eqb_refl. cbn [l_pk l_path l_data]. rewrite append_A_app.
          rewrite app_length. cbn [length]. rewrite Nat.ltb_irrefl, andb_false_r. auto. }
        { destruct (Nat.eqb_spec (length q + S (S (length x))) (length q + 1)); [lia|]. rewrite Ex, E, Ls, app_length. cbn [negb andb length].
          destruct (Nat.ltb_spec (length q + 1) (length q + S (S (length x)))); [|lia]. rewrite append_A_app. auto. }
  - cbn [andb]. rewrite E. cbn [andb]. rewrite right1_out by auto. symmetry. apply set_path_same.
Qed.

Lemma get_by_pk_in t k r : get_by_pk t k = Ok r -> In r t /\ l_pk r = k.
Proof.
  unfold get_by_pk. destruct (filter _ t) as [|x l] eqn:E; [discriminate|]. intros H. injection H as <-.
  assert (Hx : In x (filter (fun r => l_pk r =? k) t)) by (rewrite E; left; auto). apply filter_In in Hx.
  destruct Hx as [H1 H2]. apply Nat.eqb_eq in H2. auto.
Qed.

Definition after (ps : list lpath) (t : lt_table) : lt_table := map (fun r => set_path r (rights ps (l_path r))) t.

Lemma after_pks ps t : map l_pk (after ps t) = map l_pk t.
Proof. unfold after. rewrite map_map. auto. Qed.

Lemma gnp_after n : forall db q b a mv db1 np mv', NoDup (map l_pk (lt_rows db)) ->
  (forall s, b = Some s -> In s (lt_rows db) /\ exists l, l_path s = q ++ [l]) ->
  get_new_path cfg n db q b a mv = Ok (db1, np, mv') ->
  exists ps, lt_sig db1 = lt_sig db ++ map MovedRight ps /\ lt_rows db1 = after ps (lt_rows db) /\
    Forall (fun p => exists l, p = q ++ [l]) ps /\ (exists l, np = q ++ [l]) /\ (mv' = false -> db1 = db).
Proof.
  induction n as [|n IH]; intros db q b a mv db1 np mv' ND Hb; cbn [get_new_path];
    (destruct (match falsy (label_of b) with Some b0 => _ | None => false end); [discriminate|]);
    (destruct (generate_path q (label_of b) (label_of a) _) as [p|e] eqn:Eg;
     [intros E; injection E as <- <- <-; exists []; cbn [map]; rewrite app_nil_r; split; [auto|]; split;
      [unfold after; rewrite <- (map_id (lt_rows db)) at 1; apply map_ext; intros r; symmetry; apply set_path_same|]; split; [constructor|]; split;
      [unfold generate_path in Eg; destruct (generate_label _ _ _); [|discriminate]; cbn [bind] in Eg; injection Eg as <-; eauto|auto]|]);
    (destruct e; try discriminate);
    (destruct b as [s|]; cbn [opt_res bind]; [|discriminate]); destruct (Hb s eq_refl) as (Hs & l0 & Es);
    (destruct (move_subtree_right cfg db s) as [db'|] eqn:Em; cbn [bind]; [|discriminate]);
    (destruct (get_by_pk (lt_rows db') (l_pk s)) as [s'|] eqn:Ek; cbn [bind]; [|discriminate]); [discriminate|].
  intros E. destruct (msr_rows _ _ _ _ _ Es Em) as [R1 R2]. apply get_by_pk_in in Ek. destruct Ek as [Hs' Epk].
  assert (P : l_path s' = q ++ [l0 ++ [chA]]).
  { rewrite R1 in Hs'. apply in_map_iff in Hs'. destruct Hs' as (r & <- & Hr). cbn [l_path set_path l_pk] in *.
    assert (r = s) by (apply (NoDup_map_inj l_pk (lt_rows db)); auto). subst r. rewrite Es, right1_app, lblt_irr. auto. }
  assert (ND' : NoDup (map l_pk (lt_rows db'))) by (rewrite R1, map_map; exact ND).
  assert (Hb' : forall s0, Some s' = Some s0 -> In s0 (lt_rows db') /\ exists l, l_path s0 = q ++ [l]).
  { intros s0 E0. injection E0 as <-. eauto. }
  destruct (IH _ _ _ _ _ _ _ _ ND' Hb' E) as (ps & S & R & F & N & M).
  exists ((q ++ [l0]) :: ps). split; [rewrite S, R2, <- app_assoc; auto|].
  split; [rewrite R, R1; unfold after; rewrite map_map; auto|]. split; [constructor; eauto|]. split; auto.
  intros Hm. exfalso. clear - E Hm.
  assert (G : forall k d b' a' x y z, get_new_path cfg k d q b' a' true = Ok (x, y, z) -> z = true).
  { induction k as [|k IHk]; intros d b' a' x y z; cbn [get_new_path];
      (destruct (match falsy (label_of b') with Some b0 => _ | None => false end); [discriminate|]);
      (destruct (generate_path q (label_of b') (label_of a') _) as [p|e]; [intros H; injection H as _ _ <-; auto|]);
      (destruct e; try discriminate); (destruct b' as [w|]; cbn [opt_res bind]; [|discriminate]);
      (destruct (move_subtree_right cfg d w) as [d'|]; cbn [bind]; [|discriminate]);
      (destruct (get_by_pk (lt_rows d') (l_pk w)) as [w'|]; cbn [bind]; [|discriminate]); [discriminate|]. apply IHk. }
  apply G in E. congruence.
Qed.

(** ** One call *)
Lemma hear_saved r t t' : save_row cfg t r = Ok t' -> hear (copy_of t) (Saved (l_pk r) (l_path r)) = copy_of t'.
Proof.
  unfold save_row, hear, copy_of. destruct (fits_ltree cfg (l_path r)); cbn [negb]; [|discriminate].
  replace (existsb _ (map _ t)) with (existsb (fun x => l_pk x =? l_pk r) t)
    by (induction t as [|x t IH]; cbn; [|rewrite IH]; auto).
  destruct (existsb (fun x => l_pk x =? l_pk r) t); intros E; injection E as <-; auto.
  rewrite !map_map. apply map_ext. intros x. cbn [fst]. destruct (l_pk x =? l_pk r); auto.
Qed.

Lemma copy_after ps t : copy_of (after ps t) = map (fun x => (fst x, rights ps (snd x))) (copy_of t).
Proof. unfold copy_of, after. rewrite !map_map. auto. Qed.

(** The signals of an insertion, followed by post_save of the new node. *)
Definition added_ev (db db' : lt_db) (r : ltrow) : Prop :=
  exists new, lt_sig db' = lt_sig db ++ new /\
    fold_left hear (map Sent new ++ [Saved (l_pk r) (l_path r)]) (copy_of (lt_rows db)) = copy_of (lt_rows db').

Lemma siblings_shape t n s : l_path n <> [] -> In s (get_siblings t n) -> In s t /\ exists l, l_path s = parent_path (l_path n) ++ [l].
Proof.
  intros N H. unfold get_siblings, order_path in H. apply (Permutation_in _ (isort_perm _ _)) in H. apply filter_In in H.
  destruct H as [Hs H]. split; auto. apply andb_true_iff in H. destruct H as [H1 H2]. apply ppre_iff in H1. apply Nat.eqb_eq in H2.
  destruct H1 as [x Ex]. unfold parent_path in *. rewrite Ex. destruct (exists_last N) as (p & l & En). rewrite En, removelast_last in *.
  rewrite Ex, !app_length in H2. destruct x as [|y [|]]; cbn in H2; try lia. eauto.
Qed.
Lemma children_shape t n s : In s (get_children t n) -> In s t /\ exists l, l_path s = l_path n ++ [l].
Proof.
  intros H. unfold get_children, order_path in H. apply (Permutation_in _ (isort_perm _ _)) in H. apply filter_In in H.
  destruct H as [Hs H]. split; auto. apply andb_true_iff in H. destruct H as [H1 H2]. apply ppre_iff in H1. apply Nat.eqb_eq in H2.
  destruct H1 as [x Ex]. rewrite Ex in *. rewrite !app_length in H2. destruct x as [|y [|]]; cbn in H2; try lia. eauto.
Qed.
Lemma self_shape t n : l_path n <> [] -> In n t -> In n t /\ exists l, l_path n = parent_path (l_path n) ++ [l].
Proof. intros N H. split; auto. destruct (exists_last N) as (p & l & En). unfold parent_path. rewrite En, removelast_last. eauto. Qed.
Lemma hd_in {A} (l : list A) x : hd_error l = Some x -> In x l.
Proof. destruct l; [discriminate|]. intros E. injection E as ->. left. auto. Qed.
Lemma filter_sub {A} (f : A -> bool) l x : In x (filter f l) -> In x l.
Proof. rewrite filter_In. tauto. Qed.

Definition child_prefix (P : pos) (target : ltrow) : lpath :=
  if is_child_pos P then l_path target else parent_path (l_path target).

Lemma neighbours_shape t target P d b a : l_path target <> [] -> In target t -> neighbours cfg t target P d = (b, a) ->
  forall s, b = Some s -> In s t /\ exists l, l_path s = child_prefix P target ++ [l].
Proof.
  intros N Ht E s ->. apply (f_equal fst) in E. cbn [fst] in E. unfold child_prefix.
  assert (Sib : In s (get_siblings t target) -> In s t /\ exists l, l_path s = parent_path (l_path target) ++ [l])
    by (apply siblings_shape; auto).
  assert (Chi := children_shape t target s).
  destruct P; cbn [neighbours fst] in E; cbn [is_child_pos];
    unfold get_first_sibling, get_first_child, get_next_sibling, sorted_first in E; try discriminate E;
    try (injection E as <-; apply self_shape; solve [auto]);
    apply hd_in in E; try apply filter_sub in E; auto.
Qed.

Lemma sibling_body_ev db target p x db' r : NoDup (map l_pk (lt_rows db)) -> l_path target <> [] -> In target (lt_rows db) ->
  add_sibling_body cfg db target p x = Ok (db', r) -> added_ev db db' r.
Proof.
  intros ND N Ht. unfold add_sibling_body. destruct (prepare_pos_add (is_sorted cfg) p) as [P|] eqn:Ep; cbn [bind]; [|discriminate].
  destruct (neighbours cfg (lt_rows db) target P (new_data x)) as [b a] eqn:En.
  destruct (get_new_path cfg 2 db (parent_path (l_path target)) b a false) as [[[db1 np] mv]|] eqn:Eg; cbn [bind]; [|discriminate].
  destruct (save_row cfg (lt_rows db1) _) as [t|] eqn:Es; cbn [bind]; [|discriminate]. intros E. injection E as <- <-.
  assert (Hb := neighbours_shape _ _ _ _ _ _ N Ht En).
  assert (Cp : child_prefix P target = parent_path (l_path target)).
  { unfold child_prefix. replace (is_child_pos P) with false; auto. apply prepare_add_sib in Ep. destruct P; cbn in *; tauto. }
  rewrite Cp in Hb. destruct (gnp_after _ _ _ _ _ _ _ _ _ ND Hb Eg) as (ps & S & R & _).
  exists (map MovedRight ps). cbn [lt_sig lt_rows]. split; auto. rewrite fold_left_app, hear_rights. cbn [fold_left].
  rewrite <- copy_after, <- R. apply (hear_saved _ _ _ Es).
Qed.

Lemma added_plain db db' r t : save_row cfg (lt_rows db) r = Ok t -> db' = mkLTDB t (lt_sig db) -> added_ev db db' r.
Proof.
  intros E ->. exists []. cbn [lt_sig lt_rows map app fold_left]. rewrite app_nil_r. split; auto. apply (hear_saved _ _ _ E).
Qed.

Lemma stores_facts db F : stores cfg (lt_rows db) F ->
  NoDup (map l_pk (lt_rows db)) /\ NoDup (map l_path (lt_rows db)) /\ forall r, In r (lt_rows db) -> l_path r <> [].
Proof.
  intros St. destruct (proj1 (stores_iff cfg (lt_rows db)) (ex_intro _ F St)) as [[H1 H2 H3] H4]. split; auto. split; auto.
  intros r Hr. apply H1. auto.
Qed.

Lemma commit_same db db' : commit db = Ok db' -> db' = db.
Proof. unfold commit. destruct (unique_paths (lt_rows db)); [|discriminate]. intros E. injection E as <-. auto. Qed.

Lemma last_in {A} (l : list A) x : last_opt l = Some x -> In x l.
Proof. unfold last_opt. intros E. apply hd_in in E. apply in_rev. auto. Qed.

Theorem add_sibling_ev db F target p x db' r : stores cfg (lt_rows db) F -> In target (lt_rows db) ->
  add_sibling cfg db target p x = Ok (db', r) -> added_ev db db' r.
Proof.
  intros St Ht. destruct (stores_facts _ _ St) as (ND & _ & N). unfold add_sibling.
  destruct (add_sibling_body cfg db target p x) as [[d s]|] eqn:E; cbn [bind]; [|discriminate].
  destruct (commit d) eqn:C; cbn [bind]; [|discriminate]. intros H. injection H as <- <-. rewrite (commit_same _ _ C).
  eapply sibling_body_ev; eauto.
Qed.

Theorem add_root_ev db F x db' r : stores cfg (lt_rows db) F -> add_root cfg db x = Ok (db', r) -> added_ev db db' r.
Proof.
  intros St. destruct (stores_facts _ _ St) as (ND & _ & N). unfold add_root.
  match goal with |- context [bind ?e _] => destruct e as [[d s]|] eqn:E end; cbn [bind]; [|discriminate].
  destruct (commit d) eqn:C; cbn [bind]; [|discriminate]. intros H. injection H as <- <-. rewrite (commit_same _ _ C). clear C.
  assert (Plain : forall c : res lpath, (do np <- c; do t <- save_row cfg (lt_rows db) (mkLT (new_pk x) np (new_data x));
     Ok (mkLTDB t (lt_sig db), mkLT (new_pk x) np (new_data x))) = Ok (d, s) -> added_ev db d s).
  { intros [np|] H; cbn [bind] in H; [|discriminate].
    destruct (save_row cfg (lt_rows db) _) as [t|] eqn:Es; cbn [bind] in H; [|discriminate]. injection H as <- <-.
    eapply added_plain; eauto. }
  destruct (get_last_root_node (lt_rows db)) as [last|] eqn:El; [|eapply Plain; exact E].
  destruct (is_sorted cfg); [|eapply Plain; exact E].
  assert (Hl : In last (lt_rows db)).
  { apply last_in in El. unfold get_root_nodes, order_path in El. apply (Permutation_in _ (isort_perm _ _)) in El. apply filter_sub in El. auto. }
  eapply sibling_body_ev; eauto.
Qed.

Theorem add_child_ev db F target x db' r : stores cfg (lt_rows db) F -> In target (lt_rows db) ->
  add_child cfg db target x = Ok (db', r) -> added_ev db db' r.
Proof.
  intros St Ht. destruct (stores_facts _ _ St) as (ND & _ & N). unfold add_child.
  match goal with |- context [bind ?e _] => destruct e as [[d s]|] eqn:E end; cbn [bind]; [|discriminate].
  destruct (commit d) eqn:C; cbn [bind]; [|discriminate]. intros H. injection H as <- <-. rewrite (commit_same _ _ C). clear C.
  destruct (get_by_pk (lt_rows db) (l_pk target)); cbn [bind] in E; [|discriminate].
  destruct (is_sorted cfg && negb (is_leaf (lt_rows db) target)).
  - destruct (get_last_child (lt_rows db) target) as [last|] eqn:El; cbn [opt_res bind] in E; [|discriminate].
    apply last_in, children_shape in El. destruct El as [Hl _]. eapply sibling_body_ev; eauto.
  - match type of E with (bind ?c _) = _ => destruct c as [np|] end; cbn [bind] in E; [|discriminate].
    destruct (save_row cfg (lt_rows db) _) as [t|] eqn:Es; cbn [bind] in E; [|discriminate]. injection E as <- <-.
    eapply added_plain; eauto.
Qed.

(** The signals of a move: post_save of the moved node comes before subtree_moved.  A
    listener that ignores post_save gets the same copy. *)
Definition moved_ev (db db' : lt_db) (r : ltrow) : Prop :=
  exists new old, lt_sig db' = lt_sig db ++ new ++ [Moved old (l_path r)] /\
    fold_left hear (map Sent new ++ [Saved (l_pk r) (l_path r); Sent (Moved old (l_path r))]) (copy_of (lt_rows db)) = copy_of (lt_rows db') /\
    fold_left hear (map Sent (new ++ [Moved old (l_path r)])) (copy_of (lt_rows db)) = copy_of (lt_rows db').

Lemma NoDup_after ps t : NoDup (map l_path t) -> NoDup (map l_path (after ps t)).
Proof.
  intros N. unfold after. rewrite map_map. cbn [l_path set_path]. rewrite <- (map_map l_path (rights ps)).
  apply FinFun.Injective_map_NoDup; auto. intros a b H. eapply rights_inj; eauto.
Qed.

Theorem move_ev db F n target p db' n' : stores cfg (lt_rows db) F -> In n (lt_rows db) -> In target (lt_rows db) ->
  move cfg db n target p = Ok (db', n') -> moved_ev db db' n'.
Proof.
  intros St Hn Ht. destruct (stores_facts _ _ St) as (ND & NP & N). unfold move.
  destruct (prepare_pos_move (is_sorted cfg) p) as [P|] eqn:Ep; cbn [bind]; [|discriminate].
  change (match P with FirstChild | LastChild | SortedChild => true | _ => false end) with (is_child_pos P).
  destruct (is_child_pos P && (l_pk target =? l_pk n)) eqn:Es1; [discriminate|].
  destruct (is_descendant_of target n) eqn:Es2; [discriminate|].
  destruct (neighbours cfg (lt_rows db) target P (l_data n)) as [b a] eqn:En.
  fold (child_prefix P target).
  destruct (get_new_path cfg 2 db (child_prefix P target) b a false) as [[[db1 np] mv]|] eqn:Eg; cbn [bind]; [|discriminate].
  assert (Hb := neighbours_shape _ _ _ _ _ _ (N _ Ht) Ht En).
  destruct (gnp_after _ _ _ _ _ _ _ _ _ ND Hb Eg) as (ps & S & R & Fp & (lab & Enp) & M).
  destruct (if mv then get_by_pk (lt_rows db1) (l_pk n) else Ok n) as [m|] eqn:Em; cbn [bind]; [|discriminate].
  assert (Hm : In m (lt_rows db1) /\ l_pk m = l_pk n).
  { destruct mv; [apply get_by_pk_in; auto|]. injection Em as <-. rewrite M; auto. }
  destruct Hm as [Hm Km]. assert (Pm : l_path m = rights ps (l_path n)).
  { assert (Hm' := Hm). rewrite R in Hm'. unfold after in Hm'. apply in_map_iff in Hm'. destruct Hm' as (r & <- & Hr).
    cbn [l_path l_pk set_path] in *. f_equal. f_equal. apply (NoDup_map_inj l_pk (lt_rows db)); auto. }
  assert (ND1 : NoDup (map l_pk (lt_rows db1))) by (rewrite R, after_pks; auto).
  assert (NP1 : NoDup (map l_path (lt_rows db1))) by (rewrite R; apply NoDup_after; auto).
  assert (Out : ppre (l_path m) np = true -> l_path m = np).
  { intros H. apply ppre_iff in H. destruct H as [x Ex]. destruct (list_eq_dec (list_eq_dec Nat.eq_dec) (l_path m) np) as [|Ne]; auto. exfalso.
    destruct x as [|y x]; [rewrite app_nil_r in Ex; congruence|].
    assert (Lx : y :: x <> []) by discriminate. destruct (exists_last Lx) as (z & l & Ez). rewrite Ez, Enp, app_assoc in Ex.
    apply app_inj_tail in Ex. destruct Ex as [Ex _].
    assert (Sh : l_path m = l_path n).
    { rewrite Pm. apply rights_short. eapply Forall_impl; [|exact Fp]. cbn. intros q (l' & ->).
      rewrite <- (rights_len ps (l_path n)), <- Pm, Ex, !app_length. cbn. lia. }
    rewrite Sh in Ex. unfold child_prefix in Ex. destruct (is_child_pos P) eqn:Ec.
    - unfold is_descendant_of in Es2. rewrite Ex in Es2. rewrite (proj2 (ppre_iff _ _)) in Es2 by eauto. rewrite andb_true_r, app_length in Es2.
      apply Nat.ltb_ge in Es2. destruct z; [|cbn in Es2; lia]. rewrite app_nil_r in Ex.
      assert (target = n) by (apply (NoDup_map_inj l_path (lt_rows db)); auto). subst target. rewrite Nat.eqb_refl in Es1. discriminate.
    - destruct (exists_last (N _ Ht)) as (w & l' & Ew). unfold parent_path in Ex. rewrite Ew, removelast_last in Ex.
      unfold is_descendant_of in Es2. rewrite Ew, Ex, <- app_assoc in Es2. rewrite (proj2 (ppre_iff _ _)) in Es2 by eauto.
      rewrite andb_true_r, !app_length in Es2. apply Nat.ltb_ge in Es2. cbn in Es2. lia. }
  unfold update_path. destruct (forallb _ (lt_rows db1)); cbn [bind]; [|discriminate].
  match goal with |- context [save_row cfg ?t ?r] => destruct (save_row cfg t r) as [t2|] eqn:Esv end; cbn [bind]; [|discriminate].
  destruct (commit _) as [db2|] eqn:C; cbn [bind]; [|discriminate]. intros H. injection H as <- <-. apply commit_same in C. subst db2.
  unfold save_row in Esv. cbn [l_path l_pk] in Esv. destruct (fits_ltree cfg np); cbn [negb] in Esv; [|discriminate].
  assert (Ex : forall f : ltrow -> ltrow, (forall r, l_pk (f r) = l_pk r) -> existsb (fun x => l_pk x =? l_pk m) (map f (lt_rows db1)) = true).
  { intros f Hf. apply existsb_exists. exists (f m). split; [apply in_map; auto|]. rewrite Hf. apply Nat.eqb_refl. }
  rewrite Ex in Esv by (intros r; cbv beta; destruct (ppre _ _ && _); reflexivity). injection Esv as <-.
  assert (Key : forall r, In r (lt_rows db1) -> moved1 (l_path m) np (l_path r) =
    l_path ((fun x => if l_pk x =? l_pk m then mkLT (l_pk m) np (l_data m) else x)
      (if ppre (l_path m) (l_path r) && (length (l_path m) <? length (l_path r))
       then mkLT (l_pk r) (np ++ skipn (length (l_path m)) (l_path r)) (l_data r) else r))).
  { intros r Hr. unfold moved1. destruct (Nat.eqb_spec (l_pk r) (l_pk m)) as [E|E].
    - assert (r = m) by (apply (NoDup_map_inj l_pk (lt_rows db1)); auto). subst r. rewrite (proj2 (ppre_iff _ _)) by (exists []; rewrite app_nil_r; auto).
      rewrite Nat.ltb_irrefl. cbn [andb]. rewrite Nat.eqb_refl. cbn [l_path]. rewrite skipn_all, app_nil_r. auto.
    - destruct (ppre (l_path m) (l_path r)) eqn:Epr; cbn [andb].
      + assert (Lr : length (l_path m) <? length (l_path r) = true).
        { apply ppre_iff in Epr. destruct Epr as [x Ex']. rewrite Ex', app_length. apply Nat.ltb_lt. destruct x; [|cbn; lia].
          exfalso. apply E. f_equal. apply (NoDup_map_inj l_path (lt_rows db1)); auto. rewrite Ex', app_nil_r. auto. }
        rewrite Lr. cbn [l_pk]. destruct (Nat.eqb_spec (l_pk r) (l_pk m)); [congruence|]. auto.
      + destruct (Nat.eqb_spec (l_pk r) (l_pk m)); [congruence|]. auto. }
  assert (Kpk : forall r, l_pk ((fun x => if l_pk x =? l_pk m then mkLT (l_pk m) np (l_data m) else x)
      (if ppre (l_path m) (l_path r) && (length (l_path m) <? length (l_path r))
       then mkLT (l_pk r) (np ++ skipn (length (l_path m)) (l_path r)) (l_data r) else r)) = l_pk r).
  { intros r. destruct (ppre (l_path m) (l_path r) && (length (l_path m) <? length (l_path r))); cbn [l_pk];
      destruct (Nat.eqb_spec (l_pk r) (l_pk m)); cbn; auto. }
  exists (map MovedRight ps), (l_path m). cbn [lt_sig lt_rows l_path l_pk]. rewrite S, <- app_assoc. split; auto.
  assert (C1 : fold_left hear (map Sent (map MovedRight ps)) (copy_of (lt_rows db)) = copy_of (lt_rows db1)).
  { rewrite hear_rights, <- copy_after, <- R. auto. }
  rewrite map_app, !fold_left_app, C1. cbn [map fold_left]. split.
  - cbn [hear]. unfold copy_of. replace (existsb _ _) with true.
    2:{ symmetry. apply existsb_exists. exists (l_pk m, l_path m). cbn [fst]. rewrite Nat.eqb_refl. split; auto.
        apply in_map_iff. exists m. auto. }
    rewrite !map_map. apply map_ext_in. intros r Hr. cbn [fst snd]. rewrite Kpk, <- (Key r Hr).
    destruct (Nat.eqb_spec (l_pk r) (l_pk m)) as [E|E]; cbn [fst snd]; auto.
    assert (r = m) by (apply (NoDup_map_inj l_pk (lt_rows db1)); auto). subst r. f_equal. unfold moved1.
    rewrite (proj2 (ppre_iff (l_path m) (l_path m))) by (exists []; rewrite app_nil_r; auto). rewrite skipn_all, app_nil_r.
    destruct (ppre (l_path m) np) eqn:Eo; auto. rewrite (Out eq_refl), skipn_all, app_nil_r. auto.
  - cbn [hear]. unfold copy_of. rewrite !map_map. apply map_ext_in. intros r Hr. cbn [fst snd]. rewrite Kpk, <- (Key r Hr). auto.
Qed.

Theorem delete_ev db sel : exists new, lt_sig (delete_queryset db sel) = lt_sig db ++ new /\
  fold_left hear (map Sent new) (copy_of (lt_rows db)) = copy_of (lt_rows (delete_queryset db sel)).
Proof.
  unfold delete_queryset. destruct (paths_to_remove (order_path (filter sel (lt_rows db))) []) as [|q ps] eqn:E.
  - exists []. rewrite app_nil_r. auto.
  - exists [Deleted (q :: ps)]. split; auto. cbn [map fold_left hear lt_rows]. unfold copy_of. clear E. generalize (q :: ps). intros L.
    induction (lt_rows db) as [|r t IH]; cbn [map filter snd]; auto.
    destruct (negb (existsb (fun p => ppre p (l_path r)) L)); cbn [map]; congruence.
Qed.

End LTSignals.
