(** Programs that keep node objects, PostgreSQL ltree (C53). *)
From Coq Require Import String List Arith ZArith Lia Bool Permutation.
From Verif Require Import Prelude Forest SpecFacts SpecSane SpecKids SpecRun SpecPerm PathTab PathMove CommonModel Order History
  LTModel LTLabel LTInv LTShift LTNewPath LTAdd LTMove LTReads LTHist SessionModel Session.
Import ListNotations.
Local Open Scope nat_scope.

(** ** Rows that a call does not change *)
Section Frame.
Variable cfg : lt_cfg.

(** Rows of a path that is not longer than [n] stay. *)
Definition keeps (n : nat) (t t' : lt_table) : Prop := forall r, In r t -> length (l_path r) <= n -> In r t'.
Lemma keeps_trans n a b c : keeps n a b -> keeps n b c -> keeps n a c.
Proof. intros H1 H2 r Hr L. auto. Qed.

(** The rows of a primary key have paths longer than [n]. *)
Definition deep (n k : nat) (t : lt_table) : Prop := forall r, In r t -> l_pk r = k -> n < length (l_path r).

Lemma update_keeps n t cond g t' : update_path cfg t cond g = Ok t' ->
  (forall r, cond r = true -> n < length (l_path r)) -> keeps n t t'.
Proof.
  unfold update_path. destruct (forallb _ t); [|discriminate]. intros H C r Hr L. injection H as <-.
  apply in_map_iff. exists r. destruct (cond r) eqn:E; auto. apply C in E. lia.
Qed.
Lemma update_deep n k t cond g t' : update_path cfg t cond g = Ok t' -> deep n k t ->
  (forall r, cond r = true -> length (g (l_path r)) = length (l_path r)) -> deep n k t'.
Proof.
  unfold update_path. destruct (forallb _ t); [|discriminate]. intros H D C r Hr E. injection H as <-.
  apply in_map_iff in Hr. destruct Hr as (y & Ey & Hy). destruct (cond y) eqn:Cy.
  - subst r. cbn in *. rewrite C; auto.
  - subst y. auto.
Qed.

Lemma append_length d p : 1 <= d -> d <= length p -> length (append_A d p) = length p.
Proof.
  intros H1 H2. unfold append_A. rewrite app_length, firstn_length, app_length, skipn_length. cbn [length]. lia.
Qed.

Lemma shift_keeps n db start db' : n < length (l_path start) -> move_subtree_right cfg db start = Ok db' ->
  keeps n (lt_rows db) (lt_rows db') /\ (forall k, deep n k (lt_rows db) -> deep n k (lt_rows db')).
Proof.
  intros L. unfold move_subtree_right.
  match goal with |- bind ?z _ = _ -> _ => destruct z as [t1|] eqn:E1; cbn [bind]; [|discriminate] end.
  match goal with |- bind ?z _ = _ -> _ => destruct z as [t2|] eqn:E2; cbn [bind]; [|discriminate] end.
  intros H. injection H as <-. cbn [lt_rows]. split.
  - eapply keeps_trans; [eapply update_keeps; [apply E1|]|eapply update_keeps; [apply E2|]]; intros r Hr;
      apply andb_true_iff in Hr; destruct Hr as [_ Hr]; [apply Nat.eqb_eq in Hr|apply Nat.ltb_lt in Hr]; lia.
  - intros k D. eapply update_deep; [apply E2|eapply update_deep; [apply E1|exact D|]|]; intros r Hr;
      apply andb_true_iff in Hr; destruct Hr as [_ Hr]; [apply Nat.eqb_eq in Hr|apply Nat.ltb_lt in Hr]; apply append_length; lia.
Qed.

Lemma get_pk t k r : get_by_pk t k = Ok r -> In r t /\ l_pk r = k.
Proof.
  unfold get_by_pk. destruct (filter (fun r => l_pk r =? k) t) as [|y l] eqn:E; try discriminate.
  intros H. injection H as ->. assert (X : In r (filter (fun r => l_pk r =? k) t)) by (rewrite E; cbn; auto).
  apply filter_In in X. destruct X as [X1 X2]. apply Nat.eqb_eq in X2. auto.
Qed.

Lemma path_keeps n k : forall m db b a mv db' np mv', deep n k (lt_rows db) ->
  (forall r, b = Some r -> In r (lt_rows db) /\ l_pk r = k) -> forall q,
  get_new_path cfg m db q b a mv = Ok (db', np, mv') -> keeps n (lt_rows db) (lt_rows db').
Proof.
  induction m as [|m IH]; intros db b a mv db' np mv' D Hb q; cbn [get_new_path];
    (destruct (match falsy (label_of b) with Some _ => _ | None => false end); [discriminate|]);
    (destruct (generate_path q (label_of b) (label_of a) _) as [p|[]]; try discriminate;
      [intros H; injection H as <- _ _; intros r Hr _; auto|]);
    (destruct b as [s|]; [|discriminate]; cbn [opt_res bind]);
    (destruct (move_subtree_right cfg db s) as [db1|] eqn:E; [|discriminate]; cbn [bind]);
    (destruct (get_by_pk (lt_rows db1) (l_pk s)) as [s'|] eqn:Es; cbn [bind]; [|discriminate]); [discriminate|].
  destruct (Hb s eq_refl) as [Hs Ek]. destruct (shift_keeps n db s db1) as [K1 K2]; auto.
  intros H. eapply keeps_trans; [apply K1|]. eapply (IH db1); [apply K2, D| |exact H].
  intros r Hr. injection Hr as <-. apply get_pk in Es. destruct Es as [E1 E2]. split; auto. congruence.
Qed.

Lemma save_new t r t' : save_row cfg t r = Ok t' -> ~ In (l_pk r) (map l_pk t) -> t' = r :: t.
Proof.
  unfold save_row. destruct (negb _); [discriminate|]. destruct (existsb _ t) eqn:E; [|congruence].
  apply existsb_exists in E. destruct E as (y & Hy & E). apply Nat.eqb_eq in E. intros _ H. exfalso. apply H. rewrite <- E. apply in_map. auto.
Qed.

Lemma commit_rows db db' : commit db = Ok db' -> db' = db.
Proof. unfold commit. destruct (unique_paths _); congruence. Qed.

Lemma in_order l r : In r (order_path l) <-> In r l.
Proof. unfold order_path. assert (P := isort_perm (le_key l_path plt) l). split; apply Permutation_in; auto using Permutation_sym. Qed.

Lemma hd_some {A} (l : list A) a : hd_error l = Some a -> In a l.
Proof. destruct l; cbn; [discriminate|]. intros H. injection H as ->. auto. Qed.
Lemma last_some {A} (l : list A) a : last_opt l = Some a -> In a l.
Proof. unfold last_opt. intros H. apply hd_some in H. apply in_rev. auto. Qed.

(** Sorted insertion next to a row at a depth greater than [n]. *)
Lemma body_keeps n db last x db' r : (forall k, In k (map l_pk (lt_rows db)) -> forall a b, In a (lt_rows db) -> In b (lt_rows db) -> l_pk a = k -> l_pk b = k -> a = b) ->
  ~ In (new_pk x) (map l_pk (lt_rows db)) -> is_sorted cfg = true -> n < length (l_path last) ->
  add_sibling_body cfg db last (Some "sorted-sibling"%string) x = Ok (db', r) -> keeps n (lt_rows db) (lt_rows db').
Proof.
  intros U Hx So L. unfold add_sibling_body. rewrite So. cbn [prepare_pos_add bind].
  change (prepare_pos_add true (Some "sorted-sibling"%string)) with (@Ok pos SortedSibling). cbn [bind neighbours].
  set (b := sorted_first cfg (get_siblings (lt_rows db) last) (new_data x)).
  match goal with |- context [get_new_path cfg 2 db ?q b ?a false] =>
    destruct (get_new_path cfg 2 db q b a false) as [[[db1 np] mv]|] eqn:E; cbn [bind]; [|discriminate] end.
  match goal with |- bind ?z _ = _ -> _ => destruct z as [t|] eqn:Es; cbn [bind]; [|discriminate] end.
  intros H. injection H as <- <-. cbn [lt_rows].
  assert (Kp : keeps n (lt_rows db) (lt_rows db1)).
  { assert (Hb : forall s, b = Some s -> In s (lt_rows db) /\ n < length (l_path s)).
    { intros s Eb. unfold b, sorted_first in Eb. apply hd_some, filter_In in Eb. destruct Eb as [Hs _].
      unfold get_siblings in Hs. apply in_order, filter_In in Hs. destruct Hs as [Hs E1]. split; auto.
      apply andb_true_iff in E1. destruct E1 as [_ E1]. apply Nat.eqb_eq in E1. lia. }
    destruct b as [s|].
    - destruct (Hb s eq_refl) as [Hs Ls]. eapply (path_keeps n (l_pk s)); [| |exact E].
      + intros y Hy Ey. rewrite (U (l_pk s) (in_map l_pk _ _ Hs) y s Hy Hs Ey eq_refl). exact Ls.
      + intros y Ey. injection Ey as <-. auto.
    - cbn [get_new_path label_of option_map] in E. revert E.
      match goal with |- context [generate_path ?p ?b ?a ?l] => destruct (generate_path p b a l) as [?|[]]; try discriminate end.
      cbn [falsy]. intros E. injection E as <- _ _. intros y Hy _. auto. }
  intros y Hy Ly. revert Es. unfold save_row. destruct (negb _); [discriminate|]. destruct (existsb _ _); intros Es; injection Es as <-.
  - apply in_map_iff. exists y. split; auto. cbn [l_pk]. destruct (Nat.eqb_spec (l_pk y) (new_pk x)); auto.
    exfalso. apply Hx. rewrite <- e. apply in_map. auto.
  - right. auto.
Qed.

(** The parent of a new child keeps its row; without node_order_by every row stays. *)
Lemma child_keeps db target x db' r : (forall k, In k (map l_pk (lt_rows db)) -> forall a b, In a (lt_rows db) -> In b (lt_rows db) -> l_pk a = k -> l_pk b = k -> a = b) ->
  ~ In (new_pk x) (map l_pk (lt_rows db)) -> add_child cfg db target x = Ok (db', r) ->
  keeps (length (l_path target)) (lt_rows db) (lt_rows db') /\
  (is_sorted cfg = false -> forall y, In y (lt_rows db) -> In y (lt_rows db')).
Proof.
  intros U Hx. unfold add_child. destruct (get_by_pk (lt_rows db) (l_pk target)) as [z|]; cbn [bind]; [|discriminate].
  destruct (is_sorted cfg && negb (is_leaf (lt_rows db) target)) eqn:Ec.
  - apply andb_true_iff in Ec. destruct Ec as [So Lf].
    destruct (get_last_child (lt_rows db) target) as [last|] eqn:El; cbn [opt_res bind]; [|discriminate].
    destruct (add_sibling_body cfg db last _ x) as [[db1 r1]|] eqn:E; cbn [bind]; [|discriminate].
    destruct (commit db1) as [db2|] eqn:Ecm; cbn [bind]; [|discriminate]. intros H. injection H as <- <-. apply commit_rows in Ecm. subst db2.
    split; [|congruence]. apply (body_keeps _ db last x db1 r1); auto.
    unfold get_last_child in El. apply last_some in El. unfold get_children in El. apply in_order, filter_In in El.
    destruct El as [_ El]. apply andb_true_iff in El. destruct El as [_ El]. apply Nat.eqb_eq in El. lia.
  - match goal with |- bind (bind ?z _) _ = _ -> _ => destruct z as [np|]; cbn [bind]; [|discriminate] end.
    match goal with |- bind (bind ?z _) _ = _ -> _ => destruct z as [t|] eqn:E; cbn [bind]; [|discriminate] end.
    match goal with |- bind ?z _ = _ -> _ => destruct z as [db2|] eqn:Ecm; cbn [bind]; [|discriminate] end.
    intros H. injection H as <- <-. apply commit_rows in Ecm. subst db2. apply save_new in E; [|auto]. subst t. cbn [lt_rows].
    split; [intros y Hy _|intros _ y Hy]; cbn; auto.
Qed.

Lemma root_keeps db x db' r : ~ In (new_pk x) (map l_pk (lt_rows db)) -> add_root cfg db x = Ok (db', r) ->
  is_sorted cfg = false -> forall y, In y (lt_rows db) -> In y (lt_rows db').
Proof.
  intros Hx. unfold add_root. intros H So. revert H. rewrite So. destruct (get_last_root_node (lt_rows db));
  (match goal with |- bind (bind ?z _) _ = _ -> _ => destruct z as [np|]; cbn [bind]; [|discriminate] end;
   match goal with |- bind (bind ?z _) _ = _ -> _ => destruct z as [t|] eqn:E; cbn [bind]; [|discriminate] end;
   match goal with |- bind ?z _ = _ -> _ => destruct z as [db2|] eqn:Ecm; cbn [bind]; [|discriminate] end;
   intros H; injection H as <- <-; apply commit_rows in Ecm; subst db2; apply save_new in E; [|auto]; subst t; cbn [lt_rows In]; auto).
Qed.

Lemma delete_sub db sel y : In y (lt_rows (delete_queryset db sel)) -> In y (lt_rows db).
Proof.
  unfold delete_queryset. destruct (paths_to_remove _ _); auto. cbn [lt_rows]. intros H. apply filter_In in H. tauto.
Qed.
End Frame.

Section LT.
Variable cfg : lt_cfg.
Hypothesis max2 : 2 <= label_max cfg.
Notation o := (lt_order cfg).

(** With [inorder] the order of siblings is that of the specification, too; this needs places
    that can be labelled without a change of order (see C30). *)
Variable inorder : Prop.

Definition lt_tree (t : lt_table) (F : forest node) : Prop :=
  wf_ids F /\ exists G, stores cfg t G /\ same_kids F G /\ (inorder -> G = F).
Definition lt_srel (st : lt_sess) (s : sess) : Prop :=
  lt_tree (lt_rows (lt_now st)) (s_tree s) /\ map l_pk (lt_objs st) = s_names s /\
  forall u r, nth_error (lt_objs st) u = Some r -> current (s_stat s u) = true -> In r (lt_rows (lt_now st)).
Definition lt_ok (st : lt_sess) (s : sess) (c : cmd) : Prop :=
  careful false o s c /\
  (inorder -> match call_of (s_names s) c with Some call => calm_call cfg (lt_now st) call | None => True end).
Definition lt_out (e : exn) : Prop := e = DataError \/ e = ValueError.

Lemma adds_tree t F G c q x S calm out : wf_ids F -> stores cfg t G -> same_kids F G -> (inorder -> G = F) -> fresh_call F c ->
  sp_exec o G c = Ok S -> adds cfg t q x S calm out -> (inorder -> calm) ->
  match out with
  | Ok (db', r) => exists F', sp_exec o F c = Ok F' /\ lt_tree (lt_rows db') F' /\ In r (lt_rows db') /\ l_pk r = nid x
  | Err e => lt_out e /\ exists F', sp_exec o F c = Ok F'
  end.
Proof.
  intros WF St Sk Ex Fr Es A Ca. assert (WG : wf_ids G) by (destruct St as (? & _ & _ & ?); auto).
  assert (Ag := same_exec o F G c WF WG Sk Fr). rewrite Es in Ag.
  destruct (sp_exec o F c) as [F'|] eqn:EF; cbn [agree] in Ag; [|destruct Ag].
  destruct A as [(db' & r & G' & -> & Hr & Er & _ & S' & Sk' & Hc)|[[-> _]|[-> _]]]; [|split; [left; auto|eauto]|split; [right; auto|eauto]].
  exists F'. split; auto. split; auto. split; [apply (sp_exec_ids o F c F'); auto|]. exists G'. split; auto.
  split; [eapply same_trans; eauto|]. intros X. rewrite (Hc (Ca X)). rewrite (Ex X) in Es. congruence.
Qed.

Lemma fresh1 F (x : node) : ~ In (nid x) (ids F) -> forall i, In i [nid x] -> ~ In i (ids F).
Proof. intros H i [<-|[]]. auto. Qed.

Lemma uniq t G : stores cfg t G -> forall a b, In a t -> In b t -> l_pk a = l_pk b -> a = b.
Proof.
  intros (f & L & <- & W) a b Ha Hb E. assert (X := get_by_pk_lay cfg t f a L W Ha). assert (Y := get_by_pk_lay cfg t f b L W Hb).
  rewrite E in X. congruence.
Qed.

Lemma srel_new s db F r k (stat : nat -> status) l : map l_pk l = s_names s -> lt_tree (lt_rows db) F ->
  In r (lt_rows db) -> l_pk r = k ->
  (forall u x, nth_error l u = Some x -> current (stat u) = true -> In x (lt_rows db)) ->
  lt_srel (mkLTS db (l ++ [r])) (mkSess F (s_names s ++ [k]) stat).
Proof.
  intros Nm R Hr Ek H. split; auto. split; cbn.
  - rewrite map_app, Nm. cbn. congruence.
  - intros u x E C. apply snoc_nth in E. destruct E as [[_ E]|[_ ->]]; eauto.
Qed.

Lemma left_pk p db db' t : l_pk (lt_left p db db' t) = l_pk t.
Proof.
  unfold lt_left. destruct p as [[]|]; auto. destruct (lt_shifted db db'); auto.
  destruct (get_by_pk (lt_rows db') (l_pk t)) eqn:E; auto. apply get_pk in E. tauto.
Qed.

Lemma lt_step_ok st s c : lt_srel st s -> lt_ok st s c ->
  same lt_sess lt_srel lt_out (SessionModel.lt_step cfg st c) (sp_step o (lt_after o) s c).
Proof.
  intros (Tr & Nm & H) [[Ca Nw] Cm]. assert (Tr' := Tr). destruct Tr' as (Wf & G & St & Sk & Ex).
  assert (Ln : length (s_names s) = length (lt_objs st)) by (rewrite <- Nm, map_length; auto).
  assert (Ids : forall i, In i (ids (s_tree s)) <-> In i (ids G)) by (intros i; split; apply same_ids; auto using same_sym).
  assert (Pk : forall i, In i (map l_pk (lt_rows (lt_now st))) <-> In i (ids (s_tree s))).
  { intros i. rewrite Ids. destruct St as (f & L & <- & _). assert (P := lay_pks cfg _ _ L). split; apply Permutation_in; auto using Permutation_sym. }
  assert (Un := uniq _ _ St).
  assert (Un' : forall k, In k (map l_pk (lt_rows (lt_now st))) -> forall a b, In a (lt_rows (lt_now st)) -> In b (lt_rows (lt_now st)) -> l_pk a = k -> l_pk b = k -> a = b)
    by (intros k _ a b Ha Hb E1 E2; apply Un; congruence).
  assert (Als : forall t, (forall r, In r (lt_rows (lt_now st)) -> In r t) -> forall u c, nth_error (lt_objs st) u = Some c ->
            current (also (s_stat s) (length (s_names s)) Held u) = true -> In c t).
  { intros t Ht u c' Eu Cu. apply Ht. apply (H u); auto. revert Cu. unfold also. rewrite Ln.
    assert (u < length (lt_objs st)) by (apply nth_error_Some; congruence).
    destruct (Nat.eqb_spec u (length (lt_objs st))); [lia|auto]. }
  assert (New : forall (l : list ltrow) v y, length l = length (lt_objs st) -> nth_error l v = Some y -> v <> length (s_names s)).
  { intros l v y El Ev ->. assert (length (s_names s) < length l) by (apply nth_error_Some; congruence). lia. }
  destruct c as [k|x|u x|u p x|u w p|u]; cbn [SessionModel.lt_step sp_step call_of careful new_node] in *.
  - (* fetch *)
    destruct (lookup cfg (lt_now st) G k St) as [(Eh & r & Hr & Er & E)|(Eh & E)]; rewrite E; cbn [bind same];
      rewrite (same_has _ _ k Sk), Eh; auto.
    eexists. split; [reflexivity|]. apply srel_new; auto. cbn [lt_after]. apply Als. auto.
  - (* root *)
    destruct Nw as [Fr _]. assert (FrG : ~ In (nid x) (ids G)) by (rewrite <- Ids; auto).
    assert (A := adds_tree _ _ _ (CAddRoot x) _ _ _ _ _ Wf St Sk Ex (fresh1 _ _ Fr)
                   eq_refl (add_root_ok cfg max2 (lt_now st) G x St FrG) Cm).
    cbn [sp_exec] in A |- *. change (mkNew (nid x) (ndata x)) with (new_of x).
    destruct (add_root cfg (lt_now st) (new_of x)) as [[db' r]|e] eqn:E; cbn [bind same].
    + destruct A as (F' & EF & Tr' & Hr & Er). injection EF as <-. eexists. split; [reflexivity|]. cbn [new_ids].
      apply srel_new; auto. cbn [lt_after]. change (sorts o) with (is_sorted cfg). destruct (is_sorted cfg) eqn:So.
      * intros v y Ey Cy. apply only_current in Cy. destruct Cy as (z & [Cy|[]] & _). injection Cy as <- _.
        exfalso. apply (New _ _ _ eq_refl Ey). auto.
      * apply Als. apply (root_keeps cfg _ (new_of x) _ _ (fun h => Fr (proj1 (Pk _) h)) E So).
    + right. destruct A as [A1 A2]. split; eauto.
  - (* child *)
    destruct Ca as (Hi & Hu & [Hd|Cu]); [discriminate|]. destruct Nw as [Fr _]. assert (FrG : ~ In (nid x) (ids G)) by (rewrite <- Ids; auto).
    rewrite Ln in Hu. destruct (obj_ok _ _ Hu) as (t & Et & Eo). rewrite Eo. cbn [bind].
    destruct (nth_names l_pk _ _ _ _ Nm Et) as (En & Ew & _). unfold who in *. rewrite Ew in *. rewrite En in *. cbn [option_map] in *.
    assert (Ht := H u t Et Cu).
    assert (HiG : has (l_pk t) G = true) by (apply has_spec; rewrite <- Ids; auto).
    assert (Es : sp_exec o G (CAddChild (l_pk t) x) = Ok (sp_add_child (gt_opt o (ndata x)) (l_pk t) x G)) by (cbn [sp_exec]; rewrite HiG; auto).
    assert (A := adds_tree _ _ _ (CAddChild (l_pk t) x) _ _ _ _ _ Wf St Sk Ex (fresh1 _ _ Fr)
                   Es (add_child_ok cfg max2 (lt_now st) G t x St Ht FrG) (fun X => Cm X t Ht eq_refl)).
    change (mkNew (nid x) (ndata x)) with (new_of x).
    destruct (add_child cfg (lt_now st) t (new_of x)) as [[db' r]|e] eqn:E; cbn [bind same].
    + destruct A as (F' & EF & Tr' & Hr & Er). rewrite EF. cbn [bind]. eexists. split; [reflexivity|]. cbn [new_ids].
      destruct (child_keeps cfg _ t (new_of x) _ _ Un' (fun h => Fr (proj1 (Pk _) h)) E) as [K1 K2].
      apply srel_new; auto. cbn [lt_after]. change (sorts o) with (is_sorted cfg). destruct (is_sorted cfg) eqn:So.
      * intros v y Ey Cy. apply only_current in Cy. destruct Cy as (z & [Cy|[Cy|[]]] & _).
        -- injection Cy as <- _. exfalso. apply (New _ _ _ eq_refl Ey). auto.
        -- injection Cy as <- _. rewrite Et in Ey. injection Ey as <-. apply K1; auto.
      * apply Als. auto.
    + destruct A as [A (F' & ->)]. right. cbn [bind]. eauto.
  - (* sibling *)
    destruct Ca as (Hu & Cu). destruct Nw as [Fr _]. assert (FrG : ~ In (nid x) (ids G)) by (rewrite <- Ids; auto).
    rewrite Ln in Hu. destruct (obj_ok _ _ Hu) as (t & Et & Eo). rewrite Eo. cbn [bind].
    destruct (nth_names l_pk _ _ _ _ Nm Et) as (En & Ew & _). rewrite En in *. cbn [option_map] in *.
    assert (Ht := H u t Et Cu).
    assert (Hi : In (l_pk t) (ids (s_tree s))) by (apply Pk, in_map; auto).
    assert (HiG : has (l_pk t) G = true) by (apply has_spec; rewrite <- Ids; auto).
    change (mkNew (nid x) (ndata x)) with (new_of x).
    destruct (prepare_pos_add (is_sorted cfg) p) as [P|e] eqn:EP.
    2:{ cbn [sp_exec]. rewrite (proj2 (has_spec _ _) Hi). change (sorts o) with (is_sorted cfg). unfold add_sibling, add_sibling_body. rewrite EP. cbn [bind same]. auto. }
    assert (Es : sp_exec o G (CAddSibling (l_pk t) p x) = Ok (sp_add_sibling (l_pk t) P (gt_lt cfg x) x G)).
    { cbn [sp_exec sp_call]. rewrite HiG. change (sorts o) with (is_sorted cfg). rewrite EP. auto. }
    assert (A := adds_tree _ _ _ (CAddSibling (l_pk t) p x) _ _ _ _ _ Wf St Sk Ex (fresh1 _ _ Fr)
                   Es (add_sibling_ok cfg max2 (lt_now st) G t p P x St Ht FrG EP) (fun X => Cm X t P Ht eq_refl EP)).
    destruct (add_sibling cfg (lt_now st) t p (new_of x)) as [[db' r]|e] eqn:E; cbn [bind same].
    + destruct A as (F' & EF & Tr' & Hr & Er). rewrite EF. cbn [bind]. eexists. split; [reflexivity|]. cbn [new_ids].
      apply srel_new; auto.
      * etransitivity; [|apply Nm]. eapply put_map; eauto. apply left_pk.
      * cbn [lt_after]. intros v y Ey Cy. apply only_current in Cy. destruct Cy as (z & [Cy|[]] & _). injection Cy as <- _.
        exfalso. refine (New _ _ _ _ Ey eq_refl). apply put_length.
    + destruct A as [A (F' & ->)]. right. cbn [bind]. eauto.
  - (* move *)
    destruct Ca as (Hu & Hw & Cu & Cw). rewrite Ln in Hu, Hw.
    destruct (obj_ok _ _ Hu) as (n & En & Eo). rewrite Eo. cbn [bind].
    destruct (obj_ok _ _ Hw) as (t & Et & Eo'). rewrite Eo'. cbn [bind].
    destruct (nth_names l_pk _ _ _ _ Nm En) as (Enn & _). destruct (nth_names l_pk _ _ _ _ Nm Et) as (Ent & _). rewrite Enn, Ent in *.
    assert (Hn := H u n En Cu). assert (Ht := H w t Et Cw).
    assert (Fc : fresh_call (s_tree s) (CMove (l_pk n) (l_pk t) p)) by (intros i []).
    assert (WG : wf_ids G) by (destruct St as (? & _ & _ & ?); auto).
    assert (Ag := same_exec o _ _ (CMove (l_pk n) (l_pk t) p) Wf WG Sk Fc).
    assert (In1 : has (l_pk n) G = true) by (apply has_spec; rewrite <- Ids; apply Pk, in_map; auto).
    assert (In2 : has (l_pk t) G = true) by (apply has_spec; rewrite <- Ids; apply Pk, in_map; auto).
    assert (Ed : data_of (l_pk n) G = l_data n).
    { destruct St as (f' & L & E' & _). destruct (lay_in cfg _ _ _ L Hn) as (y & Hy & ->).
      apply (data_of_spec _ G (snd y)); auto. rewrite <- E', kerase_preorder. apply in_map; auto. }
    destruct (prepare_pos_move (is_sorted cfg) p) as [P|e] eqn:EP.
    2:{ cbn [sp_exec] in Ag |- *. rewrite In1, In2 in Ag. cbn [andb] in Ag. change (sorts o) with (is_sorted cfg) in *. rewrite EP in Ag. cbn [bind] in Ag.
        unfold move. rewrite EP in *. cbn [bind same] in *. rewrite (same_has _ _ _ Sk), In1, (same_has _ _ _ Sk), In2. cbn [andb bind]. auto. }
    destruct (move_ok cfg max2 (lt_now st) G n t p P St Hn Ht EP) as [[Hi E]|[Hi Mv]].
    { rewrite E. cbn [bind same]. left. cbn [sp_exec] in Ag |- *. rewrite In1, In2 in Ag. cbn [andb] in Ag. change (sorts o) with (is_sorted cfg) in *.
      rewrite EP in *. cbn [bind] in *. rewrite (proj2 (insideb_spec _ _ _ _) Hi) in Ag.
      destruct (if has (l_pk n) (s_tree s) && has (l_pk t) (s_tree s) then _ else _); cbn [agree] in Ag; [destruct Ag|]. subst. auto. }
    assert (Es : sp_exec o G (CMove (l_pk n) (l_pk t) p) = Ok (sp_move (l_pk n) (l_pk t) P (fun y => sorted_after o (l_data n) (ndata y)) G)).
    { cbn [sp_exec sp_call]. rewrite In1, In2. cbn [andb]. change (sorts o) with (is_sorted cfg). rewrite EP. cbn [bind].
      rewrite (proj2 (insideb_false _ _ _ _) Hi), Ed. auto. }
    rewrite Es in Ag. destruct (sp_exec o (s_tree s) (CMove (l_pk n) (l_pk t) p)) as [F'|] eqn:EF; cbn [agree] in Ag; [|destruct Ag].
    cbn [bind]. destruct Mv as [(db' & r & G' & E & Hr & Er & S' & Sk' & Hc)|[[E _]|[E _]]]; rewrite E; cbn [bind same].
    2:{ right. split; [left; auto|eauto]. }
    2:{ right. split; [right; auto|eauto]. }
    eexists. split; [reflexivity|]. cbn [new_ids]. rewrite app_nil_r. split; [|split]; cbn [lt_now lt_objs s_tree s_names s_stat].
    + split; [apply (sp_exec_ids o _ _ _ Wf Fc EF)|]. exists G'. split; auto. split; [eapply same_trans; eauto|].
      intros X. rewrite (Hc (Cm X t n P Ht Hn eq_refl eq_refl EP)). rewrite <- (Ex X), Es in EF. injection EF as <-. reflexivity.
    + rewrite <- Nm. etransitivity; [|apply (put_map l_pk _ w (lt_left (pos_of (Ok P)) (lt_now st) db' t) t Et (left_pk _ _ _ _))].
      assert (Eu2 : exists z, nth_error (put (lt_objs st) w (lt_left (pos_of (Ok P)) (lt_now st) db' t)) u = Some z /\ l_pk z = l_pk n).
      { rewrite put_nth. destruct (Nat.eqb_spec u w); cbn [andb]; [|eauto]. subst w. rewrite (proj2 (Nat.ltb_lt _ _) Hu).
        eexists. split; [reflexivity|]. rewrite left_pk. congruence. }
      destruct Eu2 as (z & Ez & Epz). eapply put_map; eauto. congruence.
    + cbn [lt_after]. intros v y Ey Cy. apply only_current in Cy. destruct Cy as (z & [Cy|[]] & _). injection Cy as <- _.
      rewrite put_nth, Nat.eqb_refl, put_length, (proj2 (Nat.ltb_lt _ _) Hu) in Ey. cbn in Ey. injection Ey as <-. auto.
  - (* remove *)
    assert (Hu := Ca). rewrite Ln in Hu. destruct (obj_ok _ _ Hu) as (q & Eq & Eo). rewrite Eo. cbn [bind].
    destruct (nth_names l_pk _ _ _ _ Nm Eq) as (En & Ew & _). rewrite En. cbn [option_map].
    assert (Eqd : delete_queryset (lt_now st) (fun r => l_pk r =? l_pk q) =
                 delete_queryset (lt_now st) (fun r => existsb (Nat.eqb (l_pk r)) [l_pk q])).
    { unfold delete_queryset. rewrite (filter_ext (fun r => existsb (Nat.eqb (l_pk r)) [l_pk q]) (fun r => l_pk r =? l_pk q)); auto.
      intros a. cbn. apply orb_false_r. }
    cbn [sp_exec bind same]. eexists. split; [reflexivity|].
    assert (Fc : forall F, fresh_call F (CDelete [l_pk q])) by (intros F i []).
    assert (WG : wf_ids G) by (destruct St as (? & _ & _ & ?); auto).
    assert (Ag := same_exec o _ _ (CDelete [l_pk q]) Wf WG Sk (Fc _)). cbn [sp_exec agree] in Ag.
    assert (T2 : exists G', stores cfg (lt_rows (delete_queryset (lt_now st) (fun r => existsb (Nat.eqb (l_pk r)) [l_pk q]))) G' /\
                same_kids (sp_call o G (CDelete [l_pk q])) G' /\ G' = sp_call o G (CDelete [l_pk q])).
    { destruct (call_step cfg max2 (lt_now st) G (CDelete [l_pk q]) St (Fc _)) as [(db' & F' & S & E1 & E2 & S' & Sk' & Hc)|[(e & E1 & _)|(S & _ & [[E1 _]|[E1 _]])]]; try discriminate E1.
      cbn [lt_exec sp_exec] in E1, E2. injection E1 as <-. injection E2 as <-. exists F'. split; auto. }
    destruct T2 as (G' & S' & Sk' & EG').
    assert (Tr2 : lt_tree (lt_rows (delete_queryset (lt_now st) (fun r => l_pk r =? l_pk q))) (sp_call o (s_tree s) (CDelete [l_pk q]))).
    { rewrite Eqd. split; [apply (sp_exec_ids o _ (CDelete [l_pk q]) _ Wf (Fc _) eq_refl)|].
      exists G'. split; auto. split; [eapply same_trans; eauto|]. intros X. rewrite EG', (Ex X). auto. }
    split; [exact Tr2|]. split; cbn [lt_now lt_objs s_tree s_names s_stat lt_after].
    + cbn. rewrite app_nil_r. auto.
    + intros v y Ey Cy. destruct (nth_names l_pk _ _ _ _ Nm Ey) as (_ & Ewy & _). unfold who in Cy. rewrite Ewy, Ew in Cy.
      destruct (has (l_pk y) (sp_call o (s_tree s) (CDelete [l_pk q]))) eqn:Eh; [|discriminate].
      rewrite Eqd. destruct (lookup cfg _ G' (l_pk y) S') as [(_ & z & Hz & Ez & _)|(Eh' & _)].
      * assert (Hz' := delete_sub _ _ _ Hz). assert (Hy := H v y Ey Cy). replace y with z; auto.
      * exfalso. assert (Sk2 : same_kids (sp_call o (s_tree s) (CDelete [l_pk q])) G') by (eapply same_trans; eauto).
        rewrite (same_has _ _ _ Sk2) in Eh. congruence.
Qed.

(** A careful program has the outcome of the specification, or the labels are used up. *)
Theorem lt_session_ok cs st s : lt_srel st s -> all_ok lt_sess (SessionModel.lt_step cfg) o (lt_after o) lt_ok st s cs ->
  match play (SessionModel.lt_step cfg) st cs with
  | Ok st' => exists s', play (sp_step o (lt_after o)) s cs = Ok s' /\ lt_srel st' s'
  | Err e => play (sp_step o (lt_after o)) s cs = Err e \/ lt_out e
  end.
Proof. apply play_ok. apply lt_step_ok. Qed.
End LT.
