(** C62: reading an adjacency list takes one query for every node with children, and others
    may change the table between two queries. *)
From Coq Require Import String List Arith ZArith Lia Bool Permutation Sorted.
From Verif Require Import Prelude Forest SpecFacts SpecSane CommonModel Order History SpecRun SpecKids Fixture
  ALModel ALInv ALReads ALAnswers ALHist ReadModel Grows ReadFacts PropsAL.
Import ListNotations.

Definition pks (l : list alobj) : list nat := map (fun x => a_pk (o_row x)) l.

(** The level [n] is within max_depth; 0 is no limit. *)
Definition within (d : option nat) (n : nat) : Prop := match levels d with Some m => n <= m | None => True end.

Lemma within_deep d n : too_deep (option_map Z.of_nat d) (Z.of_nat n) = false <-> within d n.
Proof.
  unfold within. destruct d as [[|m]|]; cbn [option_map too_deep levels]; try tauto.
  replace (Z.of_nat (S m) =? 0)%Z with false by (symmetry; apply Z.eqb_neq; lia). cbn [negb andb]. rewrite Z.ltb_ge. lia.
Qed.

Lemma levels_over o env fuel k p nhc z d : tree_over o env fuel k p nhc z (option_map Z.of_nat d) =
  tree_over o env fuel k p nhc z (option_map Z.of_nat (levels d)).
Proof. destruct d as [[|m]|]; auto. apply zero_over. Qed.

(** ** Nobody moves a node *)
Section Stay.
Variables (o : ordering) (env : nat -> al_table) (F : nat -> forest node).
Hypothesis St : forall k, stores o (env k) (F k).
(** Others may add, delete and reorder nodes, but a node never gets another parent. *)
Hypothesis stay : forall j k i p q, parent_of i (F j) = Some p -> parent_of i (F k) = Some q -> p = q.

(** get_tree returns no node twice, every object was in the tree at some moment, at the level that is
    noted in it, and every node that was in the tree all the time is returned. *)
Theorem C62_stay fuel d l k' : get_tree_over o env fuel 0 None (option_map Z.of_nat d) = Ok (l, k') ->
  NoDup (pks l) /\
  (forall x, In x l -> exists j A, j < k' /\ In (o_row x) (env j) /\ ancestors_of (a_pk (o_row x)) (F j) = Some A /\
     o_depth x = Some (Z.of_nat (S (length A))) /\ within d (S (length A))) /\
  (forall i A, (forall j, j < k' \/ j = 0 -> In i (ids (F j))) -> ancestors_of i (F 0) = Some A -> within d (S (length A)) -> In i (pks l)).
Proof.
  unfold get_tree_over. intros E. change 1%Z with (Z.of_nat (S (@length nat []))) in E.
  destruct (over_sound o env F St stay fuel 0 None true [] _ l k' eq_refl E) as (_ & Sb & N). split; auto. split.
  - intros x Hx. rewrite Forall_forall in Sb. destruct (Sb x Hx) as (pre & j & _ & HL & Ed & Hr & Hj & Td). rewrite app_nil_r in *.
    destruct (St j) as (W & _ & so & Fit & _). destruct (fits_pk so _ _ W Fit _ Hr) as (Hi & _).
    destruct (line_at o env F St stay j _ _ Hi HL) as (A & EA & ->). exists j, A. cbn [length] in *. rewrite rev_length, map_length in *.
    repeat split; auto. apply within_deep. auto.
  - intros i A Hi EA Wi. assert (HL := line_in o env F St 0 i A EA).
    apply (over_complete o env F St stay fuel 0 0 None [] (option_map Z.of_nat d) l k' i (i :: rev (map nid A))).
    + reflexivity.
    + lia.
    + exact E.
    + intros j _ H. apply Hi. tauto.
    + rewrite app_nil_r. auto.
    + discriminate.
    + rewrite app_nil_r. cbn [length]. rewrite rev_length, map_length. apply within_deep. auto.
Qed.

Theorem C62_stay_ends fuel d : (forall k, size (F k) < fuel) -> exists l k', get_tree_over o env fuel 0 None d = Ok (l, k').
Proof.
  intros H. unfold get_tree_over. destruct fuel as [|N]; [specialize (H 0); lia|].
  destruct (over_ends o env F St stay N ltac:(intros j; specialize (H j); lia) (S N) 0 None true [] 1%Z d eq_refl ltac:(cbn; lia)) as ((l & k') & E). eauto.
Qed.

(** get_ancestors and get_depth of a node that is in the tree all the time. *)
Theorem C62_stay_ancestors fuel r : (exists j, In r (env j)) -> (forall j, In (a_pk r) (ids (F j))) -> size (F 0) <= fuel ->
  exists A L k', ancestors_of (a_pk r) (F 0) = Some A /\ (forall j, exists B, ancestors_of (a_pk r) (F j) = Some B /\ map nid B = map nid A) /\
    ancestors_over env fuel 0 r = Ok (L, k') /\ map a_pk L = map nid A /\ (forall x, In x L -> exists j, j < k' /\ In x (env j)) /\
    depth_over env fuel 0 (fresh r) = Ok (Z.of_nat (S (length A)), k').
Proof.
  intros Hr Hi Hf. destruct (St 0) as (W & _). destruct (anc_parent _ _ W (Hi 0)) as (A & EA & HA).
  assert (HL := line_in o env F St 0 _ _ EA).
  assert (Hlt : length (rev (map nid A)) < fuel).
  { rewrite rev_length, map_length. assert (X := line_at o env F St stay 0 _ _ (Hi 0) HL). destruct X as (B & EB & EL).
    assert (Y : S (length A) <= size (F 0)); [|lia]. clear - W EA.
    assert (X : length (a_pk r :: map nid A) <= length (ids (F 0))); [|unfold ids in X; cbn [length] in X; rewrite !map_length, size_preorder in X; exact X].
    apply NoDup_incl_length.
    - constructor; [|eapply anc_nodup; eauto]. intros X. apply in_map_iff in X. destruct X as (x & Ex & Hx). eapply anc_irr; eauto.
    - intros x [<-|Hx]; [eapply anc_has; eauto|]. apply in_map_iff in Hx. destruct Hx as (y & <- & Hy). apply in_map. eapply anc_in; eauto. }
  destruct (climb o env F St stay fuel 0 r (rev (map nid A)) Hr HL Hlt) as (L & E & EL & HL2).
  { intros j q _ _ Hq. apply (line_has o env F St stay j (a_pk r) _ q (Hi j) HL). right. auto. }
  exists A, L. eexists. split; auto. split.
  { intros j. destruct (line_at o env F St stay j _ _ (Hi j) HL) as (B & EB & X). exists B. split; auto. injection X as X.
    apply (f_equal (@rev nat)) in X. rewrite !rev_involutive in X. auto. }
  split; [exact E|]. rewrite rev_involutive in EL. split; auto. split.
  { intros x Hx. destruct (HL2 x Hx) as (j & _ & Hj & Hx2). eauto. }
  assert (Len : length L = length A) by (rewrite <- (map_length a_pk L), EL, map_length; auto).
  unfold depth_over. cbn [fresh o_row o_depth]. rewrite E. cbn [bind]. destruct (a_parent r) as [p|] eqn:Ep.
  - do 2 f_equal. rewrite Len. lia.
  - destruct Hr as (j & Hr). destruct (St j) as (Wj & _ & so & Fit & _). destruct (fits_pk so _ _ Wj Fit _ Hr) as (_ & P & _). rewrite Ep in P.
    destruct HA as [(_ & ->)|(q & A' & P' & _)]; [cbn; auto|]. assert (X := stay _ _ _ _ _ P P'). discriminate.
Qed.

(** get_descendants of a node that is in the tree all the time. *)
Theorem C62_stay_descendants fuel r d l k' : (exists j, In r (env j)) -> (forall j, In (a_pk r) (ids (F j))) -> size (F 0) <= fuel ->
  descendants_over o env fuel 0 (fresh r) (option_map Z.of_nat d) = Ok (l, k') ->
  exists A, ancestors_of (a_pk r) (F 0) = Some A /\ NoDup (pks l) /\
  (forall x, In x l -> exists j B, j < k' /\ In (o_row x) (env j) /\ ancestors_of (a_pk (o_row x)) (F j) = Some B /\
     In (a_pk r) (map nid B) /\ o_depth x = Some (Z.of_nat (S (length B))) /\ within d (length B - length A)) /\
  (forall i B, (forall j, j < k' -> In i (ids (F j))) -> (exists j, ancestors_of i (F j) = Some B) -> In (a_pk r) (map nid B) ->
     within d (length B - length A) -> In i (pks l)).
Proof.
  intros Hr Hi Hf E. destruct (C62_stay_ancestors fuel r Hr Hi Hf) as (A & L & k1 & EA & Same & _ & _ & _ & Ed). exists A. split; auto.
  unfold descendants_over, get_tree_over in E. rewrite Ed in E. cbn [bind fresh o_row] in E.
  set (m := match option_map Z.of_nat d with Some v => _ | None => None end) in E.
  destruct (tree_over _ _ _ _ _ _ _ m) as [[s k2]|] eqn:Es; [|discriminate]. cbn [bind tl] in E. injection E as <- <-.
  assert (HL := line_in o env F St 0 _ _ EA). set (LL := a_pk r :: rev (map nid A)) in *.
  assert (LLn : length LL = S (length A)) by (unfold LL; cbn [length]; rewrite rev_length, map_length; auto).
  replace (Z.of_nat (S (length A)) + 1)%Z with (Z.of_nat (S (length LL))) in Es by lia.
  assert (Dm : forall n, S (length A) <= n -> too_deep m (Z.of_nat n) = false <-> within d (n - S (length A))).
  { intros n Hn. unfold m, within. destruct d as [[|v]|]; cbn [option_map levels]; [cbn; tauto| |cbn; tauto].
    replace (Z.of_nat (S v) =? 0)%Z with false by (symmetry; apply Z.eqb_neq; lia). cbn [too_deep].
    replace (Z.of_nat (S v) + Z.of_nat (S (length A)) =? 0)%Z with false by (symmetry; apply Z.eqb_neq; lia). cbn [negb andb]. rewrite Z.ltb_ge. lia. }
  destruct (over_sound o env F St stay fuel (S k1) (Some (a_pk r)) _ LL _ s k2 HL Es) as (K2 & Sb & N). split; auto. split.
  - intros x Hx. rewrite Forall_forall in Sb. destruct (Sb x Hx) as (pre & j & Np & HLx & Edx & Hrx & Hj & Td).
    destruct (St j) as (W & _ & so & Fit & _). destruct (fits_pk so _ _ W Fit _ Hrx) as (Hix & _).
    destruct (line_at o env F St stay j _ _ Hix HLx) as (B & EB & EL). exists j, B.
    assert (Lb : length (pre ++ LL) = S (length B)) by (rewrite EL; cbn [length]; rewrite rev_length, map_length; auto).
    rewrite Lb in *. split; auto. split; auto. split; auto. split; [|split; auto].
    + destruct pre as [|y pre]; [congruence|]. cbn [app] in EL. injection EL as _ EL. apply in_rev. rewrite <- EL. apply in_app_iff. right. left. auto.
    + rewrite app_length in Lb. apply Dm in Td; [|lia]. replace (length B - length A) with (S (length B) - S (length A)) by lia. auto.
  - intros i B Hall (j0 & EB) Hin Wi. assert (HLi := line_in o env F St j0 _ _ EB).
    assert (Hpre : exists pre, pre <> [] /\ i :: rev (map nid B) = pre ++ LL).
    { assert (H2 := proj1 (in_rev _ _) Hin). destruct (Same j0) as (A0 & EA0 & _). 
      assert (Sp : forall M x q, line F x M -> In q M -> exists pre Lq, M = pre ++ Lq /\ line F q Lq /\ (q <> x -> pre <> [])).
      { clear. intros M x q H. induction H as [i j P|i j p M P HM IH]; intros Hq.
        - destruct Hq as [<-|[]]. exists [], [i]. split; auto. split; [eapply line_root; eauto|congruence].
        - destruct (Nat.eq_dec q i) as [->|Ne].
          + exists [], (i :: M). split; auto. split; [eapply line_kid; eauto|congruence].
          + destruct Hq as [->|Hq]; [congruence|]. destruct (IH Hq) as (pre & Lq & -> & H1 & _). exists (i :: pre), Lq. split; auto. split; auto. discriminate. }
      destruct (Sp _ i (a_pk r) HLi (or_intror H2)) as (pre & Lq & E1 & E2 & E3). exists pre.
      rewrite E1, (line_det F stay _ _ E2 _ HL). split; auto. apply E3. intros Ei.
      apply in_map_iff in Hin. destruct Hin as (x & Ex & Hx). destruct (St j0) as (W0 & _). apply (anc_irr _ _ _ W0 EB x Hx). congruence. }
    destruct Hpre as (pre & Np & Ep). rewrite Ep in HLi.
    assert (Lb : length (pre ++ LL) = S (length B)) by (rewrite <- Ep; cbn [length]; rewrite rev_length, map_length; auto).
    apply (over_complete o env F St stay fuel k1 (S k1) (Some (a_pk r)) LL m s k2 i pre); auto.
    + rewrite <- Es. f_equal. destruct (St k1) as (W & _ & so & Fit & _). unfold is_leaf, get_children.
      destruct (has_children (env k1) (a_pk r)) eqn:Eh.
      * unfold has_children in Eh. apply existsb_exists in Eh. destruct Eh as (y & Hy & Ey). apply par_eqb_spec in Ey.
        assert (X : In y (kids o (env k1) (Some (a_pk r)))) by (apply (sorted_in o _ _ so (F k1)); auto).
        destruct (kids o (env k1) (Some (a_pk r))); [destruct X|auto].
      * assert (X := nhc_kids o (env k1) (a_pk r)). rewrite Eh in X. rewrite <- X. auto.
    + intros j Hj1 Hj2. apply Hall. lia.
    + rewrite Lb. apply Dm; [rewrite app_length in Lb; lia|]. replace (S (length B) - S (length A)) with (length B - length A) by lia. auto.
Qed.
End Stay.

(** ** Others only add nodes *)
Section Grow.
Variables (o : ordering) (env : nat -> al_table) (F : nat -> forest node).
Hypothesis St : forall k, stores o (env k) (F k).
Hypothesis So : forall k, o = [] \/ strict o (F k).
Hypothesis Gr : forall k, grows (F k) (F (S k)).

(** get_tree returns, in depth-first order, a tree between the trees at its beginning and at its end. *)
Theorem C62_adding fuel d l k' : get_tree_over o env fuel 0 None (option_map Z.of_nat d) = Ok (l, k') ->
  exists H, grows (F 0) H /\ grows H (F k') /\ map with_level l = map at_level (preorder_d 1 (prune_opt (levels d) H)).
Proof.
  unfold get_tree_over. rewrite levels_over. intros E.
  assert (Em : option_map Z.of_nat (levels d) = maxd (levels d) (Z.of_nat 1)) by (destruct d as [[|n]|]; cbn [levels option_map maxd]; auto; f_equal; lia).
  assert (Hl : levels d <> Some 0) by (destruct d as [[|n]|]; cbn; congruence).
  rewrite Em in E. destruct fuel as [|fuel]; [discriminate|]. rewrite tree_over_S in E.
  replace (too_deep (maxd (levels d) (Z.of_nat 1)) 1) with false in E.
  - cbn [asks] in E. destruct (gr_lists o env F St So 0) as (so & Fit & Ls). rewrite (Ls None) in E. change (kl None (F 0)) with (roots (F 0)) in E.
    destruct (grow_loop o env F St Gr fuel 0 so 1 (levels d)) with (L := F 0) (up := @None nat) (k := 1) (l := l) (k' := k') as (K & H & F1 & F2); auto.
    + intros k p c l0 k0' Hk Hc E0. apply (grow_rec o env F St So Gr fuel 0 k p c 1 (levels d) l0 k0'); auto.
    + apply (gr_wf o env F St).
    + exists H. split; [eapply fill_lower; eauto|]. split; auto.
      apply (fill_upper (F k') (F 0)); auto; [apply (gr_le F Gr); lia|apply (gr_wf o env F St)].
  - destruct d as [[|n]|]; cbn [levels maxd too_deep]; auto. symmetry. apply andb_false_iff. right. apply Z.ltb_ge. lia.
Qed.

Lemma adding_stay j k i p q : parent_of i (F j) = Some p -> parent_of i (F k) = Some q -> p = q.
Proof. apply (gr_stay o env F St Gr). Qed.

Lemma same_nodes G X Y : wf_ids G -> incl X (preorder G) -> incl Y (preorder G) -> map nid X = map nid Y -> X = Y.
Proof.
  intros W. revert Y. induction X as [|x X IH]; intros [|y Y] HX HY E; try discriminate; auto. cbn [map] in E. injection E as E1 E2.
  f_equal; [apply (node_eq G); auto; [apply HX|apply HY]; left; auto|]. apply IH; auto; intros z Hz; [apply HX|apply HY]; right; auto.
Qed.

Theorem C62_adding_ancestors fuel r : In r (env 0) -> size (F 0) <= fuel ->
  exists A L k', ancestors_of (a_pk r) (F 0) = Some A /\ ancestors_over env fuel 0 r = Ok (L, k') /\ row_nodes L = A /\
    depth_over env fuel 0 (fresh r) = Ok (Z.of_nat (S (length A)), k').
Proof.
  intros Hr Hf. assert (Hi : forall j, In (a_pk r) (ids (F j))).
  { intros j. apply (grows_ids _ _ (gr_le F Gr 0 j ltac:(lia))). destruct (St 0) as (W & _ & so & Fit & _). apply (fits_pk so _ _ W Fit r Hr). }
  destruct (C62_stay_ancestors o env F St adding_stay fuel r (ex_intro _ 0 Hr) Hi Hf) as (A & L & k' & EA & _ & E & EL & HL & Ed).
  exists A, L, k'. split; auto. split; auto. split; auto. apply (same_nodes (F k')); [apply (gr_wf o env F St)| | |].
  - intros x Hx. apply in_map_iff in Hx. destruct Hx as (y & <- & Hy). destruct (HL y Hy) as (j & Hj & Hin).
    apply (grows_in _ _ _ (gr_le F Gr j k' ltac:(lia))). destruct (St j) as (W & _ & so & Fit & _). destruct (fits_pk so _ _ W Fit y Hin) as (_ & _ & X & _). eapply kl_pre; eauto.
  - intros x Hx. apply (grows_in _ _ _ (gr_le F Gr 0 k' ltac:(lia))). eapply anc_in; eauto.
  - unfold row_nodes. rewrite map_map. exact EL.
Qed.

Theorem C62_adding_descendants fuel r d l k' : In r (env 0) -> size (F 0) <= fuel ->
  descendants_over o env fuel 0 (fresh r) (option_map Z.of_nat d) = Ok (l, k') ->
  exists A c H c', ancestors_of (a_pk r) (F 0) = Some A /\ children_of (a_pk r) (F 0) = Some c /\ children_of (a_pk r) (F k') = Some c' /\
    grows c H /\ grows H c' /\ map with_level l = map at_level (preorder_d (S (S (length A))) (prune_opt (levels d) H)).
Proof.
  intros Hr Hf E. destruct (C62_adding_ancestors fuel r Hr Hf) as (A & L & k1 & EA & _ & _ & Ed).
  assert (Hi : In (a_pk r) (ids (F 0))) by (destruct (St 0) as (W & _ & so & Fit & _); apply (fits_pk so _ _ W Fit r Hr)).
  destruct (children_some _ _ Hi) as (c & Ec).
  unfold descendants_over, get_tree_over in E. rewrite Ed in E. cbn [bind fresh o_row] in E.
  set (n := S (length A)) in *.
  assert (Em : match option_map Z.of_nat d with Some v => if (v =? 0)%Z then Some v else Some (v + Z.of_nat n)%Z | None => None end
     = match d with Some 0 => Some 0%Z | _ => maxd (option_map S (levels d)) (Z.of_nat n) end).
  { destruct d as [[|v]|]; cbn [option_map levels maxd]; auto.
    replace (Z.of_nat (S v) =? 0)%Z with false by (symmetry; apply Z.eqb_neq; lia). f_equal. lia. }
  rewrite Em in E. clear Em.
  assert (Ez : forall k nhc z, tree_over o env fuel k (Some (a_pk r)) nhc z (match d with Some 0 => Some 0%Z | _ => maxd (option_map S (levels d)) (Z.of_nat n) end)
     = tree_over o env fuel k (Some (a_pk r)) nhc z (maxd (option_map S (levels d)) (Z.of_nat n))).
  { intros k nhc z. destruct d as [[|v]|]; auto. apply zero_over. }
  rewrite Ez in E. clear Ez.
  destruct (tree_over _ _ _ _ _ _ _ _) as [[s k2]|] eqn:Es; [|discriminate]. cbn [bind tl] in E. injection E as <- <-.
  destruct (grows_kids _ _ _ _ (gr_le F Gr 0 k1 ltac:(lia)) (gr_wf o env F St k1) Ec) as (c1 & Ec1 & Gc1).
  assert (Eh : negb (is_leaf o (env k1) r) = has_children (env k1) (a_pk r)).
  { destruct (St k1) as (W & _ & so & Fit & _). unfold is_leaf, get_children.
    destruct (has_children (env k1) (a_pk r)) eqn:Eh.
    - unfold has_children in Eh. apply existsb_exists in Eh. destruct Eh as (y & Hy & Ey). apply par_eqb_spec in Ey.
      assert (X : In y (kids o (env k1) (Some (a_pk r)))) by (apply (sorted_in o _ _ so (F k1)); auto).
      destruct (kids o (env k1) (Some (a_pk r))); [destruct X|auto].
    - assert (X := nhc_kids o (env k1) (a_pk r)). rewrite Eh in X. rewrite <- X. auto. }
  rewrite Eh in Es.
  destruct (grow_rec o env F St So Gr fuel k1 (S k1) (a_pk r) c1 n (option_map S (levels d)) s k2) as (K & H & c2 & G1 & G2 & G3 & G4); auto.
  - unfold n. lia.
  - destruct (levels d); cbn; congruence.
  - exists A, c, H, c2. repeat (split; auto); [eapply grows_trans; eauto|]. rewrite G4. destruct (levels d); auto.
Qed.
End Grow.

(** ** Histories: [before], then [during] while the reader makes its queries.
    Query [k] sees the first [w k] of the calls [during]. *)
Definition seen_at (o : ordering) (before during : list call) (w : nat -> nat) (k : nat) : al_table :=
  fst (run (al_exec o) [] (before ++ firstn (w k) during)).
Definition forest_at (o : ordering) (before during : list call) (w : nat -> nat) (k : nat) : forest node :=
  fst (run (sp_exec o) Nil (before ++ firstn (w k) during)).

Lemma part_nodup (a b : list call) n : NoDup (flat_map new_ids (a ++ b)) -> NoDup (flat_map new_ids (a ++ firstn n b)).
Proof.
  rewrite !flat_map_app. intros H. rewrite <- (firstn_skipn n b), flat_map_app, app_assoc in H. apply NoDup_app_iff in H. tauto.
Qed.

Lemma seen_stores o before during w : NoDup (flat_map new_ids (before ++ during)) -> (o <> [] -> Forall (call_values o) (before ++ during)) ->
  forall k, stores o (seen_at o before during w k) (forest_at o before during w k).
Proof.
  intros N V k. assert (H := al_history o (before ++ firstn (w k) during) (part_nodup before during (w k) N)).
  unfold seen_at, forest_at. destruct (run (al_exec o) [] _), (run (sp_exec o) Nil _). apply H. intros Ho. specialize (V Ho).
  apply Forall_app in V. destruct V as (V1 & V2). apply Forall_app. split; auto. rewrite <- (firstn_skipn (w k) during) in V2. apply Forall_app in V2. tauto.
Qed.

(** The rest of the calls. *)
Lemma forest_later o before during w j k : w j <= w k -> forest_at o before during w k =
  fst (run (sp_exec o) (forest_at o before during w j) (firstn (w k - w j) (skipn (w j) during))).
Proof.
  intros H. unfold forest_at. assert (E : firstn (w k) during = firstn (w j) during ++ firstn (w k - w j) (skipn (w j) during)).
  { rewrite <- firstn_skipn_comm || idtac. replace (w k) with (w j + (w k - w j)) at 1 by lia. generalize (w k - w j). intros m. clear.
    revert during. induction (w j) as [|n IH]; intros l; auto. destruct l; cbn; [destruct m; auto|]. f_equal. apply IH. }
  rewrite E, app_assoc, run_app. destruct (run (sp_exec o) Nil (before ++ firstn (w j) during)) as [G dn]. cbn [fst].
  destruct (run (sp_exec o) G _). auto.
Qed.

Theorem C62_histories_adding o before during w fuel d :
  NoDup (flat_map new_ids (before ++ during)) -> (o <> [] -> Forall (call_values o) (before ++ during)) ->
  (forall k, w k <= w (S k)) -> Forall adds during -> (forall k, o = [] \/ strict o (forest_at o before during w k)) ->
  (forall k, size (forest_at o before during w k) < fuel) ->
  exists l k' H, get_tree_over o (seen_at o before during w) fuel 0 None (option_map Z.of_nat d) = Ok (l, k') /\
    grows (forest_at o before during w 0) H /\ grows H (forest_at o before during w k') /\
    map with_level l = map at_level (preorder_d 1 (prune_opt (levels d) H)).
Proof.
  intros N V Mw A So Sz. assert (St := seen_stores o before during w N V).
  assert (Gr : forall k, grows (forest_at o before during w k) (forest_at o before during w (S k))).
  { intros k. rewrite (forest_later o before during w k (S k) (Mw k)). apply run_adds. apply Forall_forall. intros c Hc.
    rewrite Forall_forall in A. apply A. rewrite <- (firstn_skipn (w k) during). apply in_app_iff. right.
    rewrite <- (firstn_skipn (w (S k) - w k) (skipn (w k) during)). apply in_app_iff. auto. }
  destruct (C62_stay_ends o _ _ St (gr_stay o _ _ St Gr) fuel (option_map Z.of_nat d) Sz) as (l & k' & E).
  destruct (C62_adding o _ _ St So Gr fuel d l k' E) as (H & H1 & H2 & H3). exists l, k', H. auto.
Qed.

Theorem C62_histories_deleting o before during w fuel d :
  NoDup (flat_map new_ids (before ++ during)) -> (o <> [] -> Forall (call_values o) (before ++ during)) ->
  (forall k, w k <= w (S k)) -> Forall no_move during -> (forall k, size (forest_at o before during w k) < fuel) ->
  exists l k', get_tree_over o (seen_at o before during w) fuel 0 None (option_map Z.of_nat d) = Ok (l, k') /\ NoDup (pks l) /\
  (forall x, In x l -> exists j A, j < k' /\ In (o_row x) (seen_at o before during w j) /\
     ancestors_of (a_pk (o_row x)) (forest_at o before during w j) = Some A /\ o_depth x = Some (Z.of_nat (S (length A))) /\ within d (S (length A))) /\
  (forall i A, (forall j, j < k' \/ j = 0 -> In i (ids (forest_at o before during w j))) ->
     ancestors_of i (forest_at o before during w 0) = Some A -> within d (S (length A)) -> In i (pks l)).
Proof.
  intros N V Mw A Sz. assert (St := seen_stores o before during w N V).
  assert (Stay : forall j k i p q, parent_of i (forest_at o before during w j) = Some p -> parent_of i (forest_at o before during w k) = Some q -> p = q).
  { assert (X : forall j k i p q, j <= k -> parent_of i (forest_at o before during w j) = Some p -> parent_of i (forest_at o before during w k) = Some q -> p = q).
    { intros j k i p q Hjk Ep Eq. assert (Hw : w j <= w k) by (clear - Mw Hjk; induction Hjk; auto; specialize (Mw m); lia).
      rewrite (forest_later o before during w j k Hw) in Eq. set (rest := firstn (w k - w j) (skipn (w j) during)) in *.
      assert (Nr : NoDup (flat_map new_ids ((before ++ firstn (w j) during) ++ rest))).
      { rewrite <- app_assoc. rewrite !flat_map_app in *. apply NoDup_app_iff in N. destruct N as (N1 & N2 & N3).
        rewrite <- (firstn_skipn (w j) during), <- (firstn_skipn (w k - w j) (skipn (w j) during)) in N2, N3. fold rest in N2, N3.
        rewrite !flat_map_app, app_assoc in N2, N3. apply NoDup_app_iff in N2. apply NoDup_app_iff. split; auto. split; [tauto|].
        intros x H1 H2. apply (N3 x H1). apply in_app_iff. auto. }
      rewrite flat_map_app in Nr. apply NoDup_app_iff in Nr. destruct Nr as (N1 & N2 & N3).
      apply (run_stays o rest) with (G := forest_at o before during w j) (i := i); auto.
      - apply Forall_forall. intros c Hc. rewrite Forall_forall in A. apply A. rewrite <- (firstn_skipn (w j) during). apply in_app_iff. right.
        rewrite <- (firstn_skipn (w k - w j) (skipn (w j) during)). apply in_app_iff. auto.
      - destruct (St j); auto.
      - intros x Hx Hi. unfold forest_at in Hi. apply run_ids in Hi. destruct Hi as [[]|Hi]. apply (N3 x); auto. }
    intros j k i p q Ep Eq. destruct (Nat.le_ge_cases j k) as [H|H]; [apply (X j k i)|symmetry; apply (X k j i)]; auto. }
  destruct (C62_stay_ends o _ _ St Stay fuel (option_map Z.of_nat d) Sz) as (l & k' & E). exists l, k'. split; auto.
  apply (C62_stay o _ _ St Stay fuel d l k' E).
Qed.

(** ** Examples *)

(** The reader lists ex_F = 7; 1(3,5); 2(4(6),9(10)) while others add 11 below 5, which the reader has
    passed, 12 below 6, which it has not reached, 13 below 9, and a root 14. *)
Definition ex_adds : list call := [CAddChild 5 (nd 11 1); CAddChild 4 (nd 12 1); CAddRoot (nd 14 1); CAddChild 9 (nd 13 1)].
(** As [ex_adds], and 10 and the branch of 4 are deleted. *)
Definition ex_dels : list call := [CAddChild 5 (nd 11 1); CAddChild 9 (nd 13 1); CDelete [10; 4]].

Definition tree_ids (r : res (list alobj * nat)) : res (list (nat * option nat) * nat) :=
  do '(l, k) <- r; Ok (map (fun x => (a_pk (o_row x), option_map Z.to_nat (o_depth x))) l, k).

Lemma cut4 {A} (a b c d : A) n : In (firstn n [a; b; c; d]) [[]; [a]; [a; b]; [a; b; c]; [a; b; c; d]].
Proof. destruct n as [|[|[|[|n]]]]; cbn; rewrite ?firstn_nil; auto 10. Qed.

Lemma ex_adds_size w k : size (forest_at [] ex_calls ex_adds w k) < 20.
Proof.
  unfold forest_at. assert (H := cut4 (CAddChild 5 (nd 11 1)) (CAddChild 4 (nd 12 1)) (CAddRoot (nd 14 1)) (CAddChild 9 (nd 13 1)) (w k)).
  fold ex_adds in H. cbn [In] in H. repeat destruct H as [<-|H]; [..|destruct H]; vm_compute; lia.
Qed.
Lemma ex_dels_size w k : size (forest_at [] ex_calls ex_dels w k) < 20.
Proof.
  unfold forest_at. destruct (w k) as [|[|[|n]]]; [vm_compute; lia|vm_compute; lia|vm_compute; lia|].
  replace (firstn (S (S (S n))) ex_dels) with ex_dels by (cbn; rewrite firstn_nil; auto). vm_compute. lia.
Qed.

(** One call between two queries; the reader makes six queries: the roots, the children of 1, 5, 2, 4 and 9. *)
Example C62_adding_example :
  NoDup (flat_map new_ids (ex_calls ++ ex_adds)) /\ Forall adds ex_adds /\
  (forall k, size (forest_at [] ex_calls ex_adds (fun k => k) k) < 20) /\
  tree_ids (get_tree_over [] (seen_at [] ex_calls ex_adds (fun k => k)) 20 0 None None)
    = Ok ([(7, Some 1); (1, Some 1); (3, Some 2); (5, Some 2); (11, Some 3); (2, Some 1); (4, Some 2); (6, Some 3); (12, Some 3);
           (9, Some 2); (10, Some 3); (13, Some 3)], 6) /\
  tree_ids (descendants_over [] (seen_at [] ex_calls ex_adds (fun k => k)) 20 0 (fresh (row ex_t 2)) (Some 1%Z))
    = Ok ([(4, Some 2); (9, Some 2)], 2) /\
  (do '(l, k) <- ancestors_over (seen_at [] ex_calls ex_adds (fun k => k)) 20 0 (row ex_t 10); Ok (map a_pk l, k)) = Ok ([2; 9], 2).
Proof.
  split; [apply nodup_b; vm_compute; reflexivity|]. split; [repeat constructor|]. split; [intros k; apply ex_adds_size|].
  vm_compute. auto.
Qed.

Example C62_deleting_example :
  NoDup (flat_map new_ids (ex_calls ++ ex_dels)) /\ Forall no_move ex_dels /\
  (forall k, size (forest_at [] ex_calls ex_dels (fun k => k) k) < 20) /\
  tree_ids (get_tree_over [] (seen_at [] ex_calls ex_dels (fun k => k)) 20 0 None None)
    = Ok ([(7, Some 1); (1, Some 1); (3, Some 2); (5, Some 2); (11, Some 3); (2, Some 1); (9, Some 2); (13, Some 3)], 5).
Proof.
  split; [apply nodup_b; vm_compute; reflexivity|]. split; [repeat constructor|]. split; [intros k; apply ex_dels_size|].
  vm_compute. auto.
Qed.

(** ** Moves *)

(** The tables before and after a call. *)
Definition after (t : al_table) (c : call) : al_table := match al_exec [] t c with Ok t' => t' | Err _ => t end.
Definition switch (k : nat) (a b : al_table) (j : nat) : al_table := if j <? k then a else b.

(** get_tree misses a node that is in the tree all the time: after the children of 1 are listed, 4 moves below 3. *)
Theorem C62_missed_refuted : exists env F l k', (forall k, stores [] (env k) (F k)) /\
  get_tree_over [] env 20 0 None None = Ok (l, k') /\ (forall k, In 4 (ids (F k)) /\ In 6 (ids (F k))) /\
  ~ In 4 (pks l) /\ ~ In 6 (pks l).
Proof.
  set (c := CMove 4 3 (Some "last-child"%string)).
  assert (S1 : stores [] (after ex_t c) (sp_call [] ex_F c)).
  { assert (H := al_call_ok [] ex_t ex_F c ex_stores ltac:(intros i []) ltac:(congruence)). unfold after.
    vm_compute in H |- *. exact H. }
  exists (switch 2 ex_t (after ex_t c)), (fun k => if k <? 2 then ex_F else sp_call [] ex_F c). do 2 eexists. split; [|split; [|split; [|split]]].
  - intros k. unfold switch. destruct (k <? 2); [apply ex_stores|apply S1].
  - vm_compute. reflexivity.
  - intros k. destruct (k <? 2); vm_compute; tauto.
  - vm_compute. intuition discriminate.
  - vm_compute. intuition discriminate.
Qed.

(** get_tree returns a node twice: after the children of 1 are listed, 5 moves below 2. *)
Theorem C62_twice_refuted : exists env F l k', (forall k, stores [] (env k) (F k)) /\
  get_tree_over [] env 20 0 None None = Ok (l, k') /\ ~ NoDup (pks l).
Proof.
  set (c := CMove 5 2 (Some "last-child"%string)).
  assert (S1 : stores [] (after ex_t c) (sp_call [] ex_F c)).
  { assert (H := al_call_ok [] ex_t ex_F c ex_stores ltac:(intros i []) ltac:(congruence)). unfold after.
    vm_compute in H |- *. exact H. }
  exists (switch 2 ex_t (after ex_t c)), (fun k => if k <? 2 then ex_F else sp_call [] ex_F c). do 2 eexists. split; [|split].
  - intros k. unfold switch. destruct (k <? 2); [apply ex_stores|apply S1].
  - vm_compute. reflexivity.
  - vm_compute. intros H. do 3 (apply NoDup_cons_iff in H; destruct H as (_ & H)). apply NoDup_cons_iff in H. destruct H as (H & _).
    apply H. cbn. tauto.
Qed.

(** get_ancestors returns a list that is never the list of the ancestors: after the parent 9 of 10 is read,
    9 moves below 7, and then 2 moves below 1. *)
Theorem C62_ancestors_refuted : exists during w l k', (forall k, w k <= w (S k)) /\ NoDup (flat_map new_ids (ex_calls ++ during)) /\
  ancestors_over (seen_at [] ex_calls during w) 20 0 (row ex_t 10) = Ok (l, k') /\
  forall n, exists A, ancestors_of 10 (forest_at [] ex_calls during (fun n => n) n) = Some A /\ row_nodes l <> A.
Proof.
  set (cs := [CMove 9 7 (Some "last-child"%string); CMove 2 1 (Some "last-child"%string)]).
  exists cs, (fun k => match k with 0 => 0 | _ => 2 end). do 2 eexists. split; [|split; [|split]].
  - intros [|[|k]]; auto.
  - apply nodup_b. vm_compute. reflexivity.
  - vm_compute. reflexivity.
  - intros n. unfold forest_at. assert (H : In (firstn n cs) [firstn 0 cs; firstn 1 cs; cs]) by (destruct n as [|[|n]]; cbn; rewrite ?firstn_nil; auto).
    cbn [In] in H. repeat destruct H as [<-|H]; [..|destruct H]; eexists; (split; [vm_compute; reflexivity|vm_compute; discriminate]).
Qed.

(** get_ancestors fails if an ancestor is deleted meanwhile. *)
Theorem C62_deleted_refuted : exists env F, (forall k, stores [] (env k) (F k)) /\ In (row (env 0) 10) (env 0) /\
  ancestors_over env 20 0 (row (env 0) 10) = Err DoesNotExist.
Proof.
  set (c := CDelete [2]).
  assert (S1 : stores [] (after ex_t c) (sp_call [] ex_F c)).
  { assert (H := al_call_ok [] ex_t ex_F c ex_stores ltac:(intros i []) ltac:(congruence)). unfold after.
    vm_compute in H |- *. exact H. }
  exists (switch 1 ex_t (after ex_t c)), (fun k => if k <? 1 then ex_F else sp_call [] ex_F c). split; [|split].
  - intros k. unfold switch. destruct (k <? 1); [apply ex_stores|apply S1].
  - vm_compute. tauto.
  - vm_compute. reflexivity.
Qed.

Print Assumptions C62_stay.
Print Assumptions C62_stay_ends.
Print Assumptions C62_stay_ancestors.
Print Assumptions C62_stay_descendants.
Print Assumptions C62_adding.
Print Assumptions C62_adding_ancestors.
Print Assumptions C62_adding_descendants.
Print Assumptions C62_histories_adding.
Print Assumptions C62_histories_deleting.
Print Assumptions C62_missed_refuted.
Print Assumptions C62_twice_refuted.
Print Assumptions C62_ancestors_refuted.
Print Assumptions C62_deleted_refuted.
