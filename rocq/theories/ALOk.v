(** Add, move and delete of adjacency lists do what the specification says; histories. *)
From Coq Require Import String List Arith ZArith Lia Bool Permutation Sorted.
From Verif Require Import Prelude Forest SpecFacts SpecSane CommonModel Order History SpecRun SpecKids ALModel ALInv ALReads ALUpd.
Import ListNotations.

Lemma next_state o F c G : wf_ids F -> ordered o F -> fresh_call F c -> (o <> [] -> call_values o c) ->
  sp_exec o F c = Ok G -> wf_ids G /\ ordered o G.
Proof.
  intros W O Fr V E. split; [apply (sp_exec_ids o F c G W Fr E)|].
  rewrite (sp_exec_ok _ _ _ _ E). apply sp_call_ordered; auto.
Qed.

Lemma next_sib_ok so t F p : fits so t F -> inc so F ->
  (1 <= next_sib t p)%Z /\ forall a, In a (kl p F) -> (so (nid a) < next_sib t p)%Z.
Proof.
  intros Fit I. unfold next_sib. assert (M := agg_max (map a_sib (filter (fun r => par_eqb (a_parent r) p) t))).
  assert (Q : forall v, In v (map a_sib (filter (fun r => par_eqb (a_parent r) p) t)) <-> exists a, In a (kl p F) /\ v = so (nid a)).
  { intros v. rewrite in_map_iff. split.
    - intros (r & <- & Hr). apply (Permutation_in _ (Fit p)) in Hr. apply in_map_iff in Hr. destruct Hr as (a & <- & Ha). exists a. auto.
    - intros (a & Ha & ->). exists (arow so p a). split; auto. apply (Permutation_in _ (Permutation_sym (Fit p))), in_map. auto. }
  destruct (agg Z.max _) as [m|]; cbn [or0].
  - destruct M as (M1 & M2). apply Q in M1. destruct M1 as (b & Hb & ->).
    destruct (I p) as (_ & P). rewrite Forall_forall in P. specialize (P b Hb). split; [lia|].
    intros a Ha. assert (so (nid a) <= so (nid b))%Z; [|lia]. apply M2, Q. eauto.
  - split; [lia|]. intros a Ha. assert (X : In (so (nid a)) []) by (rewrite <- M; apply Q; eauto). destruct X.
Qed.

Lemma save_in t r : NoDup (map a_pk t) -> In r (save_row t r).
Proof. intros ND. apply (Permutation_in _ (Permutation_sym (save_perm t r ND))). cbn; auto. Qed.

(** Adding at the end, or anywhere if the database sorts. *)
Lemma append_ok o t F G up x L1 L2 :
  wf_ids F -> wf_ids G -> ordered o G -> (exists so, fits so t F /\ (o = [] -> inc so F)) -> put F G up x L1 L2 ->
  (o = [] -> L2 = []) ->
  stores o (save_row t (mkAL (nid x) up (if is_sorted o then 0 else next_sib t up)%Z (ndata x))) G.
Proof.
  intros W WG OG (so & Fit & I) Pu Hl. split; auto. split; auto. eexists. split.
  - apply (fits_put so t F G up x L1 L2); auto.
  - intros Ho. specialize (I Ho). rewrite (Hl Ho) in Pu. rewrite Ho. cbn [is_sorted].
    destruct (next_sib_ok so t F up Fit I) as (N1 & N2). apply (inc_put so F G up x L1 []); auto.
    + intros a Ha. apply N2. assert (X : In a (drop (nid x) (kl up F))) by (rewrite (proj1 Pu), app_nil_r; auto).
      apply drop_in in X. tauto.
    + intros a [].
Qed.

Theorem add_root_ok o t F x : stores o t F -> ~ In (nid x) (ids F) -> (o <> [] -> has_values o (ndata x)) ->
  exists t' obj, add_root o t x = Ok (t', obj) /\ stores o t' (sp_add_root (gt_opt o (ndata x)) x F) /\
    In (o_row obj) t' /\ row_node (o_row obj) = x /\ o_depth obj = Some 1%Z.
Proof.
  intros (W & O & so & Fit & I) Hx V. eexists. eexists. split; [reflexivity|].
  assert (E : sp_exec o F (CAddRoot x) = Ok (sp_add_root (gt_opt o (ndata x)) x F)) by auto.
  destruct (fun fr v => next_state o F (CAddRoot x) _ W O fr v E) as (WG & OG); auto.
  { intros i [<-|[]]. auto. }
  destruct (add_root_sane (gt_opt o (ndata x)) x F W Hx) as (L1 & L2 & A & Sp). apply added_put in A; auto.
  split; [|split; [|split]]; auto.
  - apply (append_ok o t F _ None x L1 L2); eauto. intros ->. exact Sp.
  - apply save_in, (nodup_pks so t F W Fit).
  - destruct x; auto.
Qed.

Theorem add_child_ok o t F target x : stores o t F -> In (a_pk (o_row target)) (ids F) -> ~ In (nid x) (ids F) ->
  (o <> [] -> has_values o (ndata x)) ->
  exists t' obj, add_child o t target x = Ok (t', obj) /\
    stores o t' (sp_add_child (gt_opt o (ndata x)) (a_pk (o_row target)) x F) /\
    In (o_row obj) t' /\ row_node (o_row obj) = x /\ o_depth obj = option_map (fun d => d + 1)%Z (o_depth target).
Proof.
  intros (W & O & so & Fit & I) Ht Hx V. set (p := a_pk (o_row target)) in *.
  eexists. eexists. split; [reflexivity|].
  assert (E : sp_exec o F (CAddChild p x) = Ok (sp_add_child (gt_opt o (ndata x)) p x F)).
  { cbn [sp_exec]. rewrite (proj2 (has_spec p F) Ht). auto. }
  destruct (fun fr v => next_state o F (CAddChild p x) _ W O fr v E) as (WG & OG); auto.
  { intros i [<-|[]]. auto. }
  destruct (add_child_sane (gt_opt o (ndata x)) p x F W Ht Hx) as (L1 & L2 & A & Sp). apply added_put in A; auto.
  split; [|split; [|split]]; auto.
  - apply (append_ok o t F _ (Some p) x L1 L2); eauto. intros ->. exact Sp.
  - apply save_in, (nodup_pks so t F W Fit).
  - destruct x; auto.
Qed.

Theorem add_sibling_ok o t F target p P x : stores o t F -> In target t -> ~ In (nid x) (ids F) ->
  (o <> [] -> has_values o (ndata x)) -> prepare_pos_add (is_sorted o) p = Ok P ->
  exists t' obj, add_sibling o t target p x = Ok (t', obj) /\
    stores o t' (sp_add_sibling (a_pk target) P (gt_of o (ndata x)) x F) /\
    In (o_row obj) t' /\ row_node (o_row obj) = x /\ o_depth obj = None.
Proof.
  intros (W & O & so & Fit & I) Ht Hx V EP. set (G := sp_add_sibling (a_pk target) P (gt_of o (ndata x)) x F).
  destruct (fits_pk so t F W Fit target Ht) as (Hi & Hp & _).
  assert (E : sp_exec o F (CAddSibling (a_pk target) p x) = Ok G).
  { cbn [sp_exec sp_call]. rewrite (proj2 (has_spec _ F) Hi). change (sorts o) with (is_sorted o). rewrite EP. auto. }
  destruct (fun fr v => next_state o F (CAddSibling (a_pk target) p x) _ W O fr v E) as (WG & OG); auto.
  { intros i [<-|[]]. auto. }
  assert (SP := prepare_add_sib _ _ _ EP).
  destruct (add_sibling_sane (a_pk target) P (gt_of o (ndata x)) x F W Hi Hx SP) as (up & L1 & L2 & Eu & A & Sp).
  rewrite Hp in Eu. injection Eu as <-. apply added_put in A; auto. fold G in A.
  unfold add_sibling. rewrite EP. cbn [bind]. destruct (is_sorted o) eqn:So.
  - cbn [bind]. eexists. eexists. split; [reflexivity|]. split; [|split; [|split]]; auto.
    + split; auto. split; auto. exists (upd so (nid x) 0%Z). split; [apply (fits_put so t F G _ x L1 L2); auto|].
      intros ->. discriminate.
    + apply save_in, (nodup_pks so t F W Fit).
    + destruct x; auto.
  - assert (Ho : o = []) by (destruct o; [auto|discriminate]). subst o.
    destruct (put_next so t F G target P _ x L1 L2 W Fit (I eq_refl) Ht SP (prepare_add_unsorted _ _ EP) A Sp)
      as (t1 & s & so1 & E1 & F1 & I1).
    rewrite E1. cbn [bind]. eexists. eexists. split; [reflexivity|]. split; [|split; [|split]]; auto.
    + split; auto. split; auto. exists so1. auto.
    + destruct (new_sibling_order so t F target P W Fit (I eq_refl) Ht SP (prepare_add_unsorted _ _ EP)) as (t1' & so1' & s' & E1' & F1' & _).
      rewrite E1 in E1'. injection E1' as <- <-. apply save_in, (nodup_pks so1' t1 F W F1').
    + destruct x; auto.
Qed.

(** ** Move *)
Lemma hd_row {A B} (f : A -> B) L x : hd_error (map f L) = Some x -> exists a L', L = a :: L' /\ x = f a.
Proof. destruct L as [|a L]; [discriminate|]. cbn. intros H. injection H as <-. eauto. Qed.

Lemma put_same F G up x L1 L2 : wf_ids F -> put F G up x L1 L2 -> kl up F = L1 ++ x :: L2 -> forall q, kl q G = kl q F.
Proof.
  intros W (P1 & P2 & P3) E q. destruct (opt_dec q up) as [->|N]; [congruence|]. rewrite P3 by auto. apply drop_notin.
  rewrite in_map_iff. intros (y & Ey & Hy). assert (Hx : In x (kl up F)) by (rewrite E; apply in_app_iff; cbn; auto).
  destruct (kl_unique _ _ _ _ _ W Hx Hy (eq_sym Ey)). congruence.
Qed.

(** A move that the code skips leaves the forest alone. *)
Lemma noop_same so t F G n tg P gt L1 L2 : wf_ids F -> fits so t F -> inc so F -> In n t -> In tg t ->
  put F G (a_parent tg) (row_node n) L1 L2 -> ins_split (sib_place P (a_pk tg) gt) L1 L2 ->
  move_is_noop [] t n tg P = true -> forall q, kl q G = kl q F.
Proof.
  intros W Fit I Hn Ht Pu Sp No. unfold move_is_noop in No. apply andb_true_iff in No. destruct No as (E & No).
  apply Nat.eqb_eq in E. assert (n = tg) by (apply (pk_same so t F W Fit); auto). subst tg.
  destruct (fits_pk so t F W Fit n Hn) as (Hi & Hp & Hk & _).
  assert (Ls := unsorted_lists so t F Fit I (a_parent n)).
  assert (Sib : get_siblings [] t n = map (arow so (a_parent n)) (kl (a_parent n) F)) by (unfold get_siblings; rewrite <- Ls; destruct (a_parent n); auto).
  assert (Same : forall a, a_pk n = a_pk (arow so (a_parent n) a) -> In a (kl (a_parent n) F) -> a = row_node n).
  { intros a Ea Ha. symmetry. apply (kl_unique _ _ _ _ _ W Hk Ha Ea). }
  assert (D1 := proj1 Pu). assert (Dn : forall L, drop (nid (row_node n)) (L ++ [row_node n]) = drop (nid (row_node n)) L).
  { intros L. rewrite drop_app. unfold drop at 2. cbn [filter]. rewrite Nat.eqb_refl. cbn [negb]. apply app_nil_r. }
  assert (Nd : forall A B, kl (a_parent n) F = A ++ row_node n :: B -> drop (nid (row_node n)) (A ++ row_node n :: B) = A ++ B).
  { intros A B EA. destruct (put_self F (a_parent n) (row_node n) A B W EA) as (X & _). rewrite EA in X. auto. }
  destruct P; try discriminate.
  - (* first *) unfold same_row, get_first_sibling in No. rewrite Sib in No.
    destruct (hd_error _) as [y|] eqn:Ey; [|discriminate]. apply Nat.eqb_eq in No.
    destruct (hd_row _ _ _ Ey) as (a & L' & EL & ->). assert (a = row_node n) by (apply Same; [auto|rewrite EL; cbn; auto]). subst a.
    cbn in Sp. subst L1. apply (put_same F G _ _ _ _ W Pu). rewrite EL in D1 |- *. assert (X := Nd [] L' EL). cbn [app] in *. congruence.
  - (* left *) cbn in Sp. destruct Sp as (_ & b & L & -> & Eb). exfalso.
    assert (X : In b (drop (nid (row_node n)) (kl (a_parent n) F))) by (rewrite D1; apply in_app_iff; cbn; auto).
    apply drop_in in X. cbn in X. tauto.
  - (* right *) cbn in Sp. destruct Sp as (L & b & -> & Eb & _). exfalso.
    assert (X : In b (drop (nid (row_node n)) (kl (a_parent n) F))) by (rewrite D1, <- app_assoc; apply in_app_iff; cbn; auto).
    apply drop_in in X. cbn in X. tauto.
  - (* last *) unfold same_row, get_last_sibling in No. rewrite Sib in No.
    destruct (last_opt _) as [y|] eqn:Ey; [|discriminate]. apply Nat.eqb_eq in No.
    destruct (last_row _ _ _ Ey) as (L' & a & EL & ->). assert (a = row_node n) by (apply Same; [auto|rewrite EL; apply in_app_iff; cbn; auto]). subst a.
    cbn in Sp. subst L2. apply (put_same F G _ _ _ _ W Pu). rewrite EL in D1 |- *. assert (X := Nd L' [] EL).
    rewrite !app_nil_r in *. congruence.
Qed.

Lemma stores_kl o so t F G : (forall q, kl q G = kl q F) -> wf_ids G -> ordered o G -> fits so t F -> (o = [] -> inc so F) -> stores o t G.
Proof. intros E W O Fit I. split; auto. split; auto. exists so. split; [eapply fits_kl; eauto|]. intros Ho. eapply inc_kl; eauto. Qed.

(** The node object after a move: pk, data and cached depth as before (the cache is filled by the ancestor test). *)
Definition moved_obj (t : al_table) (n n' : alobj) : Prop :=
  a_pk (o_row n') = a_pk (o_row n) /\ a_data (o_row n') = a_data (o_row n) /\
  exists d c, get_depth t n false = Ok (d, c) /\ o_depth n' = o_depth c.

(** The rest of a move once the target is resolved to a sibling [tg]. *)
Lemma move_next o so t F G n tg P gt L1 L2 : wf_ids F -> fits so t F -> (o = [] -> inc so F) -> wf_ids G -> ordered o G ->
  In n t -> In tg t -> is_sib_pos P -> (o = [] -> P <> SortedSibling) -> (o <> [] -> P = SortedSibling) ->
  (put F G (a_parent tg) (row_node n) L1 L2 /\ ins_split (sib_place P (a_pk tg) gt) L1 L2) \/
  (n = tg /\ (P = Left \/ P = Right) /\ G = F) ->
  (if move_is_noop o t n tg P then stores o t G
   else exists t1 s, match P with SortedSibling => Ok (t, a_sib n) | _ => get_new_sibling_order o t P tg end = Ok (t1, s) /\
        stores o (save_row t1 (mkAL (a_pk n) (a_parent tg) s (a_data n))) G /\
        In (mkAL (a_pk n) (a_parent tg) s (a_data n)) (save_row t1 (mkAL (a_pk n) (a_parent tg) s (a_data n)))).
Proof.
  intros W Fit I WG OG Hn Ht SP Us Ss Pu. destruct (is_sorted o) eqn:So.
  - assert (No : o <> []) by (destruct o; [discriminate|congruence]). rewrite (Ss No) in *.
    replace (move_is_noop o t n tg SortedSibling) with false by (unfold move_is_noop; rewrite andb_false_r; auto).
    destruct Pu as [(Pu & Sp)|(_ & [X|X] & _)]; try discriminate.
    exists t, (a_sib n). split; auto. split.
    + split; auto. split; auto. exists (upd so (nid (row_node n)) (a_sib n)). split; [|tauto].
      apply (fits_put so t F G _ (row_node n) L1 L2); auto.
    + apply save_in, (nodup_pks so t F W Fit).
  - assert (Ho : o = []) by (destruct o; [auto|discriminate]). subst o. specialize (I eq_refl). specialize (Us eq_refl).
    assert (Em : match P with SortedSibling => Ok (t, a_sib n) | _ => get_new_sibling_order [] t P tg end = get_new_sibling_order [] t P tg)
      by (destruct P; auto; congruence).
    rewrite Em.
    assert (In_saved : forall t1 s, get_new_sibling_order [] t P tg = Ok (t1, s) ->
       In (mkAL (a_pk n) (a_parent tg) s (a_data n)) (save_row t1 (mkAL (a_pk n) (a_parent tg) s (a_data n)))).
    { intros t1 s E. destruct (new_sibling_order so t F tg P W Fit I Ht SP Us) as (t1' & so1' & s' & E1' & F1' & _).
      rewrite E in E1'. injection E1' as <- <-. apply save_in, (nodup_pks so1' t1 F W F1'). }
    destruct Pu as [(Pu & Sp)|(-> & HP & ->)].
    + destruct (move_is_noop [] t n tg P) eqn:No.
      * apply (stores_kl [] so t F G); auto. apply (noop_same so t F G n tg P gt L1 L2); auto.
      * destruct (put_next so t F G tg P gt (row_node n) L1 L2 W Fit I Ht SP Us Pu Sp) as (t1 & s & so1 & E1 & F1 & I1).
        exists t1, s. split; auto. split; auto. split; auto. split; auto. exists so1. auto.
    + destruct (move_is_noop [] t tg tg P) eqn:No; [split; auto; split; auto; exists so; auto|].
      destruct HP as [->| ->]; [unfold move_is_noop in No; rewrite Nat.eqb_refl in No; discriminate|].
      destruct (new_sibling_order so t F tg Right W Fit I Ht SP Us) as (t1 & so1 & s & E1 & F1 & I1 & Hs & Q).
      exists t1, s. split; auto. split; auto. split; auto. split; auto. exists (upd so1 (nid (row_node tg)) s).
      destruct (fits_pk so t F W Fit tg Ht) as (Hi & Hp & Hk & Hso). assert (Hk' := Hk).
      apply in_split in Hk'. destruct Hk' as (A & B & EK). assert (Ps := put_self F _ _ A B W EK).
      split; [apply (fits_put so1 t1 F F _ (row_node tg) A B); auto|]. intros _.
      assert (S := proj1 (I (a_parent tg))). rewrite EK in S.
      apply (inc_put so1 F F (a_parent tg) (row_node tg) A B); auto.
      * intros a Ha. specialize (Q a). rewrite EK in Q. specialize (Q (proj2 (in_app_iff _ _ _) (or_introl Ha))).
        cbn [goes_after] in Q. assert (X := ssorted_app _ _ _ S a (row_node tg) Ha (or_introl eq_refl)). cbn in X.
        replace (so (a_pk tg) <? so (nid a))%Z with false in Q; auto. symmetry. apply Z.ltb_ge. lia.
      * intros a Ha. specialize (Q a). rewrite EK in Q. specialize (Q (in_or_app A (row_node tg :: B) a (or_intror (or_intror Ha)))).
        cbn [goes_after] in Q. change (row_node tg :: B) with ([row_node tg] ++ B) in S. rewrite app_assoc in S.
        assert (X := ssorted_app _ _ _ S (row_node tg) a (in_or_app A [row_node tg] _ (or_intror (or_introl eq_refl))) Ha). cbn in X.
        replace (so (a_pk tg) <? so (nid a))%Z with true in Q; auto. symmetry. apply Z.ltb_lt. lia.
Qed.

Lemma is_leaf_kl o so t F r : fits so t F -> is_leaf o t r = match kl (Some (a_pk r)) F with [] => true | _ => false end.
Proof.
  intros Fit. unfold is_leaf, get_children. assert (P := perm_kids so t F Fit o (Some (a_pk r))).
  destruct (kl (Some (a_pk r)) F) as [|a L].
  - cbn [map] in P. apply Permutation_sym, Permutation_nil in P. rewrite P. auto.
  - destruct (kids o t (Some (a_pk r))); auto. apply Permutation_length in P. discriminate.
Qed.

Lemma last_kid o so t F r : fits so t F -> is_leaf o t r = false ->
  exists c, get_last_child o t r = Some c /\ In c t /\ a_parent c = Some (a_pk r).
Proof.
  intros Fit E. unfold is_leaf in E. unfold get_last_child.
  assert (X : exists c, last_opt (get_children o t r) = Some c).
  { unfold last_opt. destruct (get_children o t r) as [|y l] eqn:Ek; [discriminate|].
    destruct (rev (y :: l)) as [|z L] eqn:Er; [|cbn; eauto]. apply (f_equal (@length alrow)) in Er. rewrite rev_length in Er. discriminate. }
  destruct X as (c & Ec). exists c. split; auto.
  assert (Hc : In c (get_children o t r)).
  { unfold last_opt in Ec. apply in_rev. destruct (rev (get_children o t r)); [discriminate|]. cbn in Ec. injection Ec as ->. cbn; auto. }
  unfold get_children in Hc. apply (Permutation_in _ (perm_kids so t F Fit o _)) in Hc.
  apply (Permutation_in _ (Permutation_sym (Fit _))) in Hc. apply filter_In in Hc. destruct Hc as (Hc & Ep).
  apply par_eqb_spec in Ep. auto.
Qed.

(** Below a child of the target means below or at the target. *)
Lemma desc_child F n c p : wf_ids F -> In c (ids F) -> parent_of c F = Some (Some p) ->
  (descends F n c <-> n = p \/ descends F n p).
Proof.
  intros W Hc Hp. destruct (anc_parent c F W Hc) as (A & EA & [(Ep & _)|(q & A' & Ep & Hq & EA' & ->)]); [congruence|].
  rewrite Hp in Ep. injection Ep as ->. rewrite (desc_anc F n c W Hc), (desc_anc F n (nid q) W (in_map nid _ _ Hq)).
  rewrite EA, EA'. split.
  - intros (B & E & H). injection E as <-. rewrite map_app in H. apply in_app_iff in H. destruct H as [H|[H|[]]]; eauto.
  - intros H. exists (A' ++ [q]). split; auto. rewrite map_app. apply in_app_iff. cbn.
    destruct H as [->|(B & E & H)]; auto. injection E as <-. auto.
Qed.

Theorem move_ok o t F n target p P : stores o t F -> In (o_row n) t -> cache_pos n -> In target t ->
  prepare_pos_move (is_sorted o) p = Ok P ->
  (inside F (a_pk (o_row n)) (a_pk target) P /\ move o t n target p = Err InvalidMoveToDescendant) \/
  (~ inside F (a_pk (o_row n)) (a_pk target) P /\ exists t' n', move o t n target p = Ok (t', n') /\
     stores o t' (sp_move (a_pk (o_row n)) (a_pk target) P (gt_of o (a_data (o_row n))) F) /\
     In (o_row n') t' /\ moved_obj t n n').
Proof.
  intros (W & O & so & Fit & I) Hn Hc Ht EP. set (r := o_row n) in *.
  set (G := sp_move (a_pk r) (a_pk target) P (gt_of o (a_data r)) F).
  destruct (fits_pk so t F W Fit r Hn) as (Hi & Hp & Hk & _).
  destruct (fits_pk so t F W Fit target Ht) as (Hti & Htp & _).
  assert (Us : o = [] -> P <> SortedSibling /\ P <> SortedChild) by (intros ->; apply (prepare_move_unsorted _ _ EP)).
  assert (Ss : o <> [] -> P = SortedSibling \/ P = SortedChild).
  { intros No. apply (prepare_move_sorted p). destruct o; [congruence|auto]. }
  (* the result of the specification *)
  assert (Sane : ~ inside F (a_pk r) (a_pk target) P -> wf_ids G /\ ordered o G /\
    ((a_pk r = a_pk target /\ (P = Left \/ P = Right) /\ G = F) \/
     exists up L1 L2, up = (if is_child_pos P then Some (a_pk target) else a_parent target) /\
       put F G up (row_node r) L1 L2 /\ ins_split (sib_place P (a_pk target) (gt_of o (a_data r))) L1 L2)).
  { intros NI.
    assert (Ed : data_of (a_pk r) F = a_data r).
    { change (a_pk r) with (nid (row_node r)). rewrite (data_of_spec _ F (row_node r)); eauto using kl_pre. }
    assert (E : sp_exec o F (CMove (a_pk r) (a_pk target) p) = Ok G).
    { cbn [sp_exec sp_call]. rewrite (proj2 (has_spec _ F) Hi), (proj2 (has_spec _ F) Hti). cbn [andb].
      change (sorts o) with (is_sorted o). rewrite EP. cbn [bind]. rewrite (proj2 (insideb_false F _ _ P) NI), Ed. auto. }
    destruct (fun fr v => next_state o F (CMove (a_pk r) (a_pk target) p) _ W O fr v E) as (WG & OG); cbn; auto.
    { intros i []. }
    split; auto. split; auto.
    destruct (move_sane (a_pk r) (a_pk target) P (gt_of o (a_data r)) F W Hi Hti NI) as [(E1 & E2 & E3)|(up & a & L1 & L2 & Eu & Ea & M & Sp)].
    - left. auto.
    - right. assert (a = row_node r).
      { apply (node_eq F); eauto using kl_pre. exact (mv_node _ _ _ _ _ _ M). }
      subst a. exists up, L1, L2. apply moved_put in M. split; auto.
      destruct (is_child_pos P); auto. congruence. }
  (* the test for descendants and the cached depth *)
  destruct (get_depth_ok so t F W Fit n false) as (d & c & Ed & _ & _); auto.
  unfold move. rewrite EP. cbn [bind]. fold r.
  assert (Common : forall tg P', In tg t -> is_sib_pos P' -> (o = [] -> P' <> SortedSibling) -> (o <> [] -> P' = SortedSibling) ->
     (descends F (a_pk r) (a_pk tg) <-> inside F (a_pk r) (a_pk target) P) ->
     (~ inside F (a_pk r) (a_pk target) P -> exists L1 L2,
       (put F G (a_parent tg) (row_node r) L1 L2 /\ ins_split (sib_place P' (a_pk tg) (gt_of o (a_data r))) L1 L2) \/
       (r = tg /\ (P' = Left \/ P' = Right) /\ G = F)) ->
     let result := (do d <- is_descendant_of o t tg n;
       if d then Err InvalidMoveToDescendant
       else
       do '(_, node) <- get_depth t n false;
       if move_is_noop o t (o_row node) tg P' then Ok (t, node)
       else
       let up := a_parent tg in
       do '(t1, s) <- match P' with
         | SortedSibling => Ok (t, a_sib (o_row node))
         | _ => get_new_sibling_order o t P' tg
         end;
       let r := mkAL (a_pk (o_row node)) up s (a_data (o_row node)) in
       Ok (save_row t1 r, mkAObj r (o_depth node))) in
     (inside F (a_pk r) (a_pk target) P /\ result = Err InvalidMoveToDescendant) \/
     (~ inside F (a_pk r) (a_pk target) P /\ exists t' n', result = Ok (t', n') /\ stores o t' G /\
       In (o_row n') t' /\ moved_obj t n n')).
  { intros tg P' Htg SP Us' Ss' Hd Hput result. subst result.
    destruct (is_descendant_ok o so t F n tg W Fit Hn Hc Htg) as (b & Eb & Hb). rewrite Eb. cbn [bind].
    destruct b; [left; split; [apply Hd, Hb; auto|auto]|]. right.
    assert (NI : ~ inside F (a_pk r) (a_pk target) P).
    { intros H. apply Hd in H. apply Hb in H. discriminate. }
    split; auto. destruct (Sane NI) as (WG & OG & _). destruct (Hput NI) as (L1 & L2 & Pu).
    rewrite Ed. cbn [bind o_row o_depth].
    assert (M := move_next o so t F G r tg P' _ L1 L2 W Fit I WG OG Hn Htg SP Us' Ss' Pu). fold r.
    destruct (move_is_noop o t r tg P').
    - exists t, (mkAObj r c). split; auto. split; auto. split; auto. split; auto. split; auto. exists d, (mkAObj r c). auto.
    - destruct M as (t1 & s & E1 & St & Hin). rewrite E1. cbn [bind].
      eexists. eexists. split; [reflexivity|]. split; auto. split; auto. split; auto. split; auto. exists d, (mkAObj r c). auto. }
  destruct (is_child_pos P) eqn:EC.
  - (* below the target *)
    assert (Same : a_pk r = a_pk target -> inside F (a_pk r) (a_pk target) P) by (intros H; right; auto).
    assert (Ins : a_pk r <> a_pk target -> (inside F (a_pk r) (a_pk target) P <-> descends F (a_pk r) (a_pk target))).
    { intros H. unfold inside. tauto. }
    unfold move_target. destruct (is_leaf o t target) eqn:Leaf; cbn [negb].
    + rewrite (is_leaf_kl o so t F target Fit) in Leaf. destruct (kl (Some (a_pk target)) F) eqn:EK; [|discriminate].
      assert (Fin : forall P' so0 (Hso : (o <> [] -> P' = SortedSibling /\ so0 = None) /\ (o = [] -> P' = FirstSibling /\ so0 = Some 1%Z)),
        a_pk r <> a_pk target ->
        let result := (do d <- is_descendant_of o t target n;
          if d then Err InvalidMoveToDescendant
          else
          do '(_, node) <- get_depth t n false;
          if move_is_noop o t (o_row node) target P' then Ok (t, node)
          else
          let up := Some (a_pk target) in
          do '(t1, s) <- match P' with
            | SortedSibling => Ok (t, a_sib (o_row node))
            | _ => match so0 with Some s => Ok (t, s) | None => get_new_sibling_order o t P' target end
            end;
          let r := mkAL (a_pk (o_row node)) up s (a_data (o_row node)) in
          Ok (save_row t1 r, mkAObj r (o_depth node))) in
        (inside F (a_pk r) (a_pk target) P /\ result = Err InvalidMoveToDescendant) \/
        (~ inside F (a_pk r) (a_pk target) P /\ exists t' n', result = Ok (t', n') /\ stores o t' G /\
          In (o_row n') t' /\ moved_obj t n n')).
      { intros P' so0 (Hs1 & Hs2) Nt result. subst result.
        destruct (is_descendant_ok o so t F n target W Fit Hn Hc Ht) as (b & Eb & Hb). rewrite Eb. cbn [bind].
        destruct b; [left; split; [apply Ins; auto; apply Hb; auto|auto]|]. right.
        assert (NI : ~ inside F (a_pk r) (a_pk target) P).
        { intros H. apply Ins in H; auto. apply Hb in H. discriminate. }
        split; auto. destruct (Sane NI) as (WG & OG & [(X & _)|(up & L1 & L2 & -> & Pu & Sp)]); [tauto|].
        assert (E12 : L1 = [] /\ L2 = []).
        { assert (X := proj1 Pu). rewrite EK in X. cbn in X. symmetry in X. apply app_eq_nil in X. auto. }
        destruct E12 as (-> & ->).
        rewrite Ed. cbn [bind o_row o_depth]. fold r.
        replace (move_is_noop o t r target P') with false
          by (unfold move_is_noop; destruct (Nat.eqb_spec (a_pk r) (a_pk target)); [tauto|auto]).
        assert (X : exists s, match P' with
            | SortedSibling => Ok (t, a_sib r)
            | _ => match so0 with Some s => Ok (t, s) | None => get_new_sibling_order o t P' target end
            end = Ok (t, s) /\ (o = [] -> s = 1%Z)).
        { destruct (is_sorted o) eqn:So.
          - destruct Hs1 as (-> & ->); [destruct o; [discriminate|congruence]|]. exists (a_sib r). split; auto. intros ->; discriminate.
          - destruct Hs2 as (-> & ->); [destruct o; [auto|discriminate]|]. exists 1%Z. auto. }
        destruct X as (s & -> & Es). cbn [bind]. eexists. eexists. split; [reflexivity|].
        split; [|split; [apply save_in, (nodup_pks so t F W Fit)|split; auto; split; auto; exists d, (mkAObj r c); auto]].
        split; auto. split; auto. exists (upd so (nid (row_node r)) s).
        split; [apply (fits_put so t F G _ (row_node r) [] []); auto|].
        intros Ho. rewrite (Es Ho). apply (inc_put so F G (Some (a_pk target)) (row_node r) [] []); auto; try (intros a []). lia. }
      destruct P; try discriminate; (destruct (Nat.eqb_spec (a_pk r) (a_pk target)) as [Er|Nr]; [left; split; [auto|reflexivity]|]); cbn [bind].
      * apply (Fin FirstSibling (Some 1%Z)); auto. split; auto. intros No. destruct (Ss No); discriminate.
      * apply (Fin FirstSibling (Some 1%Z)); auto. split; auto. intros No. destruct (Ss No); discriminate.
      * apply (Fin SortedSibling None); auto. split; auto. intros Ho. destruct (Us Ho). congruence.
    + destruct (last_kid o so t F target Fit Leaf) as (ch & Ech & Hch & Pch).
      destruct (fits_pk so t F W Fit ch Hch) as (Hci & Hcp & _). rewrite Pch in Hcp.
      assert (Fin : forall P', is_sib_pos P' -> (o = [] -> P' <> SortedSibling) -> (o <> [] -> P' = SortedSibling) ->
        (forall x y g, sib_place P x g = sib_place P' y g) -> a_pk r <> a_pk target -> _) by
        (intros P' SP Us' Ss' Epl Nt; apply (Common ch P' Hch SP Us' Ss');
         [rewrite (Ins Nt), (desc_child F _ _ _ W Hci Hcp); tauto
         |intros NI; destruct (Sane NI) as (_ & _ & [(X & _)|(up & L1 & L2 & -> & Pu & Sp)]); [tauto|];
          exists L1, L2; left; rewrite Pch; split; auto; rewrite <- (Epl (a_pk target) (a_pk ch)); auto]).
      destruct P; try discriminate; (destruct (Nat.eqb_spec (a_pk r) (a_pk target)) as [Er|Nr]; [left; split; [auto|reflexivity]|]);
        rewrite Ech; cbn [bind].
      * apply (Fin FirstSibling); cbn; auto; try discriminate. intros No. destruct (Ss No); discriminate.
      * apply (Fin LastSibling); cbn; auto; try discriminate. intros No. destruct (Ss No); discriminate.
      * apply (Fin SortedSibling); cbn; auto. intros Ho. destruct (Us Ho). congruence.
  - (* next to the target *)
    assert (SP : is_sib_pos P) by (destruct P; try discriminate; exact Logic.I).
    replace (move_target o t r target P) with (Ok (target, @None alrow, P, @None Z)) by (destruct P; try discriminate; auto).
    cbn [bind]. apply Common; auto.
    + intros Ho. apply (Us Ho).
    + intros No. destruct (Ss No) as [|E]; auto. rewrite E in EC. discriminate.
    + unfold inside. rewrite EC. split; [auto|]. intros [H|(_ & H)]; [auto|discriminate].
    + intros NI. destruct (Sane NI) as (_ & _ & [(X & Y & Z)|(up & L1 & L2 & -> & Pu & Sp)]).
      * exists [], []. right. split; auto. apply (pk_same so t F W Fit); auto.
      * exists L1, L2. auto.
Qed.
