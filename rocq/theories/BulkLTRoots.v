(** load_bulk for ltree into a table whose labels are single letters: with at most 26
    siblings everywhere no call fails and the order is kept, among the roots too. *)
From Coq Require Import String List Arith Lia Bool ZArith Permutation.
From Verif Require Import Prelude Forest SpecFacts SpecSane CommonModel Order History SpecKids SpecRun SpecPerm PathTab
  BulkModel BulkFacts BulkTrees BulkLoad BulkMP LTModel LTLabel LTInv LTNewPath LTAdd LTHist LTReads BulkLT PropsBulk.
Import ListNotations.
Local Open Scope nat_scope.

(** The label after a single letter. *)
Lemma next_letter skip c : c < 35 -> ~ In [S c] skip -> generate_label skip None (Some [c]) = Ok [S c].
Proof.
  intros Hc Hn.
  assert (E : existsb (lbeq [S c]) skip = false).
  { destruct (existsb _ skip) eqn:E; auto. exfalso. apply existsb_exists in E. destruct E as (y & Hy & E).
    apply lbeq_iff in E. subst y. auto. }
  assert (C : exists rest, chars_from (digits10 ++ upper26) c = Some (c :: S c :: rest)).
  { clear E Hn. do 35 (destruct c as [|c]; [eexists; vm_compute; reflexivity|]). lia. }
  destruct C as (rest & C). unfold generate_label. cbn [falsy or_else]. unfold char_lists. rewrite C.
  cbn [common length Nat.sub loop_len firstn loop_product loop_chars app].
  assert (T1 : try_label skip None (Some [c]) [c] = Next).
  { unfold try_label, lblt_eq. rewrite lblt_irr. auto. }
  assert (T2 : try_label skip None (Some [c]) [S c] = Found [S c]).
  { unfold try_label. rewrite E. replace (lblt_eq [S c] [c]) with false; auto. unfold lblt_eq, lblt. cbn [llt].
    rewrite (proj2 (Nat.ltb_lt c (S c))) by lia. auto. }
  rewrite T1, T2. auto.
Qed.

(** The labels below [q] are the first [n] letters. *)
Definition first_letters (t : lt_table) (q : lpath) (n : nat) : Prop :=
  forall l, In l (labels_below t q) <-> exists c, l = [c] /\ 10 <= c < 10 + n.
(** No label is longer than one character. *)
Definition single (t : lt_table) : Prop := forall r l, In r t -> In l (l_path r) -> length l = 1.

Definition upath (up : option ltrow) : lpath := match up with Some p => l_path p | None => [] end.

Lemma labels_below_cons r t q : labels_below (r :: t) q =
  (if ppre q (l_path r) && (length (l_path r) =? length q + 1) then [last_label (l_path r)] else []) ++ labels_below t q.
Proof. unfold labels_below. cbn [filter]. destruct (_ && _); auto. Qed.

Section LT.
Variable cfg : lt_cfg.
Hypothesis max2 : 2 <= label_max cfg.
Hypothesis unsorted : lt_order cfg = [].
Notation stores := (stores cfg).
Notation ups := (ups ltrow l_pk).

Lemma single_not_long t : single t -> ~ long_label cfg t.
Proof. intros H (r & s & Hr & Hs & L). rewrite (H _ _ Hr Hs) in L. lia. Qed.

Lemma first_not_all t q n : first_letters t q n -> ~ letters_used (labels_below t q).
Proof.
  intros H U. specialize (U [10; 10]). apply H in U; [|split; [right; auto|repeat constructor]].
  destruct U as (c & E & _). discriminate.
Qed.

Lemma first_app t n : first_letters t [] n -> n < 26 -> appendable (labels_below t []).
Proof.
  intros H L. exists (10 + n). split; [lia|]. split.
  - intros d Hd. apply H. exists d. split; auto; lia.
  - intros l Hl. apply H in Hl. destruct Hl as (c & -> & Hc). unfold lblt. cbn [llt].
    destruct (Nat.ltb_spec c (10 + n)); auto; lia.
Qed.

(** The path of an added node. *)
Lemma add_letter_path db F up x n db' ob up' : stores (lt_rows db) F -> (forall p, up = Some p -> In p (lt_rows db)) ->
  first_letters (lt_rows db) (upath up) n -> n < 26 -> lt_add cfg db up x = Ok (db', ob, up') ->
  l_path ob = upath up ++ [[10 + n]].
Proof.
  intros (f & L & <- & WF) Gu Hl Hn. unfold lt_add.
  assert (X : forall np, (do '(db', r) <- (do t <- save_row cfg (lt_rows db) (mkLT (nid x) np (ndata x)); Ok (mkLTDB t (lt_sig db), mkLT (nid x) np (ndata x)));
      do db'' <- commit db'; Ok (db'', r)) = Ok (db', ob) -> l_path ob = np).
  { intros np. destruct (save_row _ _ _) as [t|]; [|discriminate]. cbn [bind]. destruct (commit _); [|discriminate].
    cbn [bind]. intros H. injection H as _ <-. auto. }
  assert (Ns := not_sorted cfg unsorted).
  destruct up as [p0|]; cbn [upath] in *.
  - specialize (Gu p0 eq_refl). destruct (locate_kids cfg _ _ _ L Gu) as (p & a & l & -> & H & Np). cbn [l_path mkrow fst] in *.
    assert (Wf : kpwf f) by apply L. assert (Wl := k_At_pwf_l _ _ _ _ _ _ H Wf).
    assert (Gp := get_by_pk_lay cfg _ _ _ L WF Gu). cbn [l_pk mkrow snd] in Gp.
    assert (LB := labels_below_lay cfg _ _ _ _ _ _ _ L H).
    unfold add_child. cbn [l_pk mkrow snd]. rewrite Gp, Ns. cbn [bind andb new_pk new_data l_path mkrow fst].
    unfold is_leaf, get_last_child. rewrite (get_children_lay cfg _ _ _ _ _ _ _ _ L H).
    assert (T := top_last p l Wl).
    destruct (last_opt (sibrows p l)) as [r|] eqn:El.
    + assert (Ne : sibrows p l <> []) by (intros E; rewrite E in El; discriminate).
      destruct (sibrows p l) as [|r0 rs] eqn:Es; [congruence|]. rewrite <- Es in *. clear Ne. cbn [opt_res bind].
      cbn [label_of option_map top] in T. destruct T as [T1 T2].
      assert (T1' := T1). rewrite LB in T1'. apply Hl in T1'. destruct T1' as (c & Ec & Hc).
      assert (Sc : S c = 10 + n).
      { destruct (Nat.eq_dec (S c) (10 + n)) as [|Nc]; auto. exfalso. specialize (T2 [S c]). rewrite Ec in T2.
        rewrite LB in T2. unfold lblt in T2. cbn [llt] in T2.
        assert (Z : In [S c] (labels_below (lt_rows db) p)) by (apply Hl; exists (S c); split; auto; lia).
        specialize (T2 Z). destruct (Nat.ltb_spec c (S c)); [discriminate|lia]. }
      unfold generate_path. rewrite Ec, next_letter; cbn [bind].
      * rewrite <- Sc. specialize (X (p ++ [[S c]])).
        destruct (do '(_, _) <- _; _) as [[d r']|] eqn:E; [|discriminate]. cbn [bind]. intros H2. injection H2 as -> -> _. auto.
      * lia.
      * rewrite skip_labels by auto. rewrite LB. intros Hin. apply Hl in Hin. destruct Hin as (c' & E' & Hc'). injection E' as <-. lia.
    + assert (E0 : sibrows p l = []) by (apply last_opt_None; auto). rewrite E0 in *.
      assert (n = 0).
      { destruct n as [|n]; auto. exfalso. assert (Z : In [10] (labels_below (lt_rows db) p)) by (apply Hl; exists 10; split; auto; lia).
        apply LB in Z. destruct l; [destruct Z|discriminate E0]. }
      subst n. unfold generate_path. cbn [map]. rewrite (free_letter [] 10) by (try lia; auto; intros; lia). cbn [bind].
      specialize (X (p ++ [[10]])). destruct (do '(_, _) <- _; _) as [[d r']|] eqn:E; [|discriminate]. cbn [bind].
      intros H2. injection H2 as -> -> _. auto.
  - assert (FL : forall skip, (forall l, In l skip <-> In l (labels_below (lt_rows db) [])) ->
      generate_label skip None None = Ok [10 + n]).
    { intros skip Hs. apply free_letter; [lia| |].
      - rewrite Hs. intros Hin. apply Hl in Hin. destruct Hin as (c & E & Hc). injection E as <-. lia.
      - intros d Hd. apply Hs, Hl. exists d. split; auto; lia. }
    assert (RB : forall l, In l (map last_label (map l_path (get_root_nodes (lt_rows db)))) <-> In l (labels_below (lt_rows db) [])).
    { intros l. rewrite map_map. unfold get_root_nodes, labels_below, order_path.
      rewrite !in_map_iff. cbn [length Nat.add].
      assert (EF : filter (fun r => ppre [] (l_path r) && (length (l_path r) =? 1)) (lt_rows db) = filter (fun r => length (l_path r) =? 1) (lt_rows db)) by (apply filter_ext; auto).
      rewrite EF. assert (Pm := isort_perm (le_key l_path plt) (filter (fun r => length (l_path r) =? 1) (lt_rows db))).
      split; intros (r & E & Hr); exists r; split; auto; [apply (Permutation_in _ Pm Hr)|apply (Permutation_in _ (Permutation_sym Pm) Hr)]. }
    unfold add_root. rewrite Ns. cbn [new_pk new_data].
    assert (E : (match get_last_root_node (lt_rows db) with
                  | Some _ => generate_path [] None None (map l_path (get_root_nodes (lt_rows db)))
                  | None => generate_path [] None None []
                  end) = Ok [[10 + n]]).
    { unfold get_last_root_node. destruct (last_opt (get_root_nodes (lt_rows db))) eqn:El; unfold generate_path; cbn [map].
      - rewrite FL; auto.
      - rewrite FL; auto. apply last_opt_None in El. rewrite El in RB. auto. }
    specialize (X [[10 + n]]). destruct (get_last_root_node (lt_rows db)); rewrite E; cbn [bind];
      (destruct (do '(_, _) <- _; _) as [[d r']|] eqn:E1; [|discriminate]; cbn [bind]; intros H2; injection H2 as -> -> _; auto).
Qed.

(** One node. *)
Lemma add_letter db F up x n : stores (lt_rows db) F -> (forall p, up = Some p -> In p (lt_rows db)) ->
  ~ In (nid x) (ids F) -> single (lt_rows db) -> first_letters (lt_rows db) (upath up) n -> n < 26 ->
  exists db' ob, lt_add cfg db up x = Ok (db', ob, up) /\ stores (lt_rows db') (append (ups up) (leaf x) F) /\
    lt_rows db' = ob :: lt_rows db /\ l_pk ob = nid x /\ l_path ob = upath up ++ [[10 + n]].
Proof.
  intros St Gu Fr Si Hl Hn.
  assert (P := fun db' ob up' => add_letter_path db F up x n db' ob up' St Gu Hl Hn).
  destruct (lt_add_ok cfg max2 unsorted db F up x St Gu Fr) as [(db' & ob & G' & E & S' & Er & Pk & _ & Ex)|(e & E & _)].
  - exists db', ob. split; auto. rewrite <- Ex; [|intros ->; eapply first_app; eauto]. split; auto. split; auto. split; auto.
    eapply P; eauto.
  - exfalso. unfold lt_add in E. destruct up as [p|].
    + destruct (add_child_ok cfg max2 db F p x St (Gu p eq_refl) Fr) as [(db' & r & G' & E1 & _)|[[_ Lo]|[_ Us]]].
      * unfold new_of in E1. rewrite E1 in E. discriminate.
      * eapply single_not_long; eauto.
      * eapply first_not_all; eauto.
    + destruct (add_root_ok cfg max2 db F x St Fr) as [(db' & r & G' & E1 & _)|[[_ Lo]|[_ Us]]].
      * unfold new_of in E1. rewrite E1 in E. discriminate.
      * eapply single_not_long; eauto.
      * eapply first_not_all; eauto.
Qed.

(** The labels below a path that gets no new child. *)
Lemma first_keep t t' q n : first_letters t q n ->
  (forall r, In r t -> In r t') -> (forall r, In r t' -> In r t \/ length q + 2 <= length (l_path r)) -> first_letters t' q n.
Proof.
  intros H H1 H2 l. rewrite <- (H l). unfold labels_below. rewrite !in_map_iff.
  split; intros (r & E & Hr); exists r; (split; auto); apply filter_In in Hr; apply filter_In; destruct Hr as [Hr Hb]; split; auto.
  destruct (H2 r Hr) as [|Hr']; auto. apply andb_true_iff in Hb. destruct Hb as [_ Hb]. apply Nat.eqb_eq in Hb. lia.
Qed.

Lemma load_letters g : forall db F up n, stores (lt_rows db) F -> (forall p, up = Some p -> In p (lt_rows db)) ->
  wf_ids g -> (forall i, In i (ids g) -> ~ In i (ids F)) ->
  single (lt_rows db) -> first_letters (lt_rows db) (upath up) n -> n + length (roots g) <= 26 -> narrow 27 g ->
  exists db', load (lt_add cfg) l_pk db up g = Ok (db', ids g) /\ stores (lt_rows db') (append (ups up) g F) /\
    single (lt_rows db') /\ (forall r, In r (lt_rows db) -> In r (lt_rows db')) /\
    (forall r, In r (lt_rows db') -> In r (lt_rows db) \/ length (upath up) + 1 <= length (l_path r)).
Proof.
  induction g as [|x k IHk r IHr]; intros db F up n St Gu Wg D Si Hl Hn Na.
  { exists db. cbn [load]. rewrite append_nil. auto 6. }
  assert (W := lt_wf _ _ _ St).
  apply wf_cons_inv in Wg. destruct Wg as (Xk & Xr & Wk & Wr & Dkr).
  cbn [narrow] in Na. destruct Na as (Na1 & Na2 & Na3). cbn [roots length] in Hn.
  assert (Dx : ~ In (nid x) (ids F)) by (apply D; rewrite ids_cons; simpl; auto).
  assert (U : is_up (ups up) F).
  { intros p E. destruct up as [p0|]; [|discriminate]. injection E as <-. apply (stores_pks _ _ _ _ St). apply in_map. auto. }
  assert (Er : append (ups up) (Cons x k r) F = append (ups up) r (append (ups up) (Cons x k Nil) F)) by (rewrite append_append; auto).
  assert (Ek : append (Some (nid x)) k (append (ups up) (leaf x) F) = append (ups up) (Cons x k Nil) F) by (apply append_below_up; auto).
  destruct (add_letter db F up x n St Gu Dx Si Hl ltac:(lia)) as (db1 & ob & E1 & S1 & R1 & Pk & Po).
  cbn [load]. rewrite E1. cbn [bind].
  assert (Si1 : single (lt_rows db1)).
  { rewrite R1. intros y l [<-|Hy] Hin; [|eauto]. rewrite Po in Hin. apply in_app_iff in Hin. destruct Hin as [Hin|[<-|[]]]; auto.
    destruct up as [p|]; [|destruct Hin]. eapply Si; eauto. }
  assert (Io : In ob (lt_rows db1)) by (rewrite R1; left; auto).
  assert (I1 : forall i, In i (ids (append (ups up) (leaf x) F)) -> In i (ids F) \/ i = nid x).
  { intros i Hi. apply ids_append in Hi. destruct Hi as [Hi|[<-|[]]]; auto. }
  assert (Hk0 : first_letters (lt_rows db1) (l_path ob) 0).
  { destruct (PropsLT.C32_children cfg _ _ _ S1 Io) as (c & Ec & Em & _). rewrite Pk in Ec.
    destruct (append_means (ups up) (leaf x) F W U) as (_ & _ & _ & Ak).
    { constructor; [intros []|constructor]. }
    { intros i [<-|[]]; auto. }
    rewrite (Ak (nid x)) in Ec by (left; auto). unfold kid_list, leaf in Ec. cbn [kids_of children_of] in Ec. rewrite Nat.eqb_refl in Ec. injection Ec as <-. intros l. split; [|intros (c & _ & Hc); lia]. intros Hin. exfalso.
    unfold labels_below in Hin. apply in_map_iff in Hin. destruct Hin as (y & _ & Hy).
    unfold get_children, order_path in Em.
    assert (Z : In y (isort (le_key l_path plt) (filter (fun r0 => ppre (l_path ob) (l_path r0) && (length (l_path r0) =? length (l_path ob) + 1)) (lt_rows db1)))).
    { eapply Permutation_in; [apply Permutation_sym, isort_perm|]. auto. }
    apply (in_map node_of) in Z. rewrite Em in Z. destruct Z. }
  destruct (IHk db1 (append (ups up) (leaf x) F) (Some ob) 0) as (db2 & E2 & S2 & Si2 & K2 & N2); auto.
  { intros p E. injection E as <-. auto. }
  { intros i Hi H. apply I1 in H. destruct H as [H| ->]; [|auto]. revert H. apply D. rewrite ids_cons. simpl. rewrite in_app_iff. auto. }
  { lia. }
  rewrite E2. cbn [bind]. cbn [BulkFacts.ups option_map] in S2. rewrite Pk, Ek in S2. cbn [upath] in N2.
  assert (Lo : length (l_path ob) = length (upath up) + 1) by (rewrite Po, app_length; auto).
  destruct (IHr db2 (append (ups up) (Cons x k Nil) F) up (S n)) as (db3 & E3 & S3 & Si3 & K3 & N3); auto.
  { intros p Ep. apply K2. rewrite R1. right. auto. }
  { intros i Hi H. apply ids_append in H. rewrite ids_cons in H. simpl in H. rewrite in_app_iff in H. simpl in H.
    destruct H as [H|[<-|[H|[]]]]; [|auto|eapply Dkr; eauto]. revert H. apply D. rewrite ids_cons. simpl. rewrite in_app_iff. auto. }
  { apply (first_keep (lt_rows db1) (lt_rows db2) (upath up) (S n)); auto.
    - intros l. rewrite R1, labels_below_cons, in_app_iff, (Hl l), Po, ppre_app, app_length. cbn [length]. rewrite Nat.eqb_refl. cbn [andb].
      rewrite last_snoc. cbn [In]. split.
      + intros [[<-|[]]|(c & -> & Hc)]; [exists (10 + n); split; auto; lia|exists c; split; auto; lia].
      + intros (c & -> & Hc). destruct (Nat.eq_dec c (10 + n)) as [->|]; auto. right. exists c. split; auto; lia.
    - intros y Hy. destruct (N2 y Hy); auto. right. lia. }
  { lia. }
  rewrite E3. cbn [bind]. exists db3. rewrite Pk. rewrite <- Er in S3. split; [rewrite ids_cons; auto|]. split; auto. split; auto. split.
  - intros y Hy. apply K3, K2. rewrite R1. right. auto.
  - intros y Hy. destruct (N3 y Hy) as [Hy'|]; auto. destruct (N2 y Hy') as [Hy2|]; [|right; lia].
    rewrite R1 in Hy2. destruct Hy2 as [<-|]; auto. right. lia.
Qed.
End LT.
