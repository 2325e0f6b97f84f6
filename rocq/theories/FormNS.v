(** MoveNodeForm and nested sets: add_child leaves the reference object with a wrong rgt
    if that node had children (C24_ns_add_child_refuted).  Where the following move does not
    look at it, the form works. *)
From Coq Require Import String List Arith Lia Bool ZArith Sorted Permutation.
From Verif Require Import Prelude Forest SpecFacts SpecSane SpecKids CommonModel Order History
  NSModel NSInv NSUpd NSReads NSAdd NSMoveOk.
Import ListNotations.
Local Open Scope Z_scope.

(** The row of the reference node after add_child, and the object. *)
Lemma gap_target db (t : nsrow) np x : In t (ns_rows db) -> n_lft t < np -> np <= n_rgt t -> nid x <> n_pk t ->
  forall r, n_pk r = nid x ->
  In (set_rgt t (n_rgt t + 2)) (ns_rows (save_row (alter_gap db (n_tree t) np 2) r)).
Proof.
  intros Ht H1 H2 Hx r Er. unfold save_row.
  assert (In1 : In (set_rgt t (n_rgt t + 2)) (ns_rows (alter_gap db (n_tree t) np 2))).
  { unfold alter_gap. cbn [ns_rows]. apply in_map_iff. exists t. split; auto.
    unfold alter_sel, alter_row, set_rgt. rewrite Z.eqb_refl, ?Z.geb_leb.
    replace (np <=? n_rgt t) with true by (symmetry; apply Z.leb_le; auto).
    replace (np <=? n_lft t) with false by (symmetry; apply Z.leb_gt; auto). destruct t; auto. }
  destruct (existsb _ _); cbn [ns_rows]; [|right; auto].
  apply in_map_iff. exists (set_rgt t (n_rgt t + 2)). split; auto. cbn [n_pk set_rgt].
  destruct (Nat.eqb_spec (n_pk t) (n_pk r)); auto. congruence.
Qed.

Lemma add_child_row o db F t x db' r t' : stores (ns_rows db) F -> In t (ns_rows db) -> ~ In (nid x) (ids F) ->
  add_child o db t x = Ok (db', r, t') ->
  In (set_rgt t (n_rgt t + 2)) (ns_rows db') /\ t' = set_rgt t (n_rgt t + if is_leaf t then 2 else 4).
Proof.
  intros St Ht Hx E. assert (St' := St). destruct St' as (W & ts & I & P).
  assert (Hi : In (n_pk t) (ids F)) by (apply (Permutation_in _ (pks _ F ts I P)); apply in_map; auto).
  assert (Nx : nid x <> n_pk t) by (intros C; apply Hx; congruence).
  unfold add_child in E. rewrite (get_by_pk_in _ F ts W I P t Ht) in E. cbn [bind] in E.
  destruct (kids_row _ F ts W I P t Ht) as (k & P1 & P2 & Ek & A & C).
  assert (Rg : n_rgt t = n_lft t + 2 * Z.of_nat (size k) + 1) by apply A.
  destruct (is_leaf t) eqn:El; cbn [negb] in E.
  - injection E as <- <- <-. split; auto. apply (gap_target db t (n_rgt t) x); auto; lia.
  - destruct (get_last_child (ns_rows db) t) as [lc|] eqn:Elc; [|discriminate].
    assert (Hlc := get_last_child_in _ _ _ Elc).
    destruct (child_row _ F ts t k P1 P2 lc W I P Ht A Ek C Hlc) as (Hc & Q & Pc & Rc).
    destruct (add_sibling _ _ _ _ _) as [[db1 r1]|] eqn:Ea; [|discriminate]. cbn [bind] in E. injection E as <- <- <-.
    split; [|f_equal; lia].
    assert (Tr : forall c, In c (get_children (ns_rows db) t) -> n_tree c = n_tree t /\ n_lft t < n_lft c /\ n_lft c <= n_rgt t).
    { intros c Hcc. rewrite (around_tops _ F ts W I P _ _ _ _ Ht A) in Hcc. apply tops_in in Hcc.
      assert (B := number_bounds _ _ _ _ _ Hcc). split; [eapply number_tree; eauto|lia]. }
    assert (Qp : forall c, In c (get_children (ns_rows db) t) -> query_parent (ns_rows db) c = Ok t /\ is_root c = false).
    { intros c Hcc. destruct (child_row _ F ts t k P1 P2 c W I P Ht A Ek C Hcc) as (_ & ? & _ & ?). auto. }
    assert (Sb : forall c, In c (get_children (ns_rows db) t) -> get_siblings (ns_rows db) c = Ok (get_children (ns_rows db) t)).
    { intros c Hcc. destruct (Qp c Hcc) as [Q1 Q2]. unfold is_root in Q2. unfold get_siblings. rewrite Q2, Q1. auto. }
    assert (Fin : forall c np, In c (get_children (ns_rows db) t) -> n_lft t < np -> np <= n_rgt t ->
      In (set_rgt t (n_rgt t + 2)) (ns_rows (save_row (alter_gap db (n_tree c) np 2)
        (mkNS (nid x) (n_tree lc) np (np + 1) (n_depth lc) (ndata x))))).
    { intros c np Hcc B1 B2. destruct (Tr c Hcc) as (-> & _). apply (gap_target db t np x); auto. }
    assert (Hls : forall c, hd_error (get_children (ns_rows db) t) = Some c -> In c (get_children (ns_rows db) t)).
    { intros c Hh. destruct (get_children (ns_rows db) t); [discriminate|]. injection Hh as ->. left. auto. }
    unfold add_sibling in Ea. destruct (is_sorted o) eqn:So; cbn [prepare_pos_add to_pos prepare_pos_var bind o_row] in Ea.
    + change (prepare_pos_add true (Some "sorted-sibling"%string)) with (Ok SortedSibling) in Ea. cbn [bind] in Ea.
      rewrite Rc, (Sb lc Hlc) in Ea. cbn [bind] in Ea. unfold sorted_target in Ea.
      destruct (filter _ _) as [|s0 l0] eqn:Ef; cbn [normalize bind o_row fresh] in Ea.
      * unfold parent_rgt, get_parent in Ea. cbn [o_row fresh o_up] in Ea. rewrite Rc, Q in Ea. cbn [bind] in Ea.
        injection Ea as <- <-. apply Fin; auto; lia.
      * assert (Hs : In s0 (get_children (ns_rows db) t)).
        { apply (filter_In (fun r => sorted_after o (ndata x) (n_data r))). rewrite Ef. left. auto. }
        rewrite (Sb s0 Hs) in Ea. cbn [bind] in Ea. destruct (Tr s0 Hs) as (T1 & T2 & T3).
        destruct (same_pk s0 _).
        -- destruct (hd_error _) as [c|] eqn:Eh; cbn [bind] in Ea; [|discriminate]. cbn [o_row fresh] in Ea. injection Ea as <- <-.
           destruct (Tr c (Hls c eq_refl)) as (U1 & U2 & U3). apply Fin; auto.
        -- cbn [bind o_row fresh] in Ea. injection Ea as <- <-. apply Fin; auto.
    + change (prepare_pos_add false (Some "last-sibling"%string)) with (Ok LastSibling) in Ea. cbn [bind] in Ea.
      rewrite Rc in Ea. cbn [normalize bind o_row] in Ea.
      unfold parent_rgt, get_parent in Ea. cbn [o_row o_up] in Ea. rewrite Rc in Ea. cbn [bind] in Ea.
      injection Ea as <- <-. apply Fin; auto; lia.
Qed.

(** *** A row with rgt too large by 2 *)
Lemma number_first T f : forall d l r, In r (number T d l f) -> n_lft r = l -> n_depth r = d.
Proof.
  induction f as [|a k IHk g IHg]; intros d l r; cbn [number]; [intros []|]. cbn [In]. rewrite in_app_iff. intros [<-|[H|H]] E; auto;
    apply number_bounds in H; lia.
Qed.

Lemma number_next T f : forall d l t r, In t (number T d l f) -> In r (number T d l f) ->
  n_lft r <> n_rgt t /\ (n_lft r = n_rgt t + 1 -> n_depth r <= n_depth t).
Proof.
  induction f as [|a k IHk g IHg]; intros d l t r; cbn [number]; [intros []|]. cbn [In]. rewrite !in_app_iff.
  intros [<-|[Ht|Ht]] [<-|[Hr|Hr]]; cbn [n_lft n_rgt n_depth]; try (split; [lia|intros; lia]);
    try (assert (Bt := number_bounds _ _ _ _ _ Ht)); try (assert (Br := number_bounds _ _ _ _ _ Hr)); try (split; [lia|intros; lia]); eauto.
  split; [lia|]. intros E. rewrite (number_first _ _ _ _ _ Hr) by lia. lia.
Qed.

Lemma layout_next ts F t r : StronglySorted Z.lt ts -> In t (layout ts F) -> In r (layout ts F) -> n_tree r = n_tree t ->
  n_lft r <> n_rgt t /\ (n_lft r = n_rgt t + 1 -> n_depth r <= n_depth t).
Proof.
  revert ts. induction F as [|a k _ s IH]; intros [|T ts] S; cbn [layout]; try (intros []; fail).
  inversion S; subst. rewrite Forall_forall in H2. rewrite !in_app_iff. intros [Ht|Ht] [Hr|Hr] E.
  - eapply number_next; eauto.
  - apply number_tree in Ht. apply layout_tree in Hr. specialize (H2 _ Hr). lia.
  - apply number_tree in Hr. apply layout_tree in Ht. specialize (H2 _ Ht). lia.
  - eapply IH; eauto.
Qed.

Lemma stale_children rs F y : stores rs F -> In y rs -> is_leaf y = false ->
  let s := set_rgt y (n_rgt y + 2) in is_leaf s = false /\ get_children rs s = get_children rs y.
Proof.
  intros (W & ts & I & P) Hy Lf s. assert (B := layout_bounds _ _ _ (Permutation_in _ P Hy)).
  assert (Ls : is_leaf s = false).
  { unfold is_leaf, s in *. cbn [set_rgt n_rgt n_lft] in *. apply Z.eqb_neq. lia. }
  split; auto. unfold get_children, get_descendants. rewrite Lf, Ls. unfold get_tree. rewrite Lf, Ls.
  cbn [s set_rgt n_tree n_lft n_rgt n_depth n_pk depth_ok].
  rewrite !(query rs F ts I P), !filter_filter. apply filter_ext_in. intros r Hr.
  destruct (n_depth r =? n_depth y + 1) eqn:Ed; rewrite ?andb_false_r; auto.
  apply Z.eqb_eq in Ed. destruct (Z.eqb_spec (n_tree r) (n_tree y)) as [Et|_]; auto. cbn [andb].
  destruct (layout_next ts F y r (proj1 (proj2 I)) (Permutation_in _ P Hy) Hr Et) as [N1 N2].
  replace (n_lft r <=? n_rgt y + 2 - 1) with (n_lft r <=? n_rgt y - 1); auto.
  apply eq_true_iff_eq. rewrite !Z.leb_le. split; [lia|]. intros H.
  assert (n_lft r <> n_rgt y + 1) by (intros E; specialize (N2 E); lia). lia.
Qed.

(** The outcome for the table. *)
Definition table {A B} (x : res (ns_db * A * B)) : res ns_db := do '(db, _, _) <- x; Ok db.

Lemma stale_child_move o db F node y p P : stores (ns_rows db) F -> In y (ns_rows db) -> is_leaf y = false ->
  prepare_pos_move (is_sorted o) p = Ok P -> is_child_pos P = true ->
  table (move o db node (fresh (set_rgt y (n_rgt y + 2))) p) = table (move o db node (fresh y) p).
Proof.
  intros S Hy Lf EP EC. destruct (stale_children _ F y S Hy Lf) as [Ls Ec]. rewrite !(move_place _ _ _ _ _ _ EP).
  assert (Em : move_target (ns_rows db) (o_row node) (fresh (set_rgt y (n_rgt y + 2))) P =
               move_target (ns_rows db) (o_row node) (fresh y) P).
  { unfold move_target. cbn [o_row fresh]. rewrite Ls, Lf. unfold get_last_child. rewrite Ec. destruct P; try discriminate; reflexivity. }
  rewrite Em. clear Em. destruct (move_target (ns_rows db) (o_row node) (fresh y) P) as [[[par tg] q]|e]; auto. cbn [bind].
  destruct (is_descendant_of (o_row tg) (o_row node)); auto.
  destruct (move_is_noop (ns_rows db) (o_row node) tg q) as [[]|]; auto.
Qed.

(** The objects of the two runs *)
Definition pair_of (s y : nsrow) (a b : nsobj) : Prop := a = b \/ (a = fresh s /\ b = fresh y).

Lemma stale_sibling_move o db node y p P : let s := set_rgt y (n_rgt y + 2) in
  (is_root y = true \/ query_parent (ns_rows db) s = query_parent (ns_rows db) y) ->
  n_pk (o_row node) <> n_pk y -> is_descendant_of y (o_row node) = false -> is_descendant_of s (o_row node) = false ->
  prepare_pos_move (is_sorted o) p = Ok P -> is_child_pos P = false ->
  table (move o db node (fresh s) p) = table (move o db node (fresh y) p).
Proof.
  intros s Q N D1 D2 EP EC. rewrite !(move_place _ _ _ _ _ _ EP).
  assert (Em : forall z, move_target (ns_rows db) (o_row node) (fresh z) P = Ok (None, fresh z, P)).
  { intros z. unfold move_target. destruct P; try discriminate; auto. }
  rewrite !Em. cbn [bind o_row fresh]. rewrite D1, D2. unfold move_is_noop, noop_cache. cbn [o_row fresh].
  change (n_pk s) with (n_pk y). rewrite (proj2 (Nat.eqb_neq _ _) N). cbn [bind].
  assert (Sb : get_siblings (ns_rows db) s = get_siblings (ns_rows db) y).
  { unfold get_siblings. change (n_lft s) with (n_lft y). unfold is_root in Q. destruct (n_lft y =? 1); auto.
    destruct Q as [Q|Q]; [discriminate|]. rewrite Q. auto. }
  assert (Pl : match place_target o (ns_rows db) P (n_data (o_row node)) (fresh s), place_target o (ns_rows db) P (n_data (o_row node)) (fresh y) with
               | Ok (q, a), Ok (q', b) => q = q' /\ pair_of s y a b
               | Err e, Err e' => e = e'
               | _, _ => False
               end).
  { unfold place_target.
    assert (X : match (match P with SortedSibling => do sibs <- get_siblings (ns_rows db) (o_row (fresh s)); Ok (sorted_target o sibs (n_data (o_row node)) (fresh s)) | _ => Ok (P, fresh s) end),
      (match P with SortedSibling => do sibs <- get_siblings (ns_rows db) (o_row (fresh y)); Ok (sorted_target o sibs (n_data (o_row node)) (fresh y)) | _ => Ok (P, fresh y) end) with
               | Ok (q, a), Ok (q', b) => q = q' /\ pair_of s y a b
               | Err e, Err e' => e = e'
               | _, _ => False
               end).
    { unfold pair_of. cbn [o_row fresh]. rewrite Sb. destruct P; try (split; auto; fail).
      destruct (get_siblings (ns_rows db) y) as [sibs|e]; cbn [bind]; auto. unfold sorted_target. destruct (filter _ sibs); auto. }
    destruct (match P with SortedSibling => _ | _ => _ end) as [[q a]|e];
      destruct (match P with SortedSibling => _ | _ => _ end) as [[q' b]|e']; cbn [bind]; try contradiction; auto.
    destruct X as [<- [->|[-> ->]]].
    { destruct (normalize _ q b) as [[? ?]|]; auto. split; auto. left. auto. }
    unfold normalize. cbn [o_row fresh]. change (n_pk s) with (n_pk y). rewrite Sb.
    destruct q; cbn [bind]; unfold pair_of; try (split; auto; fail);
      destruct (get_siblings (ns_rows db) y) as [sibs|e]; cbn [bind]; auto.
    all: assert (Ea : forall l, after_target s l = after_target y l) by (induction l as [|c l IH]; cbn; auto; rewrite IH; auto).
    all: rewrite ?Ea; unfold same_pk; change (n_pk s) with (n_pk y).
    all: repeat (cbn [o_row fresh]; change (n_pk s) with (n_pk y);
      match goal with
      | |- context [match last_opt ?l with _ => _ end] => destruct (last_opt l)
      | |- context [match hd_error ?l with _ => _ end] => destruct (hd_error l)
      | |- context [match after_target ?u ?l with _ => _ end] => destruct (after_target u l)
      | |- context [if ?b then _ else _] => destruct b
      end); auto. }
  destruct (place_target o (ns_rows db) P (n_data (o_row node)) (fresh s)) as [[q a]|e];
    destruct (place_target o (ns_rows db) P (n_data (o_row node)) (fresh y)) as [[q' b]|e']; try contradiction; cbn [bind]; [|subst; auto].
  destruct Pl as [<- [->|[-> ->]]]; auto.
  unfold move_rest. cbn [o_row fresh]. change (n_depth s) with (n_depth y).
  assert (Hole : make_hole db (n_rgt (o_row node) - n_lft (o_row node) + 1) None (fresh s) q =
                 make_hole db (n_rgt (o_row node) - n_lft (o_row node) + 1) None (fresh y) q).
  { unfold make_hole. cbn [o_row fresh]. change (n_tree s) with (n_tree y). change (n_lft s) with (n_lft y).
    change (is_root s) with (is_root y). destruct (is_root y) eqn:Er; [rewrite Sb; auto|].
    destruct Q as [Q|Q]; [congruence|]. unfold parent_rgt, get_parent. cbn [o_row fresh o_up].
    change (is_root s) with (is_root y). rewrite Er, Q. auto. }
  rewrite Hole. auto.
Qed.

Lemma last_filter {A} (Q : A -> bool) L x : last_opt L = Some x -> Q x = true -> last_opt (filter Q L) = Some x.
Proof.
  unfold last_opt. intros H E. rewrite <- (rev_involutive L).
  destruct (rev L) as [|y M]; [discriminate|]. injection H as ->. cbn [rev].
  rewrite filter_app, rev_app_distr. cbn [filter]. rewrite E. auto.
Qed.

(** With a sibling behind it, the parent ends late enough. *)
Lemma stale_parent rs F y : stores rs F -> In y rs -> is_root y = false ->
  next_of (n_pk y) (siblings_of (n_pk y) F) <> None ->
  query_parent rs (set_rgt y (n_rgt y + 2)) = query_parent rs y.
Proof.
  intros S Hy Er Nx. destruct S as (W & ts & I & P).
  destruct (sibs_row rs F ts W I P y Hy) as (up & l1 & a & k & l2 & Ea & C & U).
  destruct (up_row_ctx F W _ _ _ _ _ _ Ea C) as (U1 & U2 & U3).
  destruct up as [p|]; cbn [up_row] in U.
  2:{ destruct U as (_ & E & _). unfold is_root in Er. rewrite E in Er. discriminate. }
  destruct U as (x & P1 & P2 & Hx & Ex & A & Hs & Hq & N). rewrite Hq.
  destruct A as (_ & Ar & _). destruct Hs as (_ & _ & _ & El & Ey).
  assert (H2 : (1 <= size l2)%nat).
  { destruct l2 as [|b kb lb]; [|cbn; lia]. exfalso. apply Nx. rewrite U3. rewrite next_of_split; auto.
    rewrite <- U3. unfold siblings_of. rewrite U1, U2. apply wf_roots, (wf_kids (Some p) F); auto. }
  assert (Hr : n_rgt y + 2 < n_rgt x).
  { rewrite Ar, Ey, El. clear - H2. assert (E : size (fapp l1 (Cons a k l2)) = (size l1 + (1 + size k + size l2))%nat).
    { rewrite size_fapp. cbn. lia. } rewrite E. lia. }
  unfold query_parent in *. rewrite (anc_query rs F ts I P) in * by auto.
  destruct (last_opt (filter (anc y) (layout ts F))) as [x'|] eqn:E; [|discriminate]. injection Hq as ->.
  assert (Q : filter (anc (set_rgt y (n_rgt y + 2))) (layout ts F) =
    filter (fun r => n_rgt y + 2 <? n_rgt r) (filter (anc y) (layout ts F))).
  { rewrite filter_filter. apply filter_ext. intros r. unfold anc, set_rgt. cbn.
    destruct (n_tree r =? n_tree y), (n_lft r <? n_lft y); cbn; rewrite ?andb_false_r, ?andb_true_r; auto.
    destruct (Z.ltb_spec (n_rgt y + 2) (n_rgt r)), (Z.ltb_spec (n_rgt y) (n_rgt r)); auto; lia. }
  rewrite Q, (last_filter _ _ x); auto. apply Z.ltb_lt. auto.
Qed.
