(** Moving nodes of nested set trees. *)
From Coq Require Import String List Arith ZArith Lia Bool Permutation Sorted.
From Verif Require Import Prelude Forest SpecFacts CommonModel Order History NSModel NSInv NSReads NSUpd NSAdd NSCut NSMove.
Import ListNotations.
Local Open Scope Z_scope.

(** ** About forests *)
Lemma roots_remove n m : wf_ids m -> roots (remove n m) = drop n (roots m).
Proof.
  induction m as [|a k _ r IH]; intros W; auto. apply wf_cons_inv in W. destruct W as (W1 & W2 & W3 & W4 & W5).
  cbn [remove roots]. unfold drop in *. cbn [filter]. destruct (Nat.eqb_spec (nid a) n) as [E|E]; cbn [negb].
  - rewrite <- IH by auto. rewrite remove_notin; auto. congruence.
  - cbn [roots]. rewrite IH; auto.
Qed.

Lemma split_drop n wh L1 L2 : ins_split wh L1 L2 -> place_is_self n wh = false ->
  (forall gt, wh = PSorted gt -> forall x, In x (L1 ++ L2) -> nid x = n -> gt x = true -> forall y, gt y = true) ->
  ins_split wh (drop n L1) (drop n L2).
Proof.
  intros H Ns Hg. destruct wh as [| |s|s|gt]; cbn [ins_split place_is_self] in *.
  - subst. auto.
  - subst. auto.
  - apply Nat.eqb_neq in Ns. destruct H as (H1 & a & L & -> & Ea). split.
    + intros x Hx. apply drop_in in Hx. apply H1. tauto.
    + exists a, (drop n L). split; auto. unfold drop. cbn [filter]. destruct (Nat.eqb_spec (nid a) n); [congruence|auto].
  - apply Nat.eqb_neq in Ns. destruct H as (L & a & -> & Ea & H1). exists (drop n L), a. split; [|split; auto].
    + rewrite drop_app. f_equal. unfold drop. cbn [filter]. destruct (Nat.eqb_spec (nid a) n); [congruence|auto].
    + intros x Hx. apply drop_in in Hx. apply H1. tauto.
  - destruct H as [H1 H2]. split.
    + intros x Hx. apply drop_in in Hx. apply H1. tauto.
    + intros b L E. destruct L2 as [|y L2]; [discriminate|]. specialize (H2 y L2 eq_refl).
      unfold drop in E. cbn [filter] in E. destruct (Nat.eqb_spec (nid y) n) as [Ey|Ey]; cbn [negb] in E.
      * apply (Hg gt eq_refl y); auto. apply in_app_iff. simpl. auto.
      * injection E as <- _. auto.
Qed.

Lemma sorted_after_self o d y : sorted_after o d d = true -> sorted_after o d y = true.
Proof.
  rewrite !sorted_after_lex. rewrite !orb_true_iff. intros [H|H]; auto.
  assert (H' := lexlt_asym _ _ _ H). congruence.
Qed.

Lemma Ctx_comp n up k k' l l' F F' : Ctx (Some n) k k' F F' -> Ctx up l l' k k' ->
  Ctx (match up with None => Some n | Some q => Some q end) l l' F F'.
Proof.
  intros C. remember (Some n) as u. revert Hequ. induction C; intros E D; try discriminate.
  - injection E as <-. inversion D; subst; [apply Ctx_par|apply Ctx_down; auto..].
  - destruct up; apply Ctx_down; auto.
  - destruct up; apply Ctx_right; auto.
Qed.

Lemma Ctx_refl up l l' F F' : Ctx up l l' F F' -> Ctx up l l F F.
Proof. induction 1; [apply Ctx_top|apply Ctx_par|apply Ctx_down; auto|apply Ctx_right; auto]. Qed.

Lemma desc_child F n p l c : wf_ids F -> (forall l', exists F', Ctx (Some p) l l' F F') ->
  In c (map nid (roots l)) -> (descends F n c <-> n = p \/ descends F n p).
Proof.
  intros W C Hc. destruct (C Nil) as [F1 C1]. split.
  - intros (k & Ek & Hk). assert (Hn : In n (ids F)).
    { destruct (in_dec Nat.eq_dec n (ids F)); auto. rewrite children_of_notin in Ek by auto. discriminate. }
    destruct (kids_ctx n F Hn) as (k2 & C2). destruct (C2 k) as [F2 D2].
    assert (E2 := Ctx_kids_of D2 W). cbn [kids_of] in E2. rewrite Ek in E2. injection E2 as <-.
    destruct (node_ctx c k Hk) as (up & m & Hm & C3). destruct (C3 Nil) as [k3 D3].
    destruct (C2 k3) as [F3 D4]. assert (D5 := Ctx_comp _ _ _ _ _ _ _ _ D4 D3).
    assert (E5 : parent_of c F = Some (match up with None => Some n | Some q => Some q end)).
    { eapply Ctx_parent_of; [exact D5|exact W|exact Hm]. }
    assert (E6 : parent_of c F = Some (Some p)) by (eapply Ctx_parent_of; [exact C1|exact W|exact Hc]).
    rewrite E6 in E5. destruct up as [q|]; injection E5 as ->; auto.
    right. exists k. split; auto. apply (Ctx_par_in D3).
  - assert (Ep := Ctx_kids_of C1 W). cbn [kids_of] in Ep. intros [->|(k & Ek & Hk)].
    + exists l. split; auto. apply roots_ids. auto.
    + exists k. split; auto. assert (Hn : In n (ids F)).
      { destruct (in_dec Nat.eq_dec n (ids F)); auto. rewrite children_of_notin in Ek by auto. discriminate. }
      destruct (kids_ctx n F Hn) as (k2 & C2). destruct (C2 k) as [F2 D2].
      assert (E2 := Ctx_kids_of D2 W). cbn [kids_of] in E2. rewrite Ek in E2. injection E2 as <-.
      destruct (kids_ctx p k Hk) as (m & C3). destruct (C3 Nil) as [k3 D3]. destruct (C2 k3) as [F3 D4].
      assert (D5 := Ctx_comp _ _ _ _ _ _ _ _ D4 D3). assert (E5 := Ctx_kids_of D5 W). cbn [kids_of] in E5.
      rewrite Ep in E5. injection E5 as ->. eapply Ctx_incl; [exact D3|]. apply roots_ids. auto.
Qed.

Lemma subtree_children F n : wf_ids F -> In n (ids F) -> exists a k, subtree n F = Cons a k Nil /\ nid a = n /\
  children_of n F = Some k.
Proof.
  induction F as [|a k IHk r IHr]; intros W H; [destruct H|]. assert (W' := W).
  apply wf_cons_inv in W'. destruct W' as (W1 & W2 & W3 & W4 & W5). cbn [subtree children_of].
  destruct (Nat.eqb_spec (nid a) n) as [E|E]; [eauto|]. rewrite ids_cons in H. cbn [app In] in H.
  rewrite in_app_iff in H. destruct H as [H|[H|H]]; [tauto| |].
  - destruct (IHk W3 H) as (b & c & -> & Eb & ->). eauto.
  - rewrite subtree_notin, children_of_notin by (intros Hk; destruct (W5 n); auto). auto.
Qed.

Lemma in_subtree F n p : wf_ids F -> In n (ids F) -> (In p (ids (subtree n F)) <-> n = p \/ descends F n p).
Proof.
  intros W Hn. destruct (subtree_children F n W Hn) as (a & k & -> & Ea & Ek). rewrite ids_cons, app_nil_r.
  cbn [In]. unfold descends. rewrite Ek, Ea. split.
  - intros [H|H]; eauto.
  - intros [H|(l & E & H)]; [auto|]. injection E as <-. auto.
Qed.

Lemma nid_unique F x y : wf_ids F -> In x (preorder F) -> In y (preorder F) -> nid x = nid y -> x = y.
Proof. intros W. apply (NoDup_map_inj nid). exact W. Qed.

(** ** The end of move *)
Definition move_rest (db : ns_db) (nd : nsrow) (tpk : nat) (parent : option nsrow) (p : pos) (tg : nsobj)
  : res (ns_db * nsobj * nsobj) :=
  do '(db1, target_tree, newpos) <- make_hole db (n_rgt nd - n_lft nd + 1) parent tg p;
  do nd1 <- get_by_pk (ns_rows db1) (n_pk nd);
  let db3 := jump_close db1 nd1 target_tree newpos
     (n_depth (o_row tg) - n_depth nd1 + (match parent with Some _ => 1 | None => 0 end)) in
  do nd2 <- get_by_pk (ns_rows db3) (n_pk nd);
  do tg2 <- get_by_pk (ns_rows db3) tpk;
  Ok (db3, fresh nd2, fresh tg2).

Lemma move_place o db node target p P : prepare_pos_move (is_sorted o) p = Ok P ->
  move o db node target p =
    do '(parent, tg, p) <- move_target (ns_rows db) (o_row node) target P;
    if is_descendant_of (o_row tg) (o_row node) then Err InvalidMoveToDescendant
    else
    do noop <- move_is_noop (ns_rows db) (o_row node) tg p;
    if noop then Ok (db, node, target)
    else
    do '(p, tg) <- place_target o (ns_rows db) p (n_data (o_row node)) (noop_cache (o_row node) tg);
    move_rest db (o_row node) (n_pk (o_row target)) parent p tg.
Proof.
  intros E. unfold move. rewrite E. cbn [bind].
  destruct (move_target (ns_rows db) (o_row node) target P) as [[[parent tg] q]|e]; [|reflexivity]. cbn [bind].
  destruct (is_descendant_of (o_row tg) (o_row node)); [reflexivity|].
  destruct (move_is_noop (ns_rows db) (o_row node) tg q) as [noop|e]; [|reflexivity]. cbn [bind]. destruct noop; [reflexivity|].
  unfold place_target. destruct (match q with SortedSibling => _ | _ => _ end) as [[q' tg']|e]; [|reflexivity]. cbn [bind].
  destruct (normalize (ns_rows db) q' tg') as [[q2 tg2]|e]; reflexivity.
Qed.

Lemma by_pk_perm t F n : wf_ids F -> Permutation (map n_pk t) (ids F) -> In n (ids F) ->
  exists r, get_by_pk t n = Ok r /\ In r t /\ n_pk r = n.
Proof.
  intros W P H. assert (H' : In n (map n_pk t)) by (apply (Permutation_in _ (Permutation_sym P)); auto).
  apply in_map_iff in H'. destruct H' as (r & <- & Hr). exists r. split; auto. apply get_by_pk_list; auto.
  unfold wf_ids in W. rewrite P. auto.
Qed.

(** What is returned. *)
Definition moved (r : res (ns_db * nsobj * nsobj)) (n t : nat) (F2 : forest node) : Prop :=
  exists db' node' target', r = Ok (db', node', target') /\ stores (ns_rows db') F2 /\
    good_obj (ns_rows db') node' /\ n_pk (o_row node') = n /\ good_obj (ns_rows db') target' /\ n_pk (o_row target') = t.

Lemma rest_ok db F nd tpk parent p tg db1 T' np F2 :
  wf_ids F -> In (n_pk nd) (ids F) -> In tpk (ids F) ->
  make_hole db (n_rgt nd - n_lft nd + 1) parent tg p = Ok (db1, T', np) ->
  Permutation (map n_pk (ns_rows db1)) (ids F) ->
  (forall nd1, In nd1 (ns_rows db1) -> n_pk nd1 = n_pk nd ->
    stores (ns_rows (jump_close db1 nd1 T' np
      (n_depth (o_row tg) - n_depth nd1 + (match parent with Some _ => 1 | None => 0 end)))) F2) ->
  moved (move_rest db nd tpk parent p tg) (n_pk nd) tpk F2.
Proof.
  intros W Hn Ht E1 Pk H. unfold moved, move_rest. rewrite E1. cbn [bind].
  destruct (by_pk_perm _ F (n_pk nd) W Pk Hn) as (nd1 & -> & Hn1 & En1). cbn [bind].
  specialize (H nd1 Hn1 En1). set (db3 := jump_close _ _ _ _ _) in *.
  assert (Pk3 : Permutation (map n_pk (ns_rows db3)) (ids F)) by (unfold db3; rewrite jump_close_pks; auto).
  destruct (by_pk_perm _ F (n_pk nd) W Pk3 Hn) as (nd2 & -> & Hn2 & En2). cbn [bind].
  destruct (by_pk_perm _ F tpk W Pk3 Ht) as (tg2 & -> & Ht2 & Et2). cbn [bind].
  exists db3, (fresh nd2), (fresh tg2). split; auto. split; auto. split; [apply good_fresh; auto|]. split; auto.
  split; auto. apply good_fresh; auto.
Qed.

Lemma gap_size F ts t nd a c : wf_ids F -> ids_ok ts F -> Permutation t (layout ts F) -> In nd t ->
  subtree (n_pk nd) F = Cons a c Nil -> n_rgt nd - n_lft nd + 1 = 2 * Z.of_nat (size (Cons a c Nil)).
Proof.
  intros W I P Hn Es. destruct (kids_row _ F ts W I P nd Hn) as (k & P1 & P2 & Ek & A & C).
  assert (Hi : In (n_pk nd) (ids F)).
  { apply (Permutation_in _ (pks _ F ts I P)). apply in_map. auto. }
  destruct (subtree_children F _ W Hi) as (a' & k' & Es' & _ & Ek'). rewrite Es in Es'. injection Es' as <- <-.
  rewrite Ek in Ek'. injection Ek' as <-. assert (R := rgt_size F ts _ _ _ _ A). cbn [size]. lia.
Qed.

(** The forest that the moves of NSMove.v give is that of the specification. *)
Lemma moved_spec up F F2 n a c m1 m2 wh :
  wf_ids F -> subtree n F = Cons a c Nil -> nid a = n -> wf_ids (fapp m1 m2) ->
  (forall l', exists F', Ctx up (fapp m1 m2) l' F F') ->
  Ctx up (fapp (remove n m1) (remove n m2)) (fapp (remove n m1) (Cons a c (remove n m2))) (remove n F) F2 ->
  (match up with None => True | Some p => ~ In p (ids (subtree n F)) end) ->
  ins_split wh (roots m1) (roots m2) ->
  (forall gt, wh = PSorted gt -> forall x, In x (roots m1 ++ roots m2) -> nid x = n -> gt x = true -> forall y, gt y = true) ->
  (if place_is_self n wh then F else at_kids up (ins wh (subtree n F)) (remove n F)) = F2.
Proof.
  intros W Es Ea Wm C0 C Np Hi Hg. destruct (wf_fapp_inv _ _ Wm) as (W1 & W2 & W3).
  assert (W0 : wf_ids (remove n F)).
  { rewrite <- (remove_all_one n W). apply remove_all_wf. auto. }
  destruct (place_is_self n wh) eqn:Sf.
  - (* next to itself *)
    assert (exists x c' y, fapp m1 m2 = fapp x (Cons a c' y) /\ remove n m1 = x /\ remove n m2 = y /\ c' = c) as (x & c' & y & E1 & E2 & E3 & E4).
    { assert (Q : forall x b c' y, fapp m1 m2 = fapp x (Cons b c' y) -> nid b = n -> b = a /\ c' = c).
      { intros x b c' y E Eb. destruct (C0 Nil) as [F1 C1]. rewrite E in C1. assert (Z := Ctx_subtree _ _ _ _ C1 W).
        rewrite Eb, Es in Z. injection Z as <- <-. auto. }
      destruct wh as [| |s|s|gt]; try discriminate; cbn [place_is_self] in Sf; apply Nat.eqb_eq in Sf; subst s.
      - destruct Hi as (H1 & b & L & EL & Eb). destruct m2 as [|b' c' y]; [discriminate|]. cbn [roots] in EL. injection EL as -> _.
        destruct (Q m1 b c' y eq_refl Eb) as [-> ->]. exists m1, c, y. split; auto.
        split; [apply remove_notin; intros H; apply (W3 n H); rewrite ids_cons; simpl; auto|].
        split; auto. cbn [remove]. rewrite Ea, Nat.eqb_refl. auto.
      - destruct Hi as (L & b & EL & Eb & H1). destruct (@roots_snoc _ _ _ _ EL) as (m & k & -> & Em).
        rewrite fapp_assoc. cbn [fapp]. destruct (Q m b k m2 ltac:(rewrite fapp_assoc; auto) Eb) as [-> ->].
        exists m, c, m2. split; auto. destruct (wf_fapp_inv _ _ W1) as (V1 & V2 & V3).
        split; [|split; auto; apply remove_notin; intros H; apply (W3 n); auto; rewrite ids_fapp, ids_cons; apply in_app_iff; simpl; auto].
        rewrite <- (remove_all_one n) by auto. rewrite remove_all_fapp. cbn [remove_all]. rewrite Ea, Nat.eqb_refl.
        rewrite remove_all_one by auto. rewrite fapp_nil_r. apply remove_notin. intros H. apply (V3 n H).
        rewrite ids_cons. simpl. auto. }
    subst c'. rewrite E2, E3 in C. destruct (C0 (fapp x y)) as [F1 C1]. rewrite E1 in C1.
    assert (ER := Ctx_remove _ _ _ _ C1 W). rewrite Ea in ER. rewrite <- ER in C1.
    assert (D := Ctx_trans _ _ _ _ _ _ _ C1 C W0). rewrite <- E1 in D.
    assert (A1 : at_kids up (fun l => l) F = F2) by (eapply Ctx_at_kids; [exact D|exact W|auto]).
    assert (exists F3, Ctx up (fapp m1 m2) (fapp m1 m2) F F3) as [F3 D3] by apply C0.
    assert (A2 : at_kids up (fun l => l) F = F) by (eapply Ctx_at_kids; [eapply Ctx_refl; exact D3|exact W|auto]).
    congruence.
  - eapply Ctx_at_kids; [exact C|exact W0|]. rewrite Es. symmetry. rewrite ins_split_ok; auto.
    rewrite !roots_remove by auto. apply split_drop; auto.
Qed.

(** A sibling position, no-op or not. *)
Lemma move_sib o db F nd tg P tpk :
  stores (ns_rows db) F -> In nd (ns_rows db) -> good_obj (ns_rows db) tg -> is_sib_pos P -> In tpk (ids F) ->
  ~ descends F (n_pk nd) (n_pk (o_row tg)) ->
  let gt n := sorted_after o (n_data nd) (ndata n) in
  moved (do '(p, tg) <- place_target o (ns_rows db) P (n_data nd) tg; move_rest db nd tpk None p tg)
    (n_pk nd) tpk (sp_move (n_pk nd) (n_pk (o_row tg)) P gt F).
Proof.
  intros St Hn G Sp Ht Nd gt. assert (St' := St). destruct St' as (W & ts & I & Pt). assert (Hg := proj1 G).
  destruct (sibs_row _ F ts W I Pt _ Hg) as (up & l1 & a & k & l2 & Ea & C & U).
  destruct (up_row_ctx F W _ _ _ _ _ _ Ea C) as (U1 & U2 & U3).
  destruct (siblings_list _ F ts W I Pt _ Hg) as (L & L1 & L2 & EL & EL2 & M & HL).
  assert (ND : NoDup (map n_pk L)) by (apply map_pk_NoDup; rewrite M; apply siblings_NoDup; auto).
  assert (Pk := pks _ F ts I Pt).
  assert (Hi : In (n_pk nd) (ids F)) by (apply (Permutation_in _ Pk), in_map; auto).
  destruct (subtree_children F _ W Hi) as (an & c & Es & Ean & Ek).
  assert (Gs := gap_size F ts _ nd an c W I Pt Hn Es).
  destruct (C Nil) as [FN CN]. assert (Wl := Ctx_wf_l CN W).
  assert (Ein : In (o_row tg) L) by (rewrite EL2; apply in_app_iff; simpl; auto).
  destruct (place_ok o (ns_rows db) L (fapp l1 (Cons a k l2)) ND) with (P := P) (d := n_data nd) (tg := tg)
    as (p' & tg' & m1 & m2 & E1 & El & Hi1 & Hin & Spt); auto.
  { rewrite M, U3, roots_fapp. auto. }
  { apply (siblings_all _ F ts (o_row tg) L W I Pt Hg EL). }
  fold gt in Hi1. rewrite E1. cbn [bind]. rewrite El in Wl, C.
  assert (Dn : ndata an = n_data nd).
  { destruct (sibs_row _ F ts W I Pt _ Hn) as (upn & x1 & an' & kn & x2 & Ean' & Cn & Un).
    destruct (Cn Nil) as [FN' CN']. assert (Z := Ctx_subtree _ _ _ _ CN' W). rewrite Ean', Es in Z. injection Z as -> _.
    destruct upn; cbn [up_row] in Un.
    - destruct Un as (xx & _ & _ & _ & _ & _ & (Z & _) & _). rewrite <- Z. auto.
    - destruct Un as (_ & _ & _ & Z & _). rewrite <- Z. auto. }
  assert (Sort : forall gt0, sib_place P (n_pk (o_row tg)) gt = PSorted gt0 -> forall x, In x (roots m1 ++ roots m2) ->
            nid x = n_pk nd -> gt0 x = true -> forall y, gt0 y = true).
  { intros gt0 E x Hx Ex Gx y. assert (gt0 = gt) by (destruct P; cbn [sib_place] in E; congruence). subst gt0.
    assert (x = an).
    { rewrite <- roots_fapp in Hx. apply in_split in Hx. destruct Hx as (A1 & A2 & EA).
      destruct (roots_app_split _ _ _ EA) as (x1 & x2 & Ex1 & _ & Rx). destruct x2 as [|x' kx x2]; [discriminate|].
      cbn [roots] in Rx. injection Rx as -> _. rewrite El, Ex1 in CN. assert (Z := Ctx_subtree _ _ _ _ CN W).
      rewrite Ex, Es in Z. injection Z as -> _. auto. }
    subst x. unfold gt in *. rewrite Dn in Gx. apply sorted_after_self. auto. }
  unfold sp_move. rewrite (resolve_sib _ _ _ _ _ Sp U1).
  destruct up as [p|]; cbn [up_row] in U.
  - destruct U as (xr & P1 & P2 & Hx & Ex & A & Hs & Q & N).
    assert (Rt : is_root (o_row tg) = false) by (apply Z.eqb_neq; auto).
    assert (ELt : L = tops (n_tree xr) (n_depth xr + 1) (n_lft xr + 1) (fapp l1 (Cons a k l2))).
    { unfold get_siblings in EL. unfold is_root in Rt. rewrite Rt, Q in EL. cbn [bind] in EL. injection EL as <-.
      apply (around_tops _ F ts W I Pt _ _ _ _ Hx A). }
    assert (Hin' := Hin). rewrite ELt in Hin'.
    destruct (spot_newpos _ F ts xr _ P1 P2 tg p' tg' m1 m2 W I Pt Hx A El Spt) as (T1 & T2 & T3); auto.
    assert (Np : ~ In p (ids (subtree (n_pk nd) F))).
    { rewrite in_subtree by auto. intros H. apply Nd. eapply desc_child; [exact W|exact C| |exact H].
      rewrite <- El, <- Ea, roots_fapp, map_app. apply in_app_iff. simpl. auto. }
    assert (Rt' : is_root (o_row tg') = false).
    { apply Z.eqb_neq. apply tops_in, number_bounds in Hin'.
      assert (Hxl : 1 <= n_lft xr) by (apply (in_t _ F ts Pt) in Hx; apply layout_bounds in Hx; lia). lia. }
    set (np := n_lft xr + 1 + 2 * Z.of_nat (size m1)) in *.
    set (db1 := alter_gap db (n_tree xr) np (2 * Z.of_nat (size (Cons an c Nil)))).
    assert (MH : make_hole db (n_rgt nd - n_lft nd + 1) None tg' p' = Ok (db1, n_tree xr, np)).
    { unfold make_hole. rewrite Gs, T1, Rt'. 
      destruct p'; try discriminate; try (rewrite T3; reflexivity); injection T3 as ->; reflexivity. }
    assert (MB := fun nd1 dd => move_below db F (n_pk nd) an c p m1 m2 xr np nd1 dd St Es Ean Hi C Np Hx Ex eq_refl).
    cbn zeta in MB. fold db1 in MB.
    apply rest_ok with (F := F) (db1 := db1) (T' := n_tree xr) (np := np); auto.
    { unfold db1. rewrite alter_gap_pks. auto. }
    intros nd1 Hn1 En1. destruct (MB nd1 _ Hn1 En1 eq_refl) as (F4 & C4 & S4).
    rewrite (moved_spec (Some p) F F4 (n_pk nd) an c m1 m2 _ W Es Ean Wl C C4 Np Hi1 Sort).
    replace (n_depth (o_row tg') - n_depth nd1 + 0) with (n_depth xr + 1 - n_depth nd1) by lia. exact S4.
  - destruct U as (EF & R1 & R2 & R3 & R4 & _). rewrite El in EF.
    assert (ELt : L = get_root_nodes (ns_rows db)).
    { unfold get_siblings in EL. rewrite R1 in EL. cbn in EL. injection EL as <-. auto. }
    assert (ELh : L = heads ts F) by (rewrite ELt; apply (get_root_nodes_heads _ F ts I Pt)).
    assert (I' := I). destruct I' as (I1 & I2 & I3).
    assert (ER : map row_node L = roots F) by (rewrite ELh; apply heads_roots; auto).
    assert (ET : map n_tree L = ts) by (rewrite ELh; apply heads_trees; auto).
    assert (HT : forall U, In U ts -> 1 <= U) by (intros U HU; rewrite Forall_forall in I3; apply I3; auto).
    assert (La : laid (ns_rows db) (spread ts F)) by (apply layout_iff in Pt; auto; apply Pt).
    assert (Htop : forall r, In r L -> n_lft r = 1 /\ n_depth r = 1).
    { intros r Hr. rewrite ELh in Hr. apply heads_tree in Hr. tauto. }
    destruct (Htop _ Hin) as [X1 X2].
    assert (Rt : is_root (o_row tg') = true) by (apply Z.eqb_eq; auto).
    assert (MT : forall db1 T' u1 u2, make_hole db (n_rgt nd - n_lft nd + 1) None tg' p' = Ok (db1, T', 1) ->
       laid (ns_rows db1) (shifted (spread ts F) T') -> map n_pk (ns_rows db1) = map n_pk (ns_rows db) ->
       ts = u1 ++ u2 -> length u1 = length (roots m1) -> 1 <= T' ->
       (forall U, In U u1 -> U < T') -> (forall U, In U u2 -> T' <= U) ->
       moved (move_rest db nd tpk None p' tg') (n_pk nd) tpk
         (if place_is_self (n_pk nd) (sib_place P (n_pk (o_row tg)) gt) then F
          else at_kids None (ins (sib_place P (n_pk (o_row tg)) gt) (subtree (n_pk nd) F)) (remove (n_pk nd) F))).
    { intros db1 T' u1 u2 MH L1' Pk1 Et Lu HT' Hu1 Hu2.
      assert (RF : remove (n_pk nd) F = fapp (remove (n_pk nd) m1) (remove (n_pk nd) m2)).
      { destruct (wf_fapp_inv _ _ Wl) as (Wm1 & Wm2 & _).
        rewrite <- (remove_all_one (n_pk nd) W), EF, remove_all_fapp, !remove_all_one; auto. }
      assert (CT := Ctx_top (fapp (remove (n_pk nd) m1) (remove (n_pk nd) m2))
                      (fapp (remove (n_pk nd) m1) (Cons an c (remove (n_pk nd) m2)))).
      rewrite <- RF in CT at 2.
      rewrite (moved_spec None F _ (n_pk nd) an c m1 m2 _ W Es Ean Wl C CT Logic.I Hi1 Sort).
      apply rest_ok with (F := F) (db1 := db1) (T' := T') (np := 1); auto; [rewrite Pk1; auto|].
      intros nd1 Hn1 En1. apply (move_top db1 F ts u1 u2); auto; [rewrite Pk1; auto|lia]. }
    assert (Sh : forall T, laid (ns_rows (move_tree_right db T)) (shifted (spread ts F) T)) by (intros; apply shift_laid; auto).
    destruct Spt as [(-> & -> & Er & Eu)|(Hp & Eu & b & kb & m2' & -> & Eb)].
    + destruct (last_opt L) as [lr|] eqn:Elr; [|apply last_opt_None in Elr; rewrite Elr in Hin; destruct Hin].
      assert (Elr' := Elr). apply last_opt_Some in Elr'. destruct Elr' as [L0 EL0].
      assert (Hlt : In (n_tree lr) ts) by (rewrite <- ET; apply in_map; rewrite EL0; apply in_app_iff; simpl; auto).
      assert (Hmax : forall U, In U ts -> U < n_tree lr + 1).
      { intros U HU. rewrite <- ET, EL0, map_app in I2, HU. cbn [map] in I2, HU. apply sorted_mid in I2.
        apply in_app_iff in HU. destruct HU as [HU|[<-|[]]]; [apply I2 in HU; lia|lia]. }
      apply (MT db (n_tree lr + 1) ts []); auto.
      * unfold make_hole. rewrite Rt. assert (Eg : get_siblings (ns_rows db) (o_row tg') = Ok L) by (rewrite Er; auto).
        rewrite Eg. cbn [bind]. rewrite Elr. auto.
      * eapply laid_ext; [|exact La]. intros U. unfold shifted. destruct (Z.ltb_spec U (n_tree lr + 1)) as [|Hge]; auto.
        rewrite (spread_notin ts F U) by (intros HU; apply Hmax in HU; lia). destruct (Z.eqb_spec U (n_tree lr + 1)); auto.
        rewrite spread_notin; auto. intros HU. apply Hmax in HU. lia.
      * rewrite app_nil_r. auto.
      * rewrite I1, EF, fapp_nil_r. auto.
      * apply HT in Hlt. lia.
      * intros U [].
    + assert (Hs : exists K1 K2, L = K1 ++ o_row tg' :: K2 /\ map row_node K1 = roots m1).
      { rewrite EF, roots_fapp in ER. cbn [roots] in ER. apply map_app_split in ER. destruct ER as (K1 & K2 & E & EK1 & EK2).
        destruct K2 as [|y K2]; [discriminate|]. cbn [map] in EK2. injection EK2 as Ey _.
        assert (y = o_row tg'); [|subst y; eauto]. apply (NoDup_map_inj n_pk L); auto.
        - rewrite E. apply in_app_iff. simpl. auto.
        - rewrite <- Eb in Ey. apply (f_equal nid) in Ey. exact Ey. }
      destruct Hs as (K1 & K2 & EK & EK1).
      assert (Srt : (forall U, In U (map n_tree K1) -> U < n_tree (o_row tg')) /\
                    (forall U, In U (map n_tree K2) -> n_tree (o_row tg') < U)).
      { rewrite <- ET, EK, map_app in I2. cbn [map] in I2. apply sorted_mid in I2. auto. }
      destruct Srt as [S1 S2].
      assert (Htt : 1 <= n_tree (o_row tg')) by (apply HT; rewrite <- ET; apply in_map; auto).
      assert (Lm : length K1 = length (roots m1)) by (rewrite <- EK1, map_length; auto).
      destruct Hp as [[-> ->]| ->].
      * assert (K1 = []) by (destruct K1; [auto|discriminate]). subst K1.
        apply (MT (move_tree_right db 1) 1 [] ts); auto; try lia.
        -- unfold make_hole. rewrite Rt. auto.
        -- apply shift_pks.
        -- intros U [].
      * apply (MT (move_tree_right db (n_tree (o_row tg'))) (n_tree (o_row tg')) (map n_tree K1) (map n_tree (o_row tg' :: K2))); auto.
        -- unfold make_hole. rewrite Rt. auto.
        -- apply shift_pks.
        -- rewrite <- map_app, <- EK. auto.
        -- rewrite map_length. auto.
        -- cbn [map]. intros U [<-|HU]; [lia|]. apply S2 in HU. lia.
Qed.

(** Below a leaf. *)
Lemma move_leaf o db F nd tg P tpk gt :
  stores (ns_rows db) F -> In nd (ns_rows db) -> In (o_row tg) (ns_rows db) -> is_leaf (o_row tg) = true ->
  is_child_pos P = true -> In tpk (ids F) -> ~ inside F (n_pk nd) (n_pk (o_row tg)) P ->
  moved (do '(p, tg') <- place_target o (ns_rows db) LastChild (n_data nd) tg;
         move_rest db nd tpk (Some (o_row tg)) p tg')
    (n_pk nd) tpk (sp_move (n_pk nd) (n_pk (o_row tg)) P gt F).
Proof.
  intros St Hn Hg Lf Cp Ht Ni. assert (St' := St). destruct St' as (W & ts & I & Pt).
  assert (Pk := pks _ F ts I Pt).
  assert (Hi : In (n_pk nd) (ids F)) by (apply (Permutation_in _ Pk), in_map; auto).
  destruct (subtree_children F _ W Hi) as (an & c & Es & Ean & Ek).
  assert (Gs := gap_size F ts _ nd an c W I Pt Hn Es).
  destruct (kids_row _ F ts W I Pt _ Hg) as (k & P1 & P2 & Ekt & A & C).
  assert (k = Nil) by (apply (leaf_iff F ts _ _ _ _ A); auto). subst k.
  assert (Rg := rgt_size F ts _ _ _ _ A). cbn [size] in Rg.
  assert (Np : ~ In (n_pk (o_row tg)) (ids (subtree (n_pk nd) F))).
  { rewrite in_subtree by auto. intros [E|D]; apply Ni; [right|left]; auto. }
  unfold place_target. cbn [bind normalize]. unfold sp_move.
  assert (exists wh, resolve (n_pk (o_row tg)) P gt F = (Some (n_pk (o_row tg)), wh) /\ place_is_self (n_pk nd) wh = false /\
    ins_split wh (@nil Prelude.node) []) as (wh & -> & Ps & Hs).
  { unfold resolve. destruct P; try discriminate; eexists; (split; [reflexivity|]); cbn; auto. split; auto.
    split; [intros ? []|discriminate]. }
  set (np := n_lft (o_row tg) + 1 + 2 * Z.of_nat (@size Prelude.node Nil)).
  assert (Enp : np = n_rgt (o_row tg)) by (unfold np; cbn [size]; lia).
  set (db1 := alter_gap db (n_tree (o_row tg)) np (2 * Z.of_nat (size (Cons an c Nil)))).
  apply rest_ok with (F := F) (db1 := db1) (T' := n_tree (o_row tg)) (np := np); auto.
  { unfold make_hole. rewrite Gs, <- Enp. reflexivity. }
  { unfold db1. rewrite alter_gap_pks. auto. }
  intros nd1 Hn1 En1.
  destruct (move_below db F (n_pk nd) an c (n_pk (o_row tg)) Nil Nil (o_row tg) np nd1 _ St Es Ean Hi C Np Hg eq_refl eq_refl Hn1 En1 eq_refl)
    as (F4 & C4 & S4).
  rewrite (moved_spec (Some (n_pk (o_row tg))) F F4 (n_pk nd) an c Nil Nil wh W Es Ean ltac:(constructor) C C4 Np Hs).
  - replace (n_depth (o_row tg) - n_depth nd1 + 1) with (n_depth (o_row tg) + 1 - n_depth nd1) by lia. exact S4.
  - intros gt0 _ x [].
Qed.

Lemma inside_dec_child t F ts r n k P1 P2 P c : stores t F -> ids_ok ts F -> Permutation t (layout ts F) ->
  In r t -> In n t -> around (layout ts F) r k P1 P2 -> children_of (n_pk r) F = Some k ->
  (forall l', exists F', Ctx (Some (n_pk r)) k l' F F') -> In c (get_children t r) -> is_child_pos P = true ->
  (descends F (n_pk n) (n_pk c) <-> inside F (n_pk n) (n_pk r) P).
Proof.
  intros St I Pt Hr Hn A Ek C Hc Cp. assert (W : wf_ids F) by apply St.
  rewrite (desc_child F (n_pk n) (n_pk r) k (n_pk c) W C).
  - unfold inside. rewrite Cp. tauto.
  - rewrite (around_tops t F ts W I Pt _ _ _ _ Hr A) in Hc. apply (in_map row_node) in Hc. rewrite tops_roots in Hc.
    apply (in_map nid) in Hc. exact Hc.
Qed.

(** The no-op test recognizes positions the node already has. *)
Lemma noop_ok t F nd tg P gt : stores t F -> In nd t -> In (o_row tg) t -> is_sib_pos P ->
  exists b, move_is_noop t nd tg P = Ok b /\
    (b = true -> n_pk nd = n_pk (o_row tg) /\ sp_move (n_pk nd) (n_pk (o_row tg)) P gt F = F).
Proof.
  intros (W & ts & I & Pt) Hn Hg Sp. unfold move_is_noop.
  destruct (Nat.eqb_spec (n_pk nd) (n_pk (o_row tg))) as [E|E]; [|eexists; split; [reflexivity|discriminate]].
  destruct (sibs_row _ F ts W I Pt _ Hg) as (up & l1 & a & k & l2 & Ea & C & U).
  destruct (up_row_ctx F W _ _ _ _ _ _ Ea C) as (U1 & U2 & U3).
  destruct (siblings_list _ F ts W I Pt _ Hg) as (L & L1 & L2 & EL & EL2 & M & HL).
  assert (ND : NoDup (map n_pk L)) by (apply map_pk_NoDup; rewrite M; apply siblings_NoDup; auto).
  assert (El : roots l1 = map row_node L1 /\ roots l2 = map row_node L2).
  { rewrite EL2, map_app, U3 in M. cbn [map] in M. 
    assert (NR : NoDup (map nid (roots l1 ++ a :: roots l2))).
    { rewrite <- U3. apply siblings_NoDup; auto. }
    assert (H : row_node (o_row tg) = a).
    { assert (In a (map row_node L1 ++ row_node (o_row tg) :: map row_node L2)) by (rewrite M; apply in_app_iff; simpl; auto).
      assert (In (row_node (o_row tg)) (roots l1 ++ a :: roots l2)) by (rewrite <- M; apply in_app_iff; simpl; auto).
      apply (NoDup_map_inj nid (roots l1 ++ a :: roots l2)); auto. apply in_app_iff; simpl; auto. }
    rewrite H in M. symmetry in M. apply split_unique in M; auto. eapply NoDup_map_inv; eauto. }
  destruct El as [R1 R2].
  assert (Cx : Ctx up (fapp l1 (Cons a k l2)) (fapp l1 (Cons a k l2)) F F).
  { destruct (C Nil) as [F1 C1]. eapply Ctx_refl; exact C1. }
  unfold sp_move. rewrite (resolve_sib _ _ _ _ _ Sp U1), E.
  destruct P; try (destruct Sp; fail); unfold get_last_sibling, get_first_sibling; rewrite ?EL; cbn [bind sib_place place_is_self];
    rewrite ?Nat.eqb_refl; eexists; (split; [reflexivity|]); auto; try discriminate.
  - intros H. split; auto. apply (same_hd L ND _ _ _ EL2) in H. subst L1. rewrite <- Ea. eapply Ctx_noop; eauto.
  - intros H. split; auto. apply (same_last L ND _ _ _ EL2) in H. subst L2. rewrite <- Ea. eapply Ctx_noop; eauto.
Qed.

Theorem move_ok o db F node target p P :
  stores (ns_rows db) F -> good_obj (ns_rows db) node -> good_obj (ns_rows db) target ->
  prepare_pos_move (is_sorted o) p = Ok P ->
  let n := n_pk (o_row node) in let t := n_pk (o_row target) in
  let gt x := sorted_after o (n_data (o_row node)) (ndata x) in
  (inside F n t P /\ move o db node target p = Err InvalidMoveToDescendant) \/
  (~ inside F n t P /\
   exists db' node' target', move o db node target p = Ok (db', node', target') /\
     stores (ns_rows db') (sp_move n t P gt F) /\
     good_obj (ns_rows db') node' /\ n_pk (o_row node') = n /\ good_obj (ns_rows db') target' /\ n_pk (o_row target') = t).
Proof.
  intros St Gn Gt Pp n t gt. change (exists db' node' target', _) with
    (moved (move o db node target p) n t (sp_move n t P gt F)).
  assert (St' := St). destruct St' as (W & ts & I & Pt). assert (Hn := proj1 Gn). assert (Ht := proj1 Gt).
  assert (Pk := pks _ F ts I Pt).
  assert (Hti : In t (ids F)) by (apply (Permutation_in _ Pk); apply (in_map n_pk) in Ht; exact Ht).
  rewrite (move_place _ _ _ _ _ _ Pp).
  (* sibling positions relative to a good object *)
  assert (Sib : forall tg P', good_obj (ns_rows db) tg -> is_sib_pos P' ->
     (descends F n (n_pk (o_row tg)) /\ (if is_descendant_of (o_row tg) (o_row node) then Err InvalidMoveToDescendant else
       do noop <- move_is_noop (ns_rows db) (o_row node) tg P';
       if noop then Ok (db, node, target)
       else do '(p, tg) <- place_target o (ns_rows db) P' (n_data (o_row node)) (noop_cache (o_row node) tg);
            move_rest db (o_row node) t None p tg) = Err InvalidMoveToDescendant) \/
     (~ descends F n (n_pk (o_row tg)) /\
       moved (if is_descendant_of (o_row tg) (o_row node) then Err InvalidMoveToDescendant else
       do noop <- move_is_noop (ns_rows db) (o_row node) tg P';
       if noop then Ok (db, node, target)
       else do '(p, tg) <- place_target o (ns_rows db) P' (n_data (o_row node)) (noop_cache (o_row node) tg);
            move_rest db (o_row node) t None p tg) n t (sp_move n (n_pk (o_row tg)) P' gt F))).
  { intros tg P' Gtg Sp. assert (Htg := proj1 Gtg).
    assert (D := descendant_read (ns_rows db) F (o_row tg) (o_row node) St Htg Hn). fold n in D.
    destruct (is_descendant_of (o_row tg) (o_row node)); [left; split; auto; apply D; auto|right].
    assert (Nd : ~ descends F n (n_pk (o_row tg))) by (intros H; apply D in H; discriminate). split; auto.
    destruct (noop_ok (ns_rows db) F (o_row node) tg P' gt St Hn Htg Sp) as (b & -> & Hb). cbn [bind]. destruct b.
    - destruct (Hb eq_refl) as [_ Eq]. fold n in Eq. rewrite Eq. exists db, node, target. auto 10.
    - assert (Gc : good_obj (ns_rows db) (noop_cache (o_row node) tg)).
      { unfold noop_cache. destruct (n_pk (o_row node) =? n_pk (o_row tg))%nat; auto. apply good_fresh. auto. }
      assert (Er : o_row (noop_cache (o_row node) tg) = o_row tg).
      { unfold noop_cache. destruct (n_pk (o_row node) =? n_pk (o_row tg))%nat; auto. }
      assert (R := move_sib o db F (o_row node) (noop_cache (o_row node) tg) P' t St Hn Gc Sp Hti).
      rewrite Er in R. apply R. exact Nd. }
  destruct (is_child_pos P) eqn:Cp.
  - destruct (Nat.eqb_spec n t) as [Ent|Ent].
    { left. split; [right; auto|]. unfold move_target. fold n t. rewrite (proj2 (Nat.eqb_eq n t) Ent).
      destruct P; try discriminate; reflexivity. }
    destruct (kids_row _ F ts W I Pt _ Ht) as (k & P1 & P2 & Ek & A & C).
    destruct (is_leaf (o_row target)) eqn:Lf.
    + assert (E : move_target (ns_rows db) (o_row node) target P = Ok (Some (o_row target), target, LastChild)).
      { unfold move_target. fold n t. rewrite (proj2 (Nat.eqb_neq n t) Ent), Lf. destruct P; try discriminate; reflexivity. }
      rewrite E. cbn [bind].
      assert (D := descendant_read (ns_rows db) F (o_row target) (o_row node) St Ht Hn). fold n t in D.
      destruct (is_descendant_of (o_row target) (o_row node)); [left; split; [left; apply D; auto|auto]|right].
      assert (Ni : ~ inside F n t P) by (intros [H|[H _]]; [apply D in H; discriminate|congruence]). split; auto.
      unfold move_is_noop, noop_cache. fold n t. rewrite (proj2 (Nat.eqb_neq n t) Ent). cbn [bind].
      apply (move_leaf o db F (o_row node) target P t gt); auto.
    + assert (exists lc, get_last_child (ns_rows db) (o_row target) = Some lc) as [lc Elc].
      { unfold get_last_child. destruct (last_opt _) eqn:El; eauto. exfalso. apply last_opt_None in El.
        rewrite (around_tops _ F ts W I Pt _ _ _ _ Ht A) in El.
        assert (R := tops_roots (n_tree (o_row target)) k (n_depth (o_row target) + 1) (n_lft (o_row target) + 1)).
        rewrite El in R. destruct k; [|discriminate]. assert (L := leaf_iff F ts _ _ _ _ A). rewrite Lf in L.
        assert (false = true) by (apply L; auto). discriminate. }
      assert (Hc := get_last_child_in _ _ _ Elc).
      destruct (child_row _ F ts (o_row target) k P1 P2 lc W I Pt Ht A Ek C Hc) as (Hct & Q & Pc & Rc).
      set (P' := match P with FirstChild => FirstSibling | LastChild => LastSibling | _ => SortedSibling end).
      assert (E : move_target (ns_rows db) (o_row node) target P = Ok (None, fresh lc, P')).
      { unfold move_target. fold n t. rewrite (proj2 (Nat.eqb_neq n t) Ent), Lf, Elc. destruct P; try discriminate; reflexivity. }
      rewrite E. cbn [bind].
      assert (Ins := inside_dec_child _ F ts (o_row target) (o_row node) k P1 P2 P lc St I Pt Ht Hn A Ek C Hc Cp).
      fold n t in Ins.
      assert (Sp : is_sib_pos P') by (unfold P'; destruct P; exact Logic.I).
      assert (Eq : sp_move n (n_pk lc) P' gt F = sp_move n t P gt F).
      { unfold sp_move. rewrite (resolve_sib _ _ _ _ _ Sp Pc). unfold resolve, P'. fold t. destruct P; try discriminate; reflexivity. }
      destruct (Sib (fresh lc) P' (good_fresh _ _ Hct) Sp) as [[D R]|[D R]].
      * left. split; [apply Ins; exact D|exact R].
      * right. split; [rewrite <- Ins; exact D|]. rewrite <- Eq. exact R.
  - assert (Sp : is_sib_pos P) by (destruct P; try discriminate; exact Logic.I).
    assert (E : move_target (ns_rows db) (o_row node) target P = Ok (None, target, P)).
    { unfold move_target. destruct P; try discriminate; reflexivity. }
    rewrite E. cbn [bind]. destruct (Sib target P Gt Sp) as [[D R]|[D R]].
    + left. split; [left; exact D|exact R].
    + right. split; [|exact R]. intros [H|[_ H]]; [auto|congruence].
Qed.
