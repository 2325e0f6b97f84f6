(** move: the positions, the no-op tests and the final statement. *)
From Coq Require Import String List Arith ZArith Lia Bool Permutation Sorted.
From Verif Require Import Prelude Forest NumConv SpecFacts PathTab PathMove CommonModel MPModel MPStep MPInv
  MPCount MPShift MPReorder MPAdd MPMove.
Import ListNotations.

Section Move.
Variable cfg : mp_cfg.
Hypothesis radix2 : 2 <= radix cfg.
Hypothesis step1 : 1 <= steplen cfg.
Notation R := (radix cfg).
Notation w := (steplen cfg).
Notation mkrow := (mkrow cfg).
Notation kpwf := (kpwf cfg).
Notation kvalid := (kvalid cfg).
Notation lay := (lay cfg).
Notation seg := (seg cfg).
Notation maxstep := (maxstep cfg).
Notation up_of pa := (option_map (fun z : payload * payload => nid (fst (fst z))) pa).

(** The siblings in the list after the new place; the moved node may be missing among
    them if Python sees that it comes after the new place. *)
Definition later_sibs (q np : path) (an : payload) (k : nat) (l2 : kf) (rs : list mprow) : Prop :=
  rs = sibrows cfg q l2 \/
  exists s y1 c y2, np = q ++ s /\ length s = w /\ py_lt cfg (q ++ seg k) np = true /\ y1 <> Nil /\
    l2 = fapp y1 (Cons (s, an) c y2) /\ rs = sibrows cfg q (fapp y1 y2).

Lemma reorder_move_mid db f q pa l k l1 l2 target np an n p newpos sibs rs :
  lay (db_rows db) f -> nc_ok f -> wf_ids (kerase f) -> In (np, an) (rows f) ->
  At q pa l l f f -> pold pa = pnew pa -> (pa = None <-> q = []) ->
  (pa <> None -> ppre np q = false) -> hole cfg l k l1 l2 -> length q = n * w ->
  goes_last cfg (db_rows db) p target = false ->
  match newpos with Some n => Ok (n, sibs) | None => reorder_pos cfg (db_rows db) p target end
    = Ok (k, rs) -> later_sibs q np an k l2 rs ->
  get_path cfg (m_path target) (S n) k = q ++ seg k ->
  (l2 <> Nil -> exists st a, target = mkrow (q ++ st, a) /\ In (st, a) (roots l)) ->
  (forall s, np = q ++ s -> length s = w -> forall x, In x (roots l) -> undigits R (fst x) + 2 < maxstep) ->
  reorder_moves cfg f (up_of pa) (nodes l1) (nodes l2) (nid (fst an))
    (reorder cfg db p newpos (S n) target sibs (Some np)) \/
  (reorder cfg db p newpos (S n) target sibs (Some np) = Err PathOverflow /\ is_full cfg l).
Proof.
  intros L N WF Hn H Ep Eq Np Ho En GL Epos Hrs Egp Ht Hroom.
  assert (W : kpwf f) by apply L. assert (V : kvalid f) by apply L.
  assert (Vl := kvalid_At_l cfg _ _ _ _ _ _ H V).
  assert (Wl := k_At_pwf_l cfg _ _ _ _ _ _ H W).
  assert (Lk : length (seg k) = w) by (apply seg_len; auto; apply Ho).
  unfold reorder. rewrite GL, Epos. cbn [bind]. rewrite Egp.
  match goal with |- context [if ?b then _ else Ok (db, None)] => destruct b eqn:Cond end.
  - apply andb_true_iff in Cond. destruct Cond as [Cond C4].
    apply andb_true_iff in Cond. destruct Cond as [Cond C3].
    apply andb_true_iff in Cond. destruct Cond as [C1 C2].
    apply Nat.eqb_eq in C1. rewrite app_length, Lk in C1.
    apply peq_iff in C2. rewrite C1, En in C2.
    replace (n * w + w) with (S n * w) in C2 by (simpl; lia).
    rewrite Nat.div_mul in C2 by lia. rewrite Nat.sub_succ, Nat.sub_0_r in C2.
    rewrite get_basepath_app in C2 by auto. unfold get_basepath in C2.
    assert (Enp : np = q ++ skipn (n * w) np) by (rewrite <- C2 at 1; rewrite firstn_skipn; auto).
    remember (skipn (n * w) np) as s eqn:Es0.
    assert (Ls : length s = w) by (rewrite Es0, skipn_length; lia).
    clear Es0. subst np.
    assert (N2 : l2 <> Nil).
    { intros E0. rewrite E0 in Hrs. destruct Hrs as [-> |(s0 & y1 & c & y2 & _ & _ & _ & _ & E & _)]; [discriminate|destruct y1; discriminate]. }
    destruct (Ht N2) as (st & a & -> & Hs).
    destruct (last_split l) as (y1 & sl & al & cl & El).
    { intros ->. destruct Hs. }
    assert (Hsl : In (sl, al) (roots l)) by (rewrite El, roots_fapp, in_app_iff; simpl; auto).
    assert (Vsl := kvalid_roots cfg _ _ Vl Hsl). simpl in Vsl.
    rewrite (last_sib cfg radix2 step1 _ f q pa l y1 sl al cl st a L H Hs El). cbn [opt_res bind].
    change (m_path (mkrow (q ++ sl, al))) with (q ++ sl).
    rewrite get_lastpos_ok by auto. cbn [bind]. rewrite get_path_app by auto.
    destruct (rest_temp cfg radix2 step1 db f q pa l k l1 l2 s an (m_path (mkrow (q ++ st, a))) (undigits R sl)
       L N WF Hn Ls H Ep Ho (last_max cfg radix2 step1 l y1 sl al cl Vl Wl El)) as (db1 & E1 & Res).
    { apply (Hroom s eq_refl Ls (sl, al) Hsl). }
    rewrite E1. cbn [bind]. left. apply Res. destruct Hrs as [-> |(s0 & z1 & c0 & z2 & E3 & _ & _ & _ & E4 & ->)]; auto.
    apply app_inv_head in E3. subst s0. right. exists z1, c0, z2. auto.
  - destruct Hrs as [-> |(s0 & y1 & c & y2 & -> & Ls & Ps & Ny & E4 & ->)].
    2:{ exfalso. rewrite !app_length, Ls, Lk, Nat.eqb_refl, Ps, En in Cond.
      replace (n * w + w) with (S n * w) in Cond by (simpl; lia).
      rewrite Nat.div_mul in Cond by lia. rewrite Nat.sub_succ, Nat.sub_0_r, !get_basepath_app, peq_refl in Cond by auto.
      destruct y1 as [|x z1 z2]; [congruence|discriminate]. }
    cbn [bind].
    apply (rest_plain cfg radix2 step1 db f q pa l k l1 l2 np an (m_path target) L N WF Hn H Ep Eq Np Ho).
Qed.

(** *** The moved node in the list of the target *)


Lemma sib_same_pk t f q pa (l l' f' : kf) np an r : lay t f -> wf_ids (kerase f) -> At q pa l l' f f' ->
  In (np, an) (rows f) -> In r (roots l) -> same_pk (mkrow (np, an)) (Some (mkrow (pre q r))) = true ->
  np = q ++ fst r /\ an = snd r.
Proof.
  intros L WF H Hn Hr E. simpl in E. apply Nat.eqb_eq in E. destruct r as [s b]. simpl in *.
  assert (Hb := k_root_in cfg step1 _ _ _ _ _ _ _ _ H Hr).
  assert (E2 := rows_id_inj _ _ _ WF Hn Hb E). split; congruence.
Qed.

Definition spec_place (n : nat) (wh : place) (up : option nat) (F : forest node) : forest node :=
  if place_is_self n wh then F else at_kids up (ins wh (subtree n F)) (remove n F).

(** Python agrees that what comes later in the order of indexes is greater. *)
Definition py_agrees : Prop := forall p p', plt p p' = true -> py_lt cfg p p' = true.

(** The siblings that are greater come last, except that the moved node itself may be
    among them (its data were changed before the move). *)
Definition settles (n : nat) (gt : node -> bool) (L : list node) : Prop :=
  splits gt L \/ py_agrees /\
  exists L1 L2 a L3, L = L1 ++ L2 ++ a :: L3 /\ L2 <> [] /\ nid a = n /\ gt a = false /\
    (forall x, In x L1 -> gt x = false) /\ (forall x, In x L2 -> gt x = true) /\ (forall x, In x L3 -> gt x = true).

(** The result of the prepared move: nothing to do, done, or no room. *)
Definition prepared (db : mp_db) (f : kf) (node target : mprow) (newdepth : nat) (P : pos)
  (np0 : option nat) (sb0 : list mprow) (F' : forest Prelude.node) (full : Prop) : Prop :=
  (move_prepare cfg (db_rows db) node target newdepth P np0 sb0 = Ok None /\ F' = kerase f) \/
  exists p2 np2 sb2, move_prepare cfg (db_rows db) node target newdepth P np0 sb0 = Ok (Some (p2, np2, sb2)) /\
   ((exists db1 op np tp f', reorder cfg db p2 np2 newdepth target sb2 (Some (m_path node))
        = Ok (db1, Some op, np, tp) /\
      lay (db_rows (update_parent_counts cfg db1 op np)) f' /\ nc_ok f' /\ wf_ids (kerase f') /\
      kerase f' = F') \/
    (reorder cfg db p2 np2 newdepth target sb2 (Some (m_path node)) = Err PathOverflow /\ full)).

Lemma noop_at q pa x s an c y f wh : At q pa (fapp x (Cons (s, an) c y)) (fapp x (Cons (s, an) c y)) f f ->
  pold pa = pnew pa -> wf_ids (kerase f) -> ins_split wh (nodes x) (nodes y) ->
  at_kids (up_of pa) (ins wh (subtree (nid (fst an)) (kerase f))) (remove (nid (fst an)) (kerase f)) = kerase f.
Proof.
  intros H Ep WF Hi. assert (C := At_Ctx fst H (pid_fst _ Ep)).
  change (@erase nat payload fst) with kerase in C. rewrite kerase_fapp in C.
  change (kerase (Cons (s, an) c y)) with (Cons (fst an) (kerase c) (kerase y)) in C.
  eapply Ctx_noop; eauto. rewrite !kerase_roots. auto.
Qed.

Lemma move_core db f q pa l1 st a c l2 n np an P gt :
  let l := fapp l1 (Cons (st, a) c l2) in
  let target := mkrow (q ++ st, a) in let node := mkrow (np, an) in
  lay (db_rows db) f -> nc_ok f -> wf_ids (kerase f) -> In (np, an) (rows f) ->
  At q pa l l f f -> pold pa = pnew pa -> (pa = None <-> q = []) -> length q = n * w ->
  (pa <> None -> ppre np q = false) -> is_sib_pos P ->
  (forall x, gt x = sorted_after (order_by cfg) (ndata (fst an)) (ndata x)) ->
  (P = SortedSibling -> settles (nid (fst an)) gt (nodes l)) ->
  (forall s, np = q ++ s -> length s = w -> forall x, In x (roots l) -> undigits R (fst x) + 2 < maxstep) ->
  prepared db f node target (S n) P None []
    (spec_place (nid (fst an)) (sib_place P (nid (fst a)) gt) (up_of pa) (kerase f)) (is_full cfg l).
Proof.
  intros l target node L N WF Hn H Ep Eq En Np P' Gt Sp Hroom.
  assert (W : kpwf f) by apply L. assert (V : kvalid f) by apply L.
  assert (Vl := kvalid_At_l cfg _ _ _ _ _ _ H V).
  assert (Wl := k_At_pwf_l cfg _ _ _ _ _ _ H W).
  assert (ND := nodes_NoDup _ _ _ _ _ _ H (pid_fst _ Ep) WF).
  assert (Hs : In (st, a) (roots l)) by (unfold l; rewrite roots_fapp, in_app_iff; simpl; auto).
  assert (Htr := k_root_in cfg step1 _ _ _ _ _ _ _ _ H Hs).
  assert (Sib := get_siblings_lay cfg radix2 step1 _ f q pa l l f st a L H Hs). fold target in Sib.
  assert (Epath : forall k, get_path cfg (m_path target) (S n) k = q ++ seg k).
  { intros k. apply get_path_app. auto. }
  assert (Dn : length np = m_depth node * w /\ 1 <= m_depth node).
  { apply (depth_spec cfg radix2 step1 f (np, an) W Hn). }
  set (nn := nid (fst an)) in *.
  (* appending *)
  assert (Last : forall p' np' sb wh, goes_last cfg (db_rows db) p' target = true ->
     ins_split wh (drop nn (nodes l)) [] -> place_is_self nn wh = false ->
     (exists db1 op np1 tp f', reorder cfg db p' np' (S n) target sb (Some (m_path node))
        = Ok (db1, Some op, np1, tp) /\
      lay (db_rows (update_parent_counts cfg db1 op np1)) f' /\ nc_ok f' /\ wf_ids (kerase f') /\
      kerase f' = spec_place nn wh (up_of pa) (kerase f)) \/
    (reorder cfg db p' np' (S n) target sb (Some (m_path node)) = Err PathOverflow /\ is_full cfg l)).
  { intros p' np' sb wh GL Hi Self.
    destruct (reorder_move_last cfg radix2 step1 db f q pa l np an st a p' (S n) sb np' L N WF Hn H Ep Eq Np Hs GL)
      as [(db1 & op & np1 & tp & f' & E & L1 & N1 & WF1 & K1)|HE]; [left|right; auto].
    exists db1, op, np1, tp, f'. split; auto. split; auto. split; auto. split; auto.
    unfold spec_place. rewrite Self. apply K1. auto. }
  (* shifting *)
  assert (Mid : forall p' np' sb k h1 h2 rs wh, goes_last cfg (db_rows db) p' target = false ->
     hole cfg l k h1 h2 ->
     match np' with Some n => Ok (n, sb) | None => reorder_pos cfg (db_rows db) p' target end
       = Ok (k, rs) -> later_sibs q np an k h2 rs ->
     ins_split wh (drop nn (nodes h1)) (drop nn (nodes h2)) -> 
     (exists db1 op np1 tp f', reorder cfg db p' np' (S n) target sb (Some (m_path node))
        = Ok (db1, Some op, np1, tp) /\
      lay (db_rows (update_parent_counts cfg db1 op np1)) f' /\ nc_ok f' /\ wf_ids (kerase f') /\
      kerase f' = at_kids (up_of pa) (ins wh (subtree nn (kerase f))) (remove nn (kerase f))) \/
    (reorder cfg db p' np' (S n) target sb (Some (m_path node)) = Err PathOverflow /\ is_full cfg l)).
  { intros p' np' sb k h1 h2 rs wh GL Ho Er Hrs Hi.
    destruct (reorder_move_mid db f q pa l k h1 h2 target np an n p' np' sb rs L N WF Hn H Ep Eq Np Ho En GL Er Hrs (Epath k))
      as [(db1 & op & np1 & tp & f' & E & L1 & N1 & WF1 & K1)|HE]; [|auto|left|right; auto].
    - intros _. exists st, a. auto.
    - exists db1, op, np1, tp, f'. auto 10. }
  (* the last sibling *)
  destruct (last_split l) as (y1 & sl & al & cl & El).
  { intros E. rewrite E in Hs. destruct Hs. }
  assert (Hsl : In (sl, al) (roots l)) by (rewrite El, roots_fapp, in_app_iff; simpl; auto).
  assert (GLS : get_last_sibling cfg (db_rows db) target = Some (mkrow (pre q (sl, al)))).
  { apply (last_sib cfg radix2 step1 _ f q pa l y1 sl al cl st a L H Hs El). }
  assert (Nl : nodes l = nodes y1 ++ [fst al]) by (rewrite El, roots_fapp, map_app; auto).
  assert (Depth : forall r, In r (roots l) -> same_pk node (Some (mkrow (pre q r))) = true -> (S n =? m_depth node) = true).
  { intros r Hr E. destruct (sib_same_pk _ _ _ _ _ _ _ _ _ _ L WF H Hn Hr E) as [E1 E2].
    apply Nat.eqb_eq. destruct r as [sr br]. simpl in E1, E2.
    assert (Lr := root_row_len cfg _ _ _ _ _ _ _ _ H W Hr). rewrite <- E1 in Lr. nia. }
  (* node is the last one and is to become the last one *)
  assert (LastNoop : forall wh, same_pk node (Some (mkrow (pre q (sl, al)))) = true ->
     ins_split wh (nodes y1) [] -> place_is_self nn wh = false ->
     spec_place nn wh (up_of pa) (kerase f) = kerase f).
  { intros wh E Hi Self. destruct (sib_same_pk _ _ _ _ _ _ _ _ _ _ L WF H Hn Hsl E) as [E1 E2]. simpl in E1, E2.
    unfold spec_place. rewrite Self. unfold nn. rewrite E2. apply (noop_at q pa y1 sl al cl Nil); auto.
    rewrite <- El. auto. }
  (* last-sibling, given as such or by the sorted position *)
  assert (LS : forall wh sb, (forall L1 L2, nodes l = L1 ++ [L2] -> ins_split wh L1 []) ->
     ins_split wh (drop nn (nodes l)) [] -> place_is_self nn wh = false ->
     (if (S n =? m_depth node) && same_pk node (get_last_sibling cfg (db_rows db) target) then Ok None
      else if (m_pk node =? m_pk target) && same_pk target (get_last_sibling cfg (db_rows db) target)
      then Ok None else Ok (Some (LastSibling, @None nat, sb))) = 
       (Ok None : res (option (pos * option nat * list mprow))) /\
       spec_place nn wh (up_of pa) (kerase f) = kerase f \/
     (if (S n =? m_depth node) && same_pk node (get_last_sibling cfg (db_rows db) target) then Ok None
      else if (m_pk node =? m_pk target) && same_pk target (get_last_sibling cfg (db_rows db) target)
      then Ok None else Ok (Some (LastSibling, @None nat, sb))) = Ok (Some (LastSibling, None, sb))).
  { intros wh sb Hy Hi Self. rewrite GLS.
    destruct (same_pk node (Some (mkrow (pre q (sl, al))))) eqn:E.
    - rewrite (Depth _ Hsl E). left. split; auto. apply LastNoop; auto. eapply Hy; eauto.
    - rewrite andb_false_r. right.
      destruct (Nat.eqb_spec (m_pk node) (m_pk target)) as [Et|Et]; auto.
      replace (same_pk target (Some (mkrow (pre q (sl, al))))) with false; auto.
      symmetry. simpl in *. rewrite <- Et. auto. }
  assert (SelfF : forall p', match p' with Left | Right => False | _ => True end ->
     place_is_self nn (sib_place p' (nid (fst a)) gt) = false).
  { intros []; simpl; tauto. }
  (* the node itself is among the greater siblings *)
  assert (Misplaced : py_agrees -> (exists L1 L2 x L3, nodes l = L1 ++ L2 ++ x :: L3 /\ L2 <> [] /\ nid x = nn /\ gt x = false /\
      (forall y, In y L1 -> gt y = false) /\ (forall y, In y L2 -> gt y = true) /\ (forall y, In y L3 -> gt y = true)) ->
    prepared db f node target (S n) SortedSibling None [] (spec_place nn (PSorted gt) (up_of pa) (kerase f)) (is_full cfg l)).
  { intros Py (L1 & L2 & x & L3 & EL & N2 & Ex & Gx & G1 & G2 & G3).
    destruct (nodes_split _ _ _ EL) as (h1 & h2 & Eh & E1 & E2).
    destruct (nodes_split _ _ _ E2) as (u1 & h3 & Eh2 & E3 & E4).
    destruct h3 as [|[s3 a3] c3 u2]; [discriminate|]. simpl in E4. injection E4 as E4 E5.
    destruct u1 as [|[s2 a2] c2 r2]; [simpl in E3; congruence|].
    assert (H3 : In (s3, a3) (roots l)).
    { rewrite Eh, Eh2, !roots_fapp, !in_app_iff. simpl. auto. }
    assert (H2 : In (s2, a2) (roots l)).
    { rewrite Eh, Eh2, !roots_fapp, !in_app_iff. simpl. auto. }
    assert (V2 := kvalid_roots cfg _ _ Vl H2). simpl in V2.
    assert (V3 := kvalid_roots cfg _ _ Vl H3). simpl in V3.
    assert (Hr2 := k_root_in cfg step1 _ _ _ _ _ _ _ _ H H2).
    assert (Hr3 := k_root_in cfg step1 _ _ _ _ _ _ _ _ H H3).
    assert (En3 : (q ++ s3, a3) = (np, an)).
    { apply (rows_id_inj f); auto. simpl. rewrite E4. auto. }
    injection En3 as Enp Ean. subst a3.
    assert (Sibs : sorted_siblings cfg (db_rows db) target (m_data node) = sibrows cfg q (fapp (Cons (s2, a2) c2 r2) u2)).
    { unfold sorted_siblings. rewrite Sib, Eh, Eh2, !sibrows_fapp, !filter_app. 
      match goal with |- filter ?g _ ++ filter ?g _ ++ filter ?g (sibrows cfg q (Cons (s3, an) c3 u2)) = _ => set (g0 := g) end.
      assert (Eg : forall z, g0 (mkrow (pre q z)) = gt (fst (snd z))) by (intros z; unfold g0; simpl; rewrite <- Gt; auto).
      assert (K1 : forall z, (forall y, In y (nodes z) -> gt y = true) -> filter g0 (sibrows cfg q z) = sibrows cfg q z).
      { intros z Hz. apply filter_all. intros r Hr. unfold sibrows in Hr. apply in_map_iff in Hr. destruct Hr as (y & <- & Hy).
        rewrite Eg. apply Hz. apply (in_map (fun r => fst (snd r))); auto. }
      assert (K0 : forall z, (forall y, In y (nodes z) -> gt y = false) -> filter g0 (sibrows cfg q z) = []).
      { intros z Hz. apply filter_none. intros r Hr. unfold sibrows in Hr. apply in_map_iff in Hr. destruct Hr as (y & <- & Hy).
        rewrite Eg. apply Hz. apply (in_map (fun r => fst (snd r))); auto. }
      rewrite K0 by (rewrite E1; auto). rewrite K1 by (rewrite E3; auto).
      assert (Ec : sibrows cfg q (Cons (s3, an) c3 u2) = mkrow (pre q (s3, an)) :: sibrows cfg q u2) by reflexivity.
      rewrite Ec. cbn [filter]. rewrite Eg. cbn [fst snd]. rewrite E4, Gx, K1 by (rewrite E5; auto). auto. }
    unfold prepared, move_prepare. rewrite Sibs.
    change (hd_error (sibrows cfg q (fapp (Cons (s2, a2) c2 r2) u2))) with (Some (mkrow (q ++ s2, a2))). cbn iota.
    change (m_path (mkrow (q ++ s2, a2))) with (q ++ s2). rewrite get_lastpos_ok by auto. cbn [bind].
    change (m_path node) with np. rewrite <- Enp, get_lastpos_ok by auto. cbn [bind].
    assert (Lt : undigits R s2 < undigits R s3).
    { rewrite Eh, Eh2, <- fapp_assoc in Wl. destruct (mid_order cfg _ _ _ _ _ Wl) as [O1 _].
      specialize (O1 (s2, a2)). rewrite roots_fapp, in_app_iff in O1. simpl in O1.
      rewrite (plt_vseg cfg) in O1 by auto. apply Nat.ltb_lt. auto. }
    rewrite (proj2 (Nat.eqb_neq (undigits R s3 + 1) (undigits R s2))) by lia. rewrite andb_false_r. cbn [bind].
    right. exists SortedSibling, (Some (undigits R s2)), (sibrows cfg q (fapp (Cons (s2, a2) c2 r2) u2)).
    split. { rewrite !andb_false_r. reflexivity. }
    unfold spec_place. cbn [place_is_self].
    rewrite Eh in Wl. rewrite Eh2 in Wl. cbn [fapp] in Wl. destruct (mid_order cfg _ _ _ _ _ Wl) as [O1 O2].
    rewrite Enp. apply (Mid SortedSibling (Some (undigits R s2)) (sibrows cfg q (fapp (Cons (s2, a2) c2 r2) u2)) (undigits R s2) h1 h2
      (sibrows cfg q (fapp (Cons (s2, a2) c2 r2) u2)) (PSorted gt) eq_refl); [|reflexivity| |].
    - repeat split; auto.
      { apply V2. } { apply vseg_bound; auto. }
      { rewrite seg_undigits by auto. auto. }
      { rewrite seg_undigits by auto. rewrite Eh2. cbn [fapp roots]. intros z [<-|Hz]; simpl; [apply plt_irr|apply plt_asym; auto]. }
    - right. exists s3, (Cons (s2, a2) c2 r2), c3, u2. rewrite seg_undigits by auto. split; auto. split; [apply V3|].
      split; [|split; [discriminate|split; auto]]. rewrite <- Enp. apply Py. rewrite plt_pre_iff, (plt_vseg cfg) by auto.
      apply Nat.ltb_lt. auto.
    - rewrite E1, E2. simpl. split.
      + intros z Hz. apply drop_in in Hz. apply G1. tauto.
      + intros b B Eb. assert (Hb : In b (drop nn (L2 ++ x :: L3))) by (rewrite Eb; left; auto).
        apply drop_in in Hb. destruct Hb as [Hb Nb]. apply in_app_iff in Hb. destruct Hb as [Hb|[<-|Hb]]; auto. }
  destruct P; try (destruct P').
  - (* first-sibling *)
    assert (Elc : exists s0 a0 c0 r0, l = Cons (s0, a0) c0 r0).
    { clear - Hs. destruct l as [|[s0 a0] c0 r0]; [destruct Hs|eauto]. }
    destruct Elc as (s0 & a0 & c0 & r0 & Elc).
    assert (Hs0 : In (s0, a0) (roots l)) by (rewrite Elc; simpl; auto).
    assert (GFS : get_first_sibling cfg (db_rows db) target = Some (mkrow (pre q (s0, a0)))).
    { unfold get_first_sibling. rewrite Sib, Elc. reflexivity. }
    unfold prepared, move_prepare. cbn [bind]. rewrite GFS.
    destruct (same_pk node (Some (mkrow (pre q (s0, a0))))) eqn:E.
    + left. rewrite (Depth _ Hs0 E). split; [reflexivity|].
      destruct (sib_same_pk _ _ _ _ _ _ _ _ _ _ L WF H Hn Hs0 E) as [E1 E2]. simpl in E1, E2.
      unfold spec_place. rewrite SelfF by exact I. unfold nn. rewrite E2.
      apply (noop_at q pa Nil s0 a0 c0 r0); auto.
      * simpl. rewrite <- Elc. auto.
      * reflexivity.
    + right. rewrite !andb_false_r. exists FirstSibling, None, []. split; [reflexivity|].
      unfold spec_place. rewrite SelfF by exact I.
      destruct (reorder_pos_ok cfg radix2 step1 (db_rows db) f q pa l l1 st a c l2 FirstSibling L H eq_refl WF Ep eq_refl)
        as (k & h1 & h2 & Er & Ho & _ & Hh); [auto|]. destruct Hh as [-> ->].
      apply (Mid FirstSibling None [] k Nil l (sibrows cfg q l)); auto; [left|]; reflexivity.
  - (* left *)
    unfold prepared, move_prepare. cbn [bind]. rewrite andb_false_r, andb_true_r.
    change (m_pk node) with nn. change (m_pk target) with (nid (fst a)).
    destruct (Nat.eqb_spec nn (nid (fst a))) as [E|E].
    + left. split; auto. unfold spec_place. simpl. rewrite E, Nat.eqb_refl. auto.
    + right. exists Left, None, []. split; [reflexivity|].
      unfold spec_place. simpl place_is_self. rewrite (proj2 (Nat.eqb_neq (nid (fst a)) nn)) by auto.
      destruct (reorder_pos_ok cfg radix2 step1 (db_rows db) f q pa l l1 st a c l2 Left L H eq_refl WF Ep eq_refl)
        as (k & h1 & h2 & Er & Ho & _ & Hh); [auto|]. destruct Hh as [-> ->].
      apply (Mid Left None [] k l1 (Cons (st, a) c l2) _ _ eq_refl Ho Er (or_introl eq_refl)). simpl. split.
      * intros x Hx. apply drop_in in Hx. intros Ex.
        unfold l in ND. rewrite roots_fapp, !map_app in ND. simpl in ND. apply NoDup_remove_2 in ND.
        apply ND. rewrite in_app_iff. left. rewrite <- Ex. apply in_map. tauto.
      * rewrite (proj2 (Nat.eqb_neq (nid (fst a)) nn)) by auto. simpl. eauto.
  - (* right *)
    unfold prepared, move_prepare. cbn [bind]. rewrite andb_false_r.
    change (m_pk node) with nn. change (m_pk target) with (nid (fst a)).
    destruct (goes_last cfg (db_rows db) Right target) eqn:GL.
    + assert (GL' := GL). unfold goes_last in GL'. rewrite GL'.
      rewrite GLS in GL'. 
      destruct (sib_same_pk _ _ _ _ _ _ _ _ _ _ L WF H Htr Hsl GL') as [E1 E2]. simpl in E1, E2.
      rewrite andb_true_r.
      destruct (Nat.eqb_spec nn (nid (fst a))) as [E|E].
      * left. split; auto. unfold spec_place. simpl. rewrite E, Nat.eqb_refl. auto.
      * right. exists Right, None, []. split; [reflexivity|]. apply Last; auto.
        { rewrite Nl, drop_app. exists (drop nn (nodes y1)), (fst al). split; [|split].
          - simpl. rewrite <- E2, (proj2 (Nat.eqb_neq (nid (fst a)) nn)) by auto. auto.
          - congruence.
          - intros x Hx. apply drop_in in Hx. intros Ex. rewrite Nl, map_app in ND.
            apply NoDup_app_iff in ND. destruct ND as (_ & _ & ND). apply (ND (nid x)).
            + apply in_map. tauto.
            + simpl. left. congruence. }
        { simpl. apply Nat.eqb_neq. auto. }
    + assert (GL' := GL). unfold goes_last in GL'. rewrite GL'. rewrite andb_false_r.
      right. exists Right, None, []. split; [reflexivity|].
      destruct (reorder_pos_ok cfg radix2 step1 (db_rows db) f q pa l l1 st a c l2 Right L H eq_refl WF Ep GL)
        as (k & h1 & h2 & Er & Ho & _ & Hh); [auto|]. destruct Hh as [-> ->].
      assert (NDl : ~ In (nid (fst a)) (map nid (nodes l1) ++ map nid (nodes l2))).
      { unfold l in ND. rewrite roots_fapp, !map_app in ND. simpl in ND. apply NoDup_remove_2 in ND. auto. }
      rewrite in_app_iff in NDl.
      unfold spec_place. simpl place_is_self.
      destruct (Nat.eqb_spec (nid (fst a)) nn) as [E|E].
      * (* right of itself *)
        assert (Ea : (q ++ st, a) = (np, an)) by (apply (rows_id_inj f); auto).
        injection Ea as Ea1 Ea2.
        destruct (some_place (nodes l1) (nodes l2)) as [wh Hwh].
        { unfold l in ND. rewrite roots_fapp, !map_app in ND. simpl in ND. apply NoDup_remove_1 in ND.
          rewrite map_app. auto. }
        destruct (Mid Right None [] k (fapp l1 (Cons (st, a) c Nil)) l2 _ wh GL Ho Er (or_introl eq_refl))
          as [(db1 & op & np1 & tp & f' & E3 & L1 & N1 & WF1 & K1)|HE]; [|left|right; auto].
        { rewrite roots_fapp, map_app, drop_app. simpl. rewrite E, Nat.eqb_refl. simpl.
          rewrite app_nil_r, !drop_notin by (rewrite <- E; tauto). auto. }
        exists db1, op, np1, tp, f'. split; auto. split; auto. split; auto. split; auto.
        rewrite K1. unfold nn. rewrite <- Ea2. apply (noop_at q pa l1 st a c l2); auto.
      * apply (Mid Right None [] k (fapp l1 (Cons (st, a) c Nil)) l2 _ _ GL Ho Er (or_introl eq_refl)).
        rewrite roots_fapp, map_app, drop_app. simpl.
        rewrite (proj2 (Nat.eqb_neq (nid (fst a)) nn)) by auto. simpl.
        exists (drop nn (nodes l1)), (fst a). split; auto. split; auto.
        intros x Hx. apply drop_in in Hx. intros Ex. apply NDl. left. rewrite <- Ex. apply in_map. tauto.
  - (* last-sibling *)
    unfold prepared, move_prepare. cbn [bind].
    destruct (LS PLast []) as [[E1 E2]|E1]; simpl; auto.
    right. exists LastSibling, None, []. split; auto. apply Last; simpl; auto.
  - (* sorted-sibling *)
    destruct (Sp eq_refl) as [(L1 & L2 & EL & G1 & G2)|[Py Mis]].
    2:{ apply (Misplaced Py Mis). }
    destruct (nodes_split _ _ _ EL) as (h1 & h2 & Eh & E1 & E2).
    assert (Sibs : sorted_siblings cfg (db_rows db) target (m_data node) = sibrows cfg q h2).
    { unfold sorted_siblings. rewrite Sib, Eh. apply filter_sib.
      - intros x Hx. simpl. rewrite <- Gt. apply G1. rewrite <- E1. apply (in_map (fun r => fst (snd r))); auto.
      - intros x Hx. simpl. rewrite <- Gt. apply G2. rewrite <- E2. apply (in_map (fun r => fst (snd r))); auto. }
    unfold prepared, move_prepare. rewrite Sibs. destruct h2 as [|[s2 a2] c2 r2].
    + change (hd_error (sibrows cfg q Nil)) with (@None mprow). cbn [bind].
      change (sibrows cfg q Nil) with (@nil mprow).
      rewrite fapp_nil_r in Eh.
      assert (Gl : forall x, In x (nodes l) -> gt x = false) by (intros x; rewrite Eh, E1; auto).
      destruct (LS (PSorted gt) []) as [[F1 F2]|F1]; auto.
      * intros M1 M2 EM. simpl. split; [|discriminate]. intros x Hx. apply Gl. rewrite EM, in_app_iff. auto.
      * simpl. split; [|discriminate]. intros x Hx. apply drop_in in Hx. apply Gl. tauto.
      * right. exists LastSibling, None, []. split; auto. apply Last; simpl; auto.
        split; [|discriminate]. intros x Hx. apply drop_in in Hx. apply Gl. tauto.
    + change (hd_error (sibrows cfg q (Cons (s2, a2) c2 r2))) with (Some (mkrow (q ++ s2, a2))).
      cbn iota.
      assert (H2 : In (s2, a2) (roots l)) by (rewrite Eh, roots_fapp, in_app_iff; simpl; auto).
      assert (V2 := kvalid_roots cfg _ _ Vl H2). simpl in V2.
      assert (Hr2 := k_root_in cfg step1 _ _ _ _ _ _ _ _ H H2).
      change (m_path (mkrow (q ++ s2, a2))) with (q ++ s2).
      rewrite get_lastpos_ok by auto. cbn [bind].
      destruct (locate cfg radix2 step1 _ _ (mkrow (np, an)) L (lay_in_rev cfg _ _ _ L Hn))
        as (qn & sn & pan & x1 & an' & cn & x2 & m & Er & Epn & Hx & Em & Edm & Eqn).
      assert (Enp : np = qn ++ sn) by (injection Er; auto).
      assert (Hsn : In (sn, an') (roots (fapp x1 (Cons (sn, an') cn x2)))).
      { rewrite roots_fapp, in_app_iff. simpl. auto. }
      assert (Vsn : vseg cfg sn).
      { apply (kvalid_roots cfg _ (sn, an') (kvalid_At_l cfg _ _ _ _ _ _ Hx V) Hsn). }
      change (m_path node) with np. rewrite Enp, get_lastpos_ok by auto. cbn [bind].
      assert (Ed2 : m_depth (mkrow (q ++ s2, a2)) = S n).
      { destruct (depth_spec cfg radix2 step1 f (q ++ s2, a2) W Hr2) as [D1 _].
        assert (Lr := root_row_len cfg _ _ _ _ _ _ _ _ H W H2). simpl fst in D1. rewrite Lr in D1. nia. }
      rewrite Ed2. change (m_depth node) with (m_depth (mkrow (np, an))). rewrite Edm.
      rewrite !Nat.sub_succ, !Nat.sub_0_r, !get_basepath_app by auto.
      unfold spec_place. rewrite SelfF by exact I.
      rewrite Eh in Wl. destruct (mid_order cfg _ _ _ _ _ Wl) as [O1 O2].
      destruct (peq qn q && (undigits R sn + 1 =? undigits R s2)) eqn:Ez.
      * left. split; auto. apply andb_true_iff in Ez. destruct Ez as [Ez1 Ez2].
        apply peq_iff in Ez1. apply Nat.eqb_eq in Ez2. subst qn.
        assert (Hin : In (sn, an) (roots l)).
        { eapply child_in_list; eauto. - rewrite <- Enp. auto. - apply Vsn. }
        assert (Hin1 : In (sn, an) (roots h1)).
        { rewrite Eh, roots_fapp, in_app_iff in Hin. destruct Hin as [Hin|[Hin|Hin]]; auto; exfalso.
          - injection Hin as -> _. lia.
          - apply O2 in Hin. simpl in Hin. rewrite (plt_vseg cfg) in Hin by auto.
            apply Nat.ltb_lt in Hin. lia. }
        destruct (@roots_split _ _ _ _ Hin1) as (z1 & cz & z2 & Ez).
        assert (z2 = Nil) as ->.
        { destruct z2 as [|[s3 a3] c3 r3]; auto. exfalso.
          assert (H3 : In (s3, a3) (roots h1)) by (rewrite Ez, roots_fapp, in_app_iff; simpl; auto).
          assert (V3 : vseg cfg s3).
          { apply (kvalid_roots cfg _ (s3, a3) Vl). rewrite Eh, roots_fapp, in_app_iff. auto. }
          assert (P3 := O1 _ H3). simpl in P3. rewrite (plt_vseg cfg) in P3 by auto. apply Nat.ltb_lt in P3.
          apply pwf_fapp in Wl. destruct Wl as (Wh & _ & _). rewrite Ez in Wh.
          destruct (mid_order cfg _ _ _ _ _ Wh) as [_ O3].
          specialize (O3 (s3, a3) (or_introl eq_refl)). simpl in O3.
          rewrite (plt_vseg cfg) in O3 by auto. apply Nat.ltb_lt in O3. lia. }
        assert (El3 : l = fapp z1 (Cons (sn, an) cz (Cons (s2, a2) c2 r2))).
        { rewrite Eh, Ez, fapp_assoc. auto. }
        unfold nn. apply (noop_at q pa z1 sn an cz (Cons (s2, a2) c2 r2)); auto.
        { rewrite <- El3. auto. }
        { rewrite E2. simpl. split.
          - intros x Hx1. apply G1. rewrite <- E1, Ez, roots_fapp, map_app, in_app_iff. auto.
          - intros b B Eb. apply G2. rewrite Eb. simpl. auto. }
      * right. exists SortedSibling, (Some (undigits R s2)), (sibrows cfg q (Cons (s2, a2) c2 r2)).
        split. { cbn [bind]. rewrite !andb_false_r. reflexivity. }
        rewrite <- Enp. apply (Mid SortedSibling (Some (undigits R s2)) (sibrows cfg q (Cons (s2, a2) c2 r2)) (undigits R s2) h1 (Cons (s2, a2) c2 r2) (sibrows cfg q (Cons (s2, a2) c2 r2)) (PSorted gt) eq_refl); [|reflexivity|left; auto|].
        { repeat split; auto.
          { apply V2. } { apply vseg_bound; auto. }
          { rewrite seg_undigits by auto. auto. }
          { rewrite seg_undigits by auto. intros x [<-|Hx3]; simpl; [apply plt_irr|apply plt_asym; auto]. } }
        { rewrite E1, E2. apply split_sorted; auto. }
Qed.

(** *** Which moves are refused *)

Lemma prefix_shorter (a b c : path) : ppre a (b ++ c) = true -> length a <= length b -> ppre a b = true.
Proof.
  intros H Hl. apply ppre_iff in H. destruct H as [x H]. apply ppre_iff.
  exists (firstn (length b - length a) x).
  assert (E := f_equal (firstn (length b)) H). rewrite firstn_app, firstn_all, Nat.sub_diag in E.
  simpl in E. rewrite app_nil_r in E. rewrite E at 1.
  rewrite firstn_app, firstn_all2 by auto. auto.
Qed.

Lemma prefix_len (a b : path) : ppre a b = true -> length a <= length b.
Proof. intros H. apply ppre_iff in H. destruct H as [x ->]. rewrite app_length. lia. Qed.

Lemma prefix_same (a b : path) : ppre a b = true -> length b <= length a -> a = b.
Proof.
  intros H Hl. apply ppre_iff in H. destruct H as [x ->]. rewrite app_length in Hl.
  destruct x; [rewrite app_nil_r; auto|simpl in Hl; lia].
Qed.

Lemma desc_paths f np an p a : kpwf f -> In (np, an) (rows f) -> In (p, a) (rows f) ->
  is_descendant_of (mkrow (p, a)) (mkrow (np, an)) = ppre np p && (length np <? length p).
Proof.
  intros W Hn Hp. unfold is_descendant_of. change (m_path (mkrow (np, an))) with np.
  change (m_path (mkrow (p, a))) with p.
  destruct (depth_spec cfg radix2 step1 f _ W Hn) as [E1 _].
  destruct (depth_spec cfg radix2 step1 f _ W Hp) as [E2 _]. simpl fst in *. rewrite E1, E2.
  f_equal. generalize (m_depth (mkrow (np, an))) (m_depth (mkrow (p, a))). intros x y.
  clear - step1. symmetry. destruct (Nat.ltb_spec x y).
  - apply Nat.ltb_lt. apply Nat.mul_lt_mono_pos_r; lia.
  - apply Nat.ltb_ge. apply Nat.mul_le_mono_r; lia.
Qed.

Lemma desc_spec f np an p a : kpwf f -> wf_ids (kerase f) -> In (np, an) (rows f) -> In (p, a) (rows f) ->
  ppre np p && (length np <? length p) = true <-> descends (kerase f) (nid (fst an)) (nid (fst a)).
Proof.
  intros W WF Hn Hp.
  destruct (@row_kids _ _ _ _ _ Hn) as [l Hl]. destruct (Hl an l) as [f' HA].
  assert (f = f') by (eapply At_same; eauto). subst f'. clear Hl.
  assert (Ek : children_of (nid (fst an)) (kerase f) = Some (kerase l)).
  { assert (C := At_Ctx fst HA (pid_fst (Some (an, an)) eq_refl)). apply (Ctx_kids_of C WF). }
  assert (F := k_prefix cfg step1 _ _ _ _ _ _ HA W).
  assert (Eids : ids (kerase l) = map (fun x => nid (fst (snd x))) (rows l)).
  { unfold kerase. rewrite erase_ids. auto. }
  split.
  - intros E. apply andb_true_iff in E. destruct E as [E1 E2]. apply Nat.ltb_lt in E2.
    assert (Hf : In (p, a) (filter (fun r => ppre np (fst r)) (rows f))) by (apply filter_In; auto).
    rewrite F, in_app_iff in Hf. destruct Hf as [Hf|Hf].
    + simpl in Hf. destruct Hf as [Hf|[]]. injection Hf as <- <-. lia.
    + exists (kerase l). split; auto. rewrite Eids. apply in_map_iff in Hf. destruct Hf as (x & Ex & Hx).
      apply in_map_iff. exists x. split; auto. unfold pre in Ex. injection Ex as _ <-. auto.
  - intros (l0 & E0 & Hi). rewrite Ek in E0. injection E0 as <-. rewrite Eids in Hi.
    apply in_map_iff in Hi. destruct Hi as (x & Ex & Hx).
    assert (Hx' : In (pre np x) (rows f)).
    { assert (Hf : In (pre np x) (filter (fun r => ppre np (fst r)) (rows f))).
      { rewrite F, in_app_iff. right. apply in_map. auto. }
      apply filter_In in Hf. tauto. }
    assert (E := rows_id_inj _ _ _ WF Hx' Hp Ex). unfold pre in E. injection E as E _. rewrite <- E.
    rewrite ppre_app. apply Nat.ltb_lt. rewrite app_length.
    assert (Hz := k_nonempty cfg step1 _ _ (k_At_pwf_l cfg _ _ _ _ _ _ HA W) Hx).
    destruct (fst x); [congruence|simpl; lia].
Qed.

(** Where the children of the new parent are. *)
Definition new_base (p : pos) (target : mprow) : path :=
  if is_child_pos p then m_path target else get_parent_path cfg (m_path target).

(** Two steps are free after every sibling (needed for moves inside one list of
    siblings only, see [move_temp_path_refuted] in MPRefuted). *)
Definition temp_room (t : mp_table) (q np : path) : Prop :=
  get_parent_path cfg np = q -> forall r, In r t -> get_parent_path cfg (m_path r) = q ->
  undigits R (last_step cfg (m_path r)) + 2 < R ^ w.

Lemma row_len f p a : kpwf f -> In (p, a) (rows f) -> w <= length p.
Proof. intros W H. destruct (k_len cfg step1 _ _ W H) as [n E]. simpl in E. rewrite E. lia. Qed.

Lemma temp_room_list t f q pa l np an : lay t f -> At q pa l l f f -> In (np, an) (rows f) ->
  temp_room t q np ->
  forall s, np = q ++ s -> length s = w -> forall x, In x (roots l) -> undigits R (fst x) + 2 < maxstep.
Proof.
  intros L H Hn T s -> Ls [sx ax] Hx. simpl.
  assert (Lx : length sx = w).
  { apply (roots_len Nat.ltb w _ (sx, ax) (k_At_pwf_l cfg _ _ _ _ _ _ H (proj1 L)) Hx). }
  assert (T' := T (get_parent_path_app cfg radix2 step1 q s Ls) (mkrow (q ++ sx, ax))).
  change (m_path (mkrow (q ++ sx, ax))) with (q ++ sx) in T'.
  rewrite get_parent_path_app, last_step_app in T' by auto. apply T'; auto.
  eapply lay_in_rev; eauto. eapply k_root_in; eauto.
Qed.

Lemma not_above f np an q s a : kpwf f -> In (np, an) (rows f) -> In (q ++ s, a) (rows f) -> length s = w ->
  is_descendant_of (mkrow (q ++ s, a)) (mkrow (np, an)) = false -> ppre np q = false.
Proof.
  intros W Hn Hs Ls D. rewrite (desc_paths f) in D by auto.
  destruct (ppre np q) eqn:E; auto. exfalso.
  assert (Hl := prefix_len _ _ E). apply ppre_iff in E. destruct E as [x ->].
  rewrite <- app_assoc, ppre_app in D. simpl in D. apply Nat.ltb_ge in D.
  rewrite !app_length in D. rewrite app_length in Hl. lia.
Qed.

Lemma refresh_ok t f r : lay t f -> wf_ids (kerase f) -> In (m_pk r) (map m_pk t) ->
  exists r', refresh t r = Ok r' /\ In r' t /\ m_pk r' = m_pk r.
Proof.
  intros L WF H. apply in_map_iff in H. destruct H as (r' & E & Hr). exists r'.
  split; auto. unfold refresh. rewrite <- E. apply (get_by_pk_lay cfg _ f); auto.
Qed.

Lemma reorder_pks db p np nd target sb op db1 op1 np1 tp :
  reorder cfg db p np nd target sb (Some op) = Ok (db1, op1, np1, tp) ->
  map m_pk (db_rows db1) = map m_pk (db_rows db).
Proof.
  unfold reorder. destruct (goes_last _ _ _ _).
  - destruct (opt_res _ _) as [last|]; cbn [bind]; [|discriminate].
    destruct (inc_path _ _) as [x|]; cbn [bind]; [|discriminate].
    destruct (set_newpath cfg db op x) as [d|] eqn:E; cbn [bind]; [|discriminate].
    intros Eq. injection Eq as <- _ _ _. eapply set_newpath_pks; eauto.
  - match goal with |- bind ?X _ = _ -> _ => destruct X as [[n s]|] end; cbn [bind]; [|discriminate].
    match goal with |- bind ?X _ = _ -> _ => destruct X as [[d1 temp]|] eqn:ET end; cbn [bind]; [|discriminate].
    assert (E1 : map m_pk (db_rows d1) = map m_pk (db_rows db)).
    { match type of ET with (if ?c then _ else _) = _ => destruct c end; [|congruence].
      destruct (opt_res _ _) as [last|]; cbn [bind] in ET; [|discriminate].
      destruct (get_lastpos _ _) as [b|]; cbn [bind] in ET; [|discriminate].
      match type of ET with bind ?X _ = _ => destruct X as [d|] eqn:E end; cbn [bind] in ET; [|discriminate].
      injection ET as <- _. eapply set_newpath_pks; eauto. }
    destruct (collect_movesiblings _ _ _) as [ms|]; cbn [bind]; [|discriminate].
    match goal with |- bind ?X _ = _ -> _ => destruct X as [[[d2 o2] t2]|] eqn:EM end; cbn [bind]; [|discriminate].
    apply move_siblings_pks in EM. destruct o2 as [o2|]; [|intros E; injection E as <- _ _ _; congruence].
    match goal with |- bind ?X _ = _ -> _ => destruct X as [d|] eqn:E end; cbn [bind]; [|discriminate].
    intros Eq. injection Eq as <- _ _ _. apply set_newpath_pks in E. congruence.
Qed.

(** The end of [move] after [move_prepare]. *)
Lemma finish db f node target1 nd P np0 sb0 F' full was_child ut :
  prepared db f node target1 nd P np0 sb0 F' full ->
  lay (db_rows db) f -> nc_ok f -> wf_ids (kerase f) -> In node (db_rows db) ->
  In (m_pk target1) (map m_pk (db_rows db)) ->
  let res := do r <- move_prepare cfg (db_rows db) node target1 nd P np0 sb0;
    match r with
    | None => Ok (db, node, ut)
    | Some (p2, newpos, siblings) =>
        do '(db1, oldpath, newpath, tpath) <-
          reorder cfg db p2 newpos nd target1 siblings (Some (m_path node));
        let db2 := update_parent_counts cfg db1 (match oldpath with Some x => x | None => [] end) newpath in
        do node' <- refresh (db_rows db2) node;
        do target' <- refresh (db_rows db2) target1;
        Ok (db2, node', if was_child : bool then ut else target')
    end in
  (exists db' node' target', res = Ok (db', node', target') /\ stores cfg (db_rows db') F' /\
     In node' (db_rows db') /\ m_pk node' = m_pk node /\
     (target' = ut /\ (move_prepare cfg (db_rows db) node target1 nd P np0 sb0 = Ok None /\ db' = db \/ was_child = true) \/
      In target' (db_rows db') /\ m_pk target' = m_pk target1 /\ was_child = false)) \/
  (res = Err PathOverflow /\ full).
Proof.
  intros [[E EF]|(p2 & np2 & sb2 & E & [Hok|[HE Hf]])] L N WF Hn Ht res; unfold res; rewrite E; cbn [bind].
  - left. exists db, node, ut. split; auto. split; [|auto 8]. exists f. rewrite EF. auto.
  - left. destruct Hok as (db1 & op & np & tp & f' & ER & L' & N' & WF' & EF).
    rewrite ER. cbn [bind]. cbn zeta.
    assert (Epk : map m_pk (db_rows (update_parent_counts cfg db1 op np)) = map m_pk (db_rows db)).
    { rewrite update_counts_pks. eapply reorder_pks; eauto. }
    destruct (refresh_ok _ _ node L' WF') as (n' & En & Hn' & Pn).
    { rewrite Epk. apply in_map. auto. }
    destruct (refresh_ok _ _ target1 L' WF') as (t' & Et & Ht' & Pt).
    { rewrite Epk. auto. }
    rewrite En, Et. cbn [bind]. eexists _, _, _. split; [reflexivity|]. split.
    { exists f'. rewrite EF in *. auto. }
    split; auto. split; auto. destruct was_child; auto.
  - right. rewrite HE. auto.
Qed.

Theorem move_settles db F node target p P :
  stores cfg (db_rows db) F -> In node (db_rows db) -> In target (db_rows db) ->
  prepare_pos_move (is_sorted cfg) p = Ok P ->
  let gt n := sorted_after (order_by cfg) (m_data node) (ndata n) in
  (P = SortedSibling -> settles (m_pk node) gt (siblings_of (m_pk target) F)) ->
  (P = SortedChild -> settles (m_pk node) gt (match kids_of (Some (m_pk target)) F with Some l => roots l | None => [] end)) ->
  temp_room (db_rows db) (new_base P target) (m_path node) ->
  (inside F (m_pk node) (m_pk target) P /\ move cfg db node target p = Err InvalidMoveToDescendant) \/
  (~ inside F (m_pk node) (m_pk target) P /\
   ((exists db' node' target', move cfg db node target p = Ok (db', node', target') /\
       stores cfg (db_rows db') (sp_move (m_pk node) (m_pk target) P gt F) /\
       In node' (db_rows db') /\ m_pk node' = m_pk node /\ m_pk target' = m_pk target /\
       (is_child_pos P = false \/ m_nc target = 0 -> In target' (db_rows db')) /\
       (is_child_pos P = true -> m_nc target <> 0 -> target' = set_nc target (S (m_nc target)))) \/
    (move cfg db node target p = Err PathOverflow /\ step_taken cfg (db_rows db) (new_base P target)))).
Proof.
  intros (f & L & N & <- & WF) Hn Ht Pp gt Sp1 Sp2 Tr.
  assert (W : kpwf f) by apply L.
  unfold move. rewrite Pp. cbn [bind].
  destruct (lay_in cfg _ _ _ L Hn) as ([np an] & Hnr & ->).
  destruct (is_child_pos P) eqn:CP.
  - (* child positions *)
    destruct (lay_in cfg _ _ _ L Ht) as ([tp a] & Htr & ->).
    change (m_pk (mkrow (np, an))) with (nid (fst an)) in *.
    change (m_pk (mkrow (tp, a))) with (nid (fst a)) in *.
    change (m_path (mkrow (np, an))) with np in *.
    unfold new_base in *. rewrite CP in *. change (m_path (mkrow (tp, a))) with tp in *.
    change (m_nc (mkrow (tp, a))) with (snd a) in *.
    destruct (Nat.eqb_spec (nid (fst a)) (nid (fst an))) as [Esame|Ediff].
    { left. split; [right; auto|].
      assert (Em : move_to_child_vars cfg (db_rows db) (mkrow (np, an)) (mkrow (tp, a)) P = Err InvalidMoveToDescendant).
      { unfold move_to_child_vars. change (m_pk (mkrow (np, an))) with (nid (fst an)).
        change (m_pk (mkrow (tp, a))) with (nid (fst a)). rewrite Esame, Nat.eqb_refl.
        destruct P; try discriminate; auto. }
      rewrite Em. reflexivity. }
    destruct (@row_kids _ _ _ _ _ Htr) as [l Hl]. destruct (Hl a l) as [f' HA].
    assert (f = f') by (eapply At_same; eauto). subst f'. clear Hl.
    assert (Hq := k_At_nonempty cfg step1 _ _ _ _ _ _ HA W).
    assert (Eq : Some (a, a) = None <-> tp = []) by (split; [discriminate|tauto]).
    assert (Nl := nc_At_par _ _ _ _ _ _ _ HA N).
    destruct (depth_spec cfg radix2 step1 _ _ W Htr) as [Dl D1]. simpl fst in Dl.
    set (m := m_depth (mkrow (tp, a))) in *.
    assert (Ekid : kids_of (Some (nid (fst a))) (kerase f) = Some (kerase l)).
    { assert (C := At_Ctx fst HA (pid_fst (Some (a, a)) eq_refl)). apply (Ctx_kids_of C WF). }
    rewrite Ekid in Sp2.
    assert (Ins : inside (kerase f) (nid (fst an)) (nid (fst a)) P <-> ppre np tp && (length np <? length tp) = true).
    { rewrite (desc_spec f np an tp a) by auto. unfold inside. split; [intros [?|[E _]]; auto; congruence|auto]. }
    assert (Npt : ppre np tp && (length np <? length tp) = false -> ppre np tp = false).
    { intros E. destruct (ppre np tp) eqn:E1; auto. simpl in E. apply Nat.ltb_ge in E.
      assert (np = tp) by (apply prefix_same; auto). subst tp.
      rewrite (k_inj cfg step1 _ _ _ _ W Hnr Htr) in Ediff. congruence. }
    assert (Roomy := temp_room_list _ _ _ _ _ _ _ L HA Hnr Tr).
    destruct (Nat.eqb_spec (snd a) 0) as [E0|E0].
    + (* a leaf *)
      assert (l = Nil) as -> by (destruct l; [auto|simpl in Nl; lia]).
      set (parent := set_nc (mkrow (tp, a)) (S (snd a))).
      assert (Em : move_to_child_vars cfg (db_rows db) (mkrow (np, an)) (mkrow (tp, a)) P
                   = Ok (parent, m + 1, [], Some 1, FirstSibling, parent)).
      { unfold move_to_child_vars, is_leaf. change (m_pk (mkrow (np, an))) with (nid (fst an)).
        change (m_pk (mkrow (tp, a))) with (nid (fst a)). change (m_nc (mkrow (tp, a))) with (snd a).
        rewrite (proj2 (Nat.eqb_neq _ _) Ediff), (proj2 (Nat.eqb_eq _ _) E0). destruct P; try discriminate; auto. }
      rewrite Em. cbn [bind]. cbn zeta.
      assert (Ed : is_descendant_of parent (mkrow (np, an)) = is_descendant_of (mkrow (tp, a)) (mkrow (np, an)))
        by reflexivity.
      rewrite Ed, (desc_paths f) by auto. clear Ed.
      destruct (ppre np tp && (length np <? length tp)) eqn:ED; [left|right].
      { split; auto. apply Ins. auto. }
      split. { rewrite Ins. discriminate. }
      assert (EP : move_prepare cfg (db_rows db) (mkrow (np, an)) parent (m + 1) FirstSibling (Some 1) []
                   = Ok (Some (FirstSibling, Some 1, []))).
      { unfold move_prepare. cbn [bind].
          destruct ((m + 1 =? m_depth (mkrow (np, an))) && same_pk (mkrow (np, an)) (get_first_sibling cfg (db_rows db) parent)) eqn:ET.
          + exfalso. apply andb_true_iff in ET. destruct ET as [ET1 ET2]. apply Nat.eqb_eq in ET1.
            assert (EF : get_first_sibling cfg (db_rows db) parent = get_first_sibling cfg (db_rows db) (mkrow (tp, a)))
              by reflexivity.
            rewrite EF in ET2. clear EF.
            destruct (locate cfg radix2 step1 _ _ (mkrow (tp, a)) L Ht)
              as (qt & st & pat & x1 & at_ & ct & x2 & mt & Er & Ept & Hx & Emt & Edt & Eqt).
            rewrite Er in ET2.
            assert (Hst : In (st, at_) (roots (fapp x1 (Cons (st, at_) ct x2)))).
            { rewrite roots_fapp, in_app_iff. simpl. auto. }
            unfold get_first_sibling in ET2.
            rewrite (get_siblings_lay cfg radix2 step1 _ _ _ _ _ _ _ _ _ L Hx Hst) in ET2.
            unfold sibrows in ET2. destruct (roots (fapp x1 (Cons (st, at_) ct x2))) as [|[s0 b0] rs] eqn:Er0; [destruct Hst|].
            simpl hd_error in ET2.
            assert (Hs0 : In (s0, b0) (roots (fapp x1 (Cons (st, at_) ct x2)))) by (rewrite Er0; simpl; auto).
            destruct (sib_same_pk _ _ _ _ _ _ _ _ _ _ L WF Hx Hnr Hs0 ET2) as [F1 F2]. simpl in F1.
            assert (Lr := root_row_len cfg _ _ _ _ _ _ _ _ Hx W Hs0). rewrite <- F1 in Lr.
            destruct (depth_spec cfg radix2 step1 f _ W Hnr) as [G1 _]. simpl fst in G1.
            unfold m in *. rewrite Edt in *. nia.
          + rewrite !andb_false_r. auto. }
      assert (Pr : prepared db f (mkrow (np, an)) parent (m + 1) FirstSibling (Some 1) []
                 (sp_move (nid (fst an)) (nid (fst a)) P gt (kerase f)) (is_full cfg Nil)).
      { right. exists FirstSibling, (Some 1), []. split; auto.
          rewrite Nat.add_1_r.
          destruct (reorder_move_mid db f tp (Some (a, a)) Nil 1 Nil Nil parent np an m FirstSibling (Some 1) [] []
                      L N WF Hnr HA eq_refl Eq) as [(db1 & op & np1 & tp1 & f' & E & L1 & N1 & WF1 & K1)|HE]; auto.
          + split; [auto|]. split; [auto|]. split; [apply maxstep_gt1; auto|]. simpl; tauto.
          + left. reflexivity.
          + change (m_path parent) with tp. rewrite <- (app_nil_r tp) at 1. apply get_path_app. auto.
          + tauto.
          + left. exists db1, op, np1, tp1, f'. split; auto. split; auto. split; auto. split; auto.
            rewrite (K1 (snd (resolve (nid (fst a)) P gt (kerase f)))).
            * unfold sp_move. destruct P; try discriminate; reflexivity.
            * destruct P; try discriminate; simpl; auto. split; [tauto|discriminate]. }
      assert (Fn := finish db f (mkrow (np, an)) parent (m + 1) FirstSibling (Some 1) [] _ _ false parent Pr L N WF Hn).
      cbn zeta in Fn. replace (match P with FirstChild | LastChild | SortedChild => negb (is_leaf (mkrow (tp, a))) | _ => false end)
        with false by (unfold is_leaf; change (m_nc (mkrow (tp, a))) with (snd a); rewrite E0; destruct P; auto).
      destruct Fn as [(db' & n' & t' & E & St & Hn' & Pn & T)|[E Fu]].
      { change (m_pk parent) with (m_pk (mkrow (tp, a))). apply in_map; auto. }
      * left. exists db', n', t'. split; [exact E|]. split; auto. split; auto. split; auto.
        destruct T as [[-> [[T _]|T]]|(T1 & T2 & _)]; [congruence|discriminate|].
        split; auto. split; auto. intros _ F. congruence.
      * right. split; auto. destruct Fu as (x & [] & _).
    + (* it has children *)
      destruct (last_split l) as (y1 & sl & al & cl & El).
      { intros ->. simpl in Nl. lia. }
      assert (Hsl : In (sl, al) (roots l)) by (rewrite El, roots_fapp, in_app_iff; simpl; auto).
      assert (Lsl : length sl = w).
      { apply (roots_len Nat.ltb w _ (sl, al) (k_At_pwf_l cfg _ _ _ _ _ _ HA W) Hsl). }
      assert (Ela : get_last_child cfg (db_rows db) (mkrow (tp, a)) = Some (mkrow (tp ++ sl, al))).
      { unfold get_last_child. rewrite (get_children_lay cfg radix2 step1 _ _ _ _ _ _ _ _ L N HA).
        rewrite El, sibrows_fapp. apply (last_opt_app _ (mkrow (tp ++ sl, al))). }
      assert (Hlr := k_root_in cfg step1 _ _ _ _ _ _ _ _ HA Hsl).
      set (ut := set_nc (mkrow (tp, a)) (S (snd a))).
      set (P1 := match P with FirstChild => FirstSibling | LastChild => LastSibling | _ => SortedSibling end).
      assert (Em : move_to_child_vars cfg (db_rows db) (mkrow (np, an)) (mkrow (tp, a)) P
                   = Ok (mkrow (tp ++ sl, al), m + 1, [], None, P1, ut)).
      { unfold move_to_child_vars, is_leaf. change (m_pk (mkrow (np, an))) with (nid (fst an)).
        change (m_pk (mkrow (tp, a))) with (nid (fst a)). change (m_nc (mkrow (tp, a))) with (snd a).
        rewrite (proj2 (Nat.eqb_neq _ _) Ediff), (proj2 (Nat.eqb_neq _ _) E0), Ela.
        destruct P; try discriminate; auto. }
      rewrite Em. cbn [bind]. cbn zeta.
      assert (Ed : is_descendant_of (mkrow (tp ++ sl, al)) (mkrow (np, an)) = ppre np tp && (length np <? length tp)).
      { rewrite (desc_paths f) by auto. apply eq_true_iff_eq. rewrite !andb_true_iff, !Nat.ltb_lt. split.
        - intros [A B]. destruct (k_len cfg step1 _ _ W Hnr) as [i1 L1]. simpl fst in L1.
          rewrite app_length, Lsl, Dl, L1 in B.
          assert (Hle : length np <= length tp) by (rewrite L1, Dl; apply Nat.mul_le_mono_r;
            replace (m * w + w) with (S m * w) in B by (simpl; lia); apply Nat.mul_lt_mono_pos_r in B; lia).
          assert (A' := prefix_shorter _ _ _ A Hle).
          destruct (ppre np tp && (length np <? length tp)) eqn:EE.
          + apply andb_true_iff in EE. rewrite Nat.ltb_lt in EE. auto.
          + rewrite (Npt eq_refl) in A'. discriminate.
        - intros [A B]. split; [|rewrite app_length; lia].
          apply ppre_iff in A. destruct A as [x ->]. rewrite <- app_assoc. apply ppre_app. }
      rewrite Ed. clear Ed.
      destruct (ppre np tp && (length np <? length tp)) eqn:ED; [left|right].
      { split; auto. apply Ins. auto. }
      split. { rewrite Ins. discriminate. }
      assert (P1s : is_sib_pos P1) by (destruct P; exact I).
      rewrite Nat.add_1_r.
      assert (Pr := move_core db f tp (Some (a, a)) y1 sl al cl Nil m np an P1 gt). cbn zeta in Pr. rewrite <- El in Pr.
      assert (Pr' := Pr L N WF Hnr HA eq_refl Eq Dl (fun _ => Npt eq_refl) P1s (fun _ => eq_refl)). clear Pr.
      assert (Pr := fun X => Pr' X Roomy). clear Pr'.
      assert (Spl : P1 = SortedSibling -> settles (nid (fst an)) gt (nodes l)).
      { intros EP. rewrite <- kerase_roots. apply Sp2. destruct P; try discriminate; auto. }
      specialize (Pr Spl).
      assert (Esp : spec_place (nid (fst an)) (sib_place P1 (nid (fst al)) gt) (up_of (Some (a, a))) (kerase f)
                   = sp_move (nid (fst an)) (nid (fst a)) P gt (kerase f)).
      { unfold spec_place, sp_move. destruct P; try discriminate; reflexivity. }
      rewrite Esp in Pr.
      assert (Fn := finish _ _ _ _ _ _ _ _ _ _ true ut Pr L N WF Hn). cbn zeta in Fn.
      replace (match P with FirstChild | LastChild | SortedChild => negb (is_leaf (mkrow (tp, a))) | _ => false end)
        with true by (unfold is_leaf; change (m_nc (mkrow (tp, a))) with (snd a);
                      rewrite (proj2 (Nat.eqb_neq _ _) E0); destruct P; try discriminate; auto).
      destruct Fn as [(db' & n' & t' & E & St & Hn' & Pn & T)|[E Fu]].
      { apply in_map. eapply lay_in_rev; eauto. }
      * left. exists db', n', t'. split; [exact E|]. split; auto. split; auto. split; auto.
        destruct T as [[-> _]|(_ & _ & T)]; [|discriminate].
        split; [reflexivity|]. split; [intros [?|?]; [discriminate|tauto]|]. intros _ _. reflexivity.
      * right. split; auto. apply (full_taken cfg radix2 step1 _ _ _ _ _ _ _ L HA Fu).
  - (* sibling positions *)
    destruct (locate cfg radix2 step1 _ _ _ L Ht) as (q & s & pa & l1 & a & c & l2 & n & -> & Ep & H & En & Ed & Eq).
    set (l := fapp l1 (Cons (s, a) c l2)) in *.
    assert (Hs : In (s, a) (roots l)) by (unfold l; rewrite roots_fapp, in_app_iff; simpl; auto).
    assert (Hr := k_root_in cfg step1 _ _ _ _ _ _ _ _ H Hs).
    assert (Hnn : In (nid (fst a)) (map nid (nodes l))).
    { apply in_map. apply (in_map (fun r : path * payload => fst (snd r))) in Hs. auto. }
    destruct (Ctx_up_At _ _ _ _ _ _ _ H Ep WF Hnn) as [Epa Eki].
    change (m_pk (mkrow (q ++ s, a))) with (nid (fst a)) in *.
    change (m_pk (mkrow (np, an))) with (nid (fst an)) in *.
    change (m_path (mkrow (np, an))) with np in *.
    assert (Ls : length s = w).
    { apply (roots_len Nat.ltb w _ (s, a) (k_At_pwf_l cfg _ _ _ _ _ _ H W) Hs). }
    unfold new_base in *. rewrite CP in *. change (m_path (mkrow (q ++ s, a))) with (q ++ s) in *.
    rewrite get_parent_path_app in * by auto.
    assert (Sl : siblings_of (nid (fst a)) (kerase f) = nodes l).
    { unfold siblings_of. rewrite Epa, Eki. apply kerase_roots. }
    rewrite Sl in Sp1.
    assert (P' : is_sib_pos P) by (destruct P; try discriminate; exact I).
    assert (Em : move_to_child_vars cfg (db_rows db) (mkrow (np, an)) (mkrow (q ++ s, a)) P
                   = Ok (mkrow (q ++ s, a), S n, [], None, P, mkrow (q ++ s, a))).
    { unfold move_to_child_vars. rewrite Ed. destruct P; try discriminate; auto. }
    rewrite Em. cbn [bind]. cbn zeta.
    assert (Ins : inside (kerase f) (nid (fst an)) (nid (fst a)) P <->
                  is_descendant_of (mkrow (q ++ s, a)) (mkrow (np, an)) = true).
    { rewrite (desc_paths f), (desc_spec f np an (q ++ s) a) by auto. unfold inside. rewrite CP.
      split; [intros [?|[_ ?]]; auto; discriminate|auto]. }
    destruct (is_descendant_of (mkrow (q ++ s, a)) (mkrow (np, an))) eqn:ED; [left|right].
    { split; auto. apply Ins. auto. }
    split. { rewrite Ins. discriminate. }
    assert (Np := not_above _ _ _ _ _ _ W Hnr Hr Ls ED).
    assert (Roomy := temp_room_list _ _ _ _ _ _ _ L H Hnr Tr).
    assert (Pr := move_core db f q pa l1 s a c l2 n np an P gt). cbn zeta in Pr. fold l in Pr.
    specialize (Pr L N WF Hnr H Ep Eq En (fun _ => Np) P' (fun _ => eq_refl) Sp1 Roomy).
    assert (Esp : spec_place (nid (fst an)) (sib_place P (nid (fst a)) gt) (up_of pa) (kerase f)
                   = sp_move (nid (fst an)) (nid (fst a)) P gt (kerase f)).
    { unfold spec_place, sp_move. rewrite (resolve_sib _ _ _ _ _ P' Epa). reflexivity. }
    rewrite Esp in Pr.
    assert (Fn := finish _ _ _ _ _ _ _ _ _ _ false (mkrow (q ++ s, a)) Pr L N WF Hn). cbn zeta in Fn.
    replace (match P with FirstChild | LastChild | SortedChild => negb (is_leaf (mkrow (q ++ s, a))) | _ => false end)
      with false by (destruct P; simpl in P'; tauto).
    destruct Fn as [(db' & n' & t' & E & St & Hn' & Pn & T)|[E Fu]].
    { apply in_map. auto. }
    + left. exists db', n', t'. split; [exact E|]. split; auto. split; auto. split; auto.
      destruct T as [[-> [[_ ->]|T]]|(T1 & T2 & _)]; try discriminate; auto.
      * split; [reflexivity|]. split; auto. discriminate.
      * split; auto. split; auto. discriminate.
    + right. split; auto. apply (full_taken cfg radix2 step1 _ _ _ _ _ _ _ L H Fu).
Qed.

Theorem move_ok db F node target p P :
  stores cfg (db_rows db) F -> In node (db_rows db) -> In target (db_rows db) ->
  prepare_pos_move (is_sorted cfg) p = Ok P ->
  let gt n := sorted_after (order_by cfg) (m_data node) (ndata n) in
  (P = SortedSibling -> splits gt (siblings_of (m_pk target) F)) ->
  (P = SortedChild -> splits gt (match kids_of (Some (m_pk target)) F with Some l => roots l | None => [] end)) ->
  temp_room (db_rows db) (new_base P target) (m_path node) ->
  (inside F (m_pk node) (m_pk target) P /\ move cfg db node target p = Err InvalidMoveToDescendant) \/
  (~ inside F (m_pk node) (m_pk target) P /\
   ((exists db' node' target', move cfg db node target p = Ok (db', node', target') /\
       stores cfg (db_rows db') (sp_move (m_pk node) (m_pk target) P gt F) /\
       In node' (db_rows db') /\ m_pk node' = m_pk node /\ m_pk target' = m_pk target /\
       (is_child_pos P = false \/ m_nc target = 0 -> In target' (db_rows db')) /\
       (is_child_pos P = true -> m_nc target <> 0 -> target' = set_nc target (S (m_nc target)))) \/
    (move cfg db node target p = Err PathOverflow /\ step_taken cfg (db_rows db) (new_base P target)))).
Proof.
  intros S Hn Ht Pp gt Sp1 Sp2 Tr. apply (move_settles db F node target p P); auto; intros E; left; auto.
Qed.

End Move.
