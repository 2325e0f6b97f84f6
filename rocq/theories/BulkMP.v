(** load_bulk of the materialized paths, with and without bulk_create. *)
From Coq Require Import String List Arith Lia Bool ZArith Permutation Sorted.
From Verif Require Import Prelude Forest SpecFacts SpecSane CommonModel Order History SpecKids SpecRun NumConv PathTab PathMove
  MPModel MPStep MPInv MPShift MPReorder MPAdd MPReads MPHist MPRoom BulkModel BulkFacts BulkTrees BulkLoad.
Import ListNotations.
Local Open Scope nat_scope.

Lemma option_eq_dec_nat (a b : option nat) : {a = b} + {a <> b}.
Proof. repeat decide equality. Qed.

Section MP.
Variable cfg : mp_cfg.
Hypothesis radix2 : 2 <= radix cfg.
Hypothesis step1 : 1 <= steplen cfg.
Notation R := (radix cfg).
Notation w := (steplen cfg).
Notation o := (order_by cfg).
Notation mkrow := (mkrow cfg).
Notation kpwf := (kpwf cfg).
Notation kvalid := (kvalid cfg).
Notation lay := (lay cfg).
Notation seg := (seg cfg).
Notation maxstep := (maxstep cfg).
Notation stores := (stores cfg).
Notation ups := (ups mprow m_pk).

(** ** Adding at the end of a list of children *)

(** The children of [up] are the list [l] at the path [q]. *)
Definition at_up (up : option mprow) (f : kf) (q : path) pa (l : kf) : Prop :=
  At q pa l l f f /\
  match up with
  | None => q = [] /\ pa = None
  | Some p => exists a, pa = Some (a, a) /\ nid (fst a) = m_pk p /\ snd a = length (roots l)
  end.

Definition next_path (up : option mprow) (q : path) (l : kf) : res path :=
  match last_opt (roots l) with
  | Some sb => inc_path cfg (q ++ fst sb)
  | None => if match up with Some _ => maxlen cfg <? length q + w | None => false end
            then Err PathOverflow else Ok (q ++ seg 1)
  end.

Lemma sibling_eq db f q pa l s b nc x : lay (db_rows db) f -> At q pa l l f f ->
  last_opt (roots l) = Some (s, b) -> is_sorted cfg = true ->
  (forall y, In y (nodes l) -> sorted_after o (ndata x) (ndata y) = false) ->
  add_sibling cfg db (mkrow (q ++ s, b)) (Some "sorted-sibling"%string) (mkNew (nid x) nc (ndata x)) =
  do np <- inc_path cfg (q ++ s);
  let r := mkMP (nid x) np (length q / w + 1) nc (ndata x) in
  do db' <- save_row (mkDB (inc_parent (db_rows db) q) (db_sig db)) r;
  Ok (db', r).
Proof.
  intros L HA Hl Hso Gt. assert (Hs := last_in _ _ Hl). assert (Hx := k_root_in cfg step1 _ _ _ _ _ _ _ _ HA Hs).
  assert (W : kpwf f) by apply L.
  assert (Es := get_siblings_lay cfg radix2 step1 _ f q pa l l f s b L HA Hs).
  unfold add_sibling. rewrite Hso. change (prepare_pos_add true (Some "sorted-sibling"%string)) with (Ok SortedSibling). cbn [bind new_data new_pk new_nc]. cbv zeta.
  unfold sorted_siblings. rewrite Es. rewrite filter_none.
  2:{ intros y Hy. unfold sibrows in Hy. apply in_map_iff in Hy. destruct Hy as (z & <- & Hz). cbn. apply Gt.
      apply in_map_iff. eauto. }
  cbn [hd_error bind]. unfold reorder. cbn [MPModel.goes_last]. unfold get_last_sibling. rewrite Es.
  unfold sibrows at 1. rewrite last_opt_map, Hl. cbn [option_map opt_res bind]. change (m_path (mkrow (pre q (s, b)))) with (q ++ s).
  assert (Vs : vseg cfg s) by (apply (kvalid_roots cfg _ (s, b) (kvalid_At_l cfg _ _ _ _ _ _ HA (proj1 (proj2 L))) Hs)).
  rewrite (inc_path_ok cfg radix2 step1 q s Vs).
  destruct (_ <? maxstep); cbn [bind]; auto.
  destruct (k_At_len cfg step1 _ _ _ _ _ _ HA W) as [n En].
  assert (Ed : m_depth (mkrow (q ++ s, b)) = S n).
  { destruct (depth_spec cfg radix2 step1 _ _ W Hx) as [E _]. cbn [fst] in E.
    rewrite (root_row_len cfg _ _ _ _ _ _ _ _ HA W Hs), En in E. nia. }
  rewrite Ed. rewrite En, Nat.div_mul by lia. rewrite ?Nat.add_1_r.
  rewrite Nat.sub_succ, Nat.sub_0_r, (get_basepath_app cfg q _ n En). unfold inc_parent, increment_numchild.
  destruct q, db; auto.
Qed.

Lemma mp_add_eq db f up q pa l nc x : lay (db_rows db) f -> wf_ids (kerase f) -> at_up up f q pa l ->
  (is_sorted cfg = true -> forall y, In y (nodes l) -> sorted_after o (ndata x) (ndata y) = false) ->
  exists up', ups up' = ups up /\
  mp_add cfg db up nc x =
  do np <- next_path up q l;
  let r := mkMP (nid x) np (length q / w + 1) nc (ndata x) in
  do db' <- save_row (mkDB (inc_parent (db_rows db) q) (db_sig db)) r;
  Ok (db', r, up').
Proof.
  intros L WF (HA & Hup) Gt. assert (W : kpwf f) by apply L. unfold mp_add, next_path. destruct up as [p|].
  - destruct Hup as (a & -> & Ea & Na).
    assert (Hx := k_At_in cfg step1 _ _ _ _ _ _ _ HA). assert (Hn := lay_in_rev cfg _ _ _ L Hx).
    unfold add_child. rewrite <- Ea. change (nid (fst a)) with (m_pk (mkrow (q, a))).
    rewrite (get_by_pk_lay cfg _ f _ L WF Hn). cbn [bind].
    destruct (depth_spec cfg radix2 step1 _ _ W Hx) as [Dl D1]. cbn [fst] in Dl.
    assert (Hq := k_At_nonempty cfg step1 _ _ _ _ _ _ HA W).
    assert (Eqd : length q / w = m_depth (mkrow (q, a))) by (rewrite Dl, Nat.div_mul by lia; auto).
    assert (Edb : mkDB (map (upd_nc_pk (m_pk (mkrow (q, a))) S) (db_rows db)) (db_sig db)
              = mkDB (inc_parent (db_rows db) q) (db_sig db)).
    { f_equal. rewrite (upd_pk_path cfg step1 _ f) by auto. unfold inc_parent. destruct q; [tauto|]. auto. }
    unfold is_leaf. change (m_nc (mkrow (q, a))) with (snd a).
    destruct (last_opt (roots l)) as [[s b]|] eqn:El.
    + assert (Hs := last_in _ _ El). replace (snd a =? 0) with false.
      2:{ symmetry. apply Nat.eqb_neq. rewrite Na. destruct (roots l); [destruct Hs|discriminate]. }
      cbn [negb]. rewrite andb_true_r. cbn [fst].
      assert (Elc : get_last_child cfg (db_rows db) (mkrow (q, a)) = Some (mkrow (q ++ s, b))).
      { assert (Eg : get_children cfg (db_rows db) (mkrow (q, a)) = sibrows cfg q l).
        { (* as for tables with right counts, only the count of this node is used *)
          unfold get_children, is_leaf. change (m_nc (mkrow (q, a))) with (snd a). rewrite Na.
          destruct (roots l) as [|r0 rs] eqn:Er; [discriminate|]. cbn [length Nat.eqb].
          rewrite (query cfg step1 _ _ f L). rewrite <- sibrows_map.
          rewrite <- (k_children cfg step1 _ _ _ _ _ _ HA W). f_equal. apply filter_ext_In. intros z Hin.
          destruct (depth_spec cfg radix2 step1 _ _ W Hin) as [E2 _].
          change (m_path (mkrow (q, a))) with q. change (m_path (mkrow z)) with (fst z).
          destruct (Nat.eqb_spec (length (fst z)) (length q + w)) as [E|E].
          - rewrite andb_true_r. rewrite (in_range_prefix cfg radix2); auto.
            + replace (m_depth (mkrow z) =? m_depth (mkrow (q, a)) + 1) with true; auto.
              symmetry. apply Nat.eqb_eq. nia.
            + eapply kvalid_digits; eauto. apply L.
          - rewrite andb_false_r. apply andb_false_iff. left. apply Nat.eqb_neq. nia. }
        unfold get_last_child. rewrite Eg. unfold sibrows. rewrite last_opt_map, El. auto. }
      rewrite Elc. cbn [opt_res bind].
      destruct (is_sorted cfg) eqn:Hso.
      * rewrite (sibling_eq db f q _ l s b nc x L HA El Hso (Gt eq_refl)).
        exists (Some (set_nc p (S (m_nc p)))). split; auto.
        destruct (inc_path cfg (q ++ s)) as [np|]; cbn [bind]; auto. destruct (save_row _ _); auto.
      * exists (Some (set_nc p (S (snd a)))). split; auto. rewrite Edb, Eqd. change (m_path (mkrow (q ++ s, b))) with (q ++ s).
        destruct (inc_path cfg (q ++ s)) as [np|]; cbn [bind]; auto. cbn [new_pk new_nc new_data]. destruct (save_row _ _); auto.
    + apply last_opt_None in El. rewrite El in Na. cbn in Na. rewrite Na. cbn [Nat.eqb negb]. rewrite andb_false_r.
      exists (Some (set_nc p (S (snd a)))). split; auto.
      rewrite Edb, Eqd. change (m_path (mkrow (q, a))) with q.
      assert (Eg : get_path cfg q (m_depth (mkrow (q, a)) + 1) 1 = q ++ seg 1).
      { rewrite Nat.add_1_r. rewrite <- (app_nil_r q) at 1. apply get_path_app. auto. }
      rewrite Eg.
      rewrite app_length, (seg_len cfg radix2 step1) by (apply maxstep_gt1; auto).
      destruct (maxlen cfg <? length q + w); cbn [bind]; auto. cbn [new_pk new_nc new_data]. destruct (save_row _ _); cbn [bind]; auto.
      rewrite Na. auto.
  - destruct Hup as (-> & ->). assert (l = f) by (inversion HA; auto). subst l. exists None. split; auto.
    unfold add_root, get_last_root_node. rewrite (get_root_nodes_lay cfg radix2 step1 _ f L).
    unfold sibrows. rewrite last_opt_map. cbn [length]. rewrite Nat.div_small by lia. cbn [Nat.add app inc_parent].
    assert (Ed : mkDB (db_rows db) (db_sig db) = db) by (destruct db; auto). rewrite Ed.
    destruct (last_opt (roots f)) as [[s b]|] eqn:El; cbn [option_map].
    + destruct (is_sorted cfg) eqn:Hso.
      * change (pre [] (s, b)) with ([] ++ s, b). rewrite (sibling_eq db f [] _ f s b nc x L HA El Hso (Gt eq_refl)).
        cbn [length fst app inc_parent]. rewrite Nat.div_small by lia. rewrite Ed. cbn [Nat.add].
        destruct (inc_path cfg s) as [np|]; cbn [bind]; auto. destruct (save_row _ _); auto.
      * change (m_path (mkrow (pre [] (s, b)))) with s. cbn [fst].
        destruct (inc_path cfg s) as [np|]; cbn [bind]; auto. cbn [new_pk new_nc new_data]. destruct (save_row _ _); auto.
    + change (get_path cfg [] 1 1) with (seg 1). cbn [bind new_pk new_nc new_data]. destruct (save_row _ _); auto.
Qed.

(** The path of the parent, [] for the roots. *)
Definition upath (t : mp_table) (up : option mprow) (q : path) : Prop :=
  match up with
  | None => q = []
  | Some p => exists node, In node t /\ m_pk node = m_pk p /\ m_path node = q
  end.

Lemma up_at t f up : lay t f -> nc_ok f -> wf_ids (kerase f) -> is_up (ups up) (kerase f) ->
  exists q pa l, at_up up f q pa l /\ upath t up q /\ pold pa = pnew pa /\ (pa = None <-> q = []) /\
    kids_of (ups up) (kerase f) = Some (kerase l) /\ option_map (fun z => nid (fst (fst z))) pa = ups up.
Proof.
  intros L N WF U. destruct up as [p|].
  - specialize (U _ eq_refl). apply (Permutation_in _ (Permutation_sym (lay_pks cfg _ _ L))) in U.
    apply in_map_iff in U. destruct U as (node & Epk & Hn).
    destruct (lay_in cfg _ _ _ L Hn) as ([q a] & Hx & ->).
    destruct (@row_kids _ _ _ _ _ Hx) as [l Hl]. destruct (Hl a l) as [f' HA].
    assert (f = f') by (eapply At_same; eauto). subst f'.
    exists q, (Some (a, a)), l. split; [split; auto; exists a; split; auto; split; auto; apply (nc_At_par _ _ _ _ _ _ _ HA N)|].
    split; [exists (mkrow (q, a)); auto|]. split; auto.
    split; [split; [discriminate|intros E; destruct (k_At_nonempty cfg step1 _ _ _ _ _ _ HA (proj1 L) E)]|].
    assert (C := At_Ctx fst HA (pid_fst (Some (a, a)) eq_refl)). cbn [ups option_map]. rewrite <- Epk.
    split; auto. apply (Ctx_kids_of C WF).
  - exists [], None, f. split; [split; auto; constructor|]. split; [reflexivity|]. split; auto. split; [tauto|]. auto.
Qed.

(** Adding a node after all its siblings. *)
Lemma mp_add_last db F up x : stores (db_rows db) F -> is_up (ups up) F -> ~ In (nid x) (ids F) ->
  goes_last o (ups up) F x ->
  exists q, upath (db_rows db) up q /\
  ((exists k up', k < maxstep /\
      let r := mkMP (nid x) (q ++ seg k) (length q / w + 1) 0 (ndata x) in
      mp_add cfg db up 0 x = Ok (mkDB (r :: inc_parent (db_rows db) q) (db_sig db), r, up') /\ ups up' = ups up /\
      stores (r :: inc_parent (db_rows db) q) (append (ups up) (leaf x) F) /\
      (k = 1 \/ exists last, In last (db_rows db) /\ parent_of (m_pk last) F = Some (ups up) /\ k = sv cfg (m_path last) + 1)) \/
   (mp_add cfg db up 0 x = Err PathOverflow /\
    ((exists last, In last (db_rows db) /\ parent_of (m_pk last) F = Some (ups up) /\ sv cfg (m_path last) = maxstep - 1) \/
     (ups up <> None /\ kl (ups up) F = [] /\ maxlen cfg < length q + w)))).
Proof.
  intros St U Fr Gl. destruct St as (f & L & N & <- & WF).
  destruct (up_at _ f up L N WF U) as (q & pa & l & Au & Uq & Ep & Eq & Ek & Epa).
  exists q. split; auto. assert (W : kpwf f) by apply L.
  assert (HA := proj1 Au).
  assert (Gt : is_sorted cfg = true -> forall y, In y (nodes l) -> sorted_after o (ndata x) (ndata y) = false).
  { intros Hso y Hy. assert (No : o <> []) by (intros E; unfold is_sorted in Hso; rewrite E in Hso; discriminate).
    destruct (Gl No) as (V & G). apply gt_false; auto. apply G.
    rewrite (kl_some _ _ _ Ek). rewrite MPReorder.kerase_roots. auto. }
  destruct (mp_add_eq db f up q pa l 0 x L WF Au Gt) as (up' & Eu & E). rewrite E. clear E.
  destruct (k_At_len cfg step1 _ _ _ _ _ _ HA W) as [n En].
  assert (Ins : forall k, opened cfg q pa l f k f l Nil ->
    let r := mkMP (nid x) (q ++ seg k) (length q / w + 1) 0 (ndata x) in
    save_row (mkDB (inc_parent (db_rows db) q) (db_sig db)) r = Ok (mkDB (r :: inc_parent (db_rows db) q) (db_sig db)) /\
    stores (r :: inc_parent (db_rows db) q) (append (ups up) (leaf x) (kerase f))).
  { intros k O r. assert (K : k < maxstep) by apply O.
    destruct (insert_opened cfg radix2 step1 db f q pa l k f l Nil x PLast L N WF HA Ep Eq O Fr) as (db3 & Es & Hr & _ & S3 & _).
    { simpl. auto. }
    assert (Er : MPInv.mkrow cfg (q ++ seg k, (x, 0)) = r).
    { unfold MPInv.mkrow, r. cbn [fst snd]. f_equal. rewrite app_length, (seg_len cfg radix2 step1) by auto.
      rewrite En. replace (n * w + w) with (S n * w) by (cbn; lia). rewrite !Nat.div_mul by lia. lia. }
    rewrite Er in *. rewrite Epa in S3.
    assert (Ef : exists t', save_row (mkDB (inc_parent (db_rows db) q) (db_sig db)) r = Ok (mkDB t' (db_sig db)) /\ t' = r :: inc_parent (db_rows db) q).
    { unfold save_row in *. cbn [db_rows db_sig] in *. destruct (existsb _ (inc_parent (db_rows db) q)) eqn:E1; [discriminate|].
      destruct (existsb (fun x0 => m_pk x0 =? m_pk r) _) eqn:E2; [|eauto]. exfalso. apply Fr.
      apply existsb_exists in E2. destruct E2 as (y & Hy & E2). apply Nat.eqb_eq in E2.
      change (m_pk r) with (nid x) in E2. rewrite <- E2. apply (Permutation_in _ (lay_pks cfg _ _ L)).
      unfold inc_parent in Hy. destruct q; [apply in_map; auto|]. apply in_map_iff in Hy. destruct Hy as (z & <- & Hz).
      replace (m_pk (upd_nc (n0 :: q) S z)) with (m_pk z) by (unfold upd_nc; destruct (peq _ _); auto). apply in_map. auto. }
    destruct Ef as (t' & Ef & ->). split; auto. rewrite Ef in Es. injection Es as <-. cbn [db_rows] in S3.
    exact S3. }
  unfold next_path. destruct (last_opt (roots l)) as [[s b]|] eqn:El.
  - assert (Hs := last_in _ _ El). assert (Hl : l <> Nil) by (intros ->; destruct Hs).
    destruct (last_split l Hl) as (l1 & s' & b' & c & El').
    assert (E : (s', b') = (s, b)) by (rewrite El', roots_fapp in El; cbn [roots] in El; rewrite last_opt_app in El; congruence).
    injection E as -> ->. cbn [fst].
    assert (Hrow : In (mkrow (q ++ s, b)) (db_rows db)) by (apply (lay_in_rev cfg _ _ _ L); apply (k_root_in cfg step1 _ _ _ _ _ _ _ _ HA Hs)).
    assert (Vs : vseg cfg s) by (apply (kvalid_roots cfg _ (s, b) (kvalid_At_l cfg _ _ _ _ _ _ HA (proj1 (proj2 L))) Hs)).
    assert (Pl : parent_of (nid (fst b)) (kerase f) = Some (ups up)).
    { rewrite <- Epa. apply (Ctx_up_At _ _ _ _ _ _ _ HA Ep WF).
      apply in_map. apply (in_map (fun r : path * payload => fst (snd r))) in Hs. auto. }
    assert (Sl : sv cfg (q ++ s) = undigits R s) by (unfold sv; rewrite last_step_app; auto; apply Vs).
    destruct (inc_last cfg radix2 step1 _ _ _ _ _ _ _ _ _ L HA El') as [(k & E & O)|[E Fu]]; rewrite E; cbn [bind]; cbv zeta.
    + left. exists k, up'. destruct (Ins k O) as (E1 & E2). split; [apply O|]. rewrite E1. cbn [bind].
      split; auto. split; auto. split; auto. right. exists (mkrow (q ++ s, b)). split; auto. split; auto.
      change (m_path (mkrow (q ++ s, b))) with (q ++ s). rewrite Sl.
      rewrite (inc_path_ok cfg radix2 step1 _ _ Vs) in E. destruct (_ <? maxstep); [|discriminate].
      injection E as E. apply app_inv_head in E. apply seg_inj in E; auto.
    + right. split; auto. left. exists (mkrow (q ++ s, b)). split; auto. split; auto.
      change (m_path (mkrow (q ++ s, b))) with (q ++ s). rewrite Sl.
      rewrite (inc_path_ok cfg radix2 step1 _ _ Vs) in E. destruct (Nat.ltb_spec (undigits R s + 1) maxstep) as [B|B]; [discriminate|].
      assert (B2 := vseg_bound cfg _ Vs). lia.
  - apply last_opt_None in El. assert (l = Nil) as -> by (destruct l; [auto|discriminate]).
    destruct (match up with Some _ => maxlen cfg <? length q + w | None => false end) eqn:Em; cbn [bind]; cbv zeta.
    + right. split; auto. right. destruct up; [|discriminate]. apply Nat.ltb_lt in Em. split; [discriminate|]. split; auto.
      rewrite (kl_some _ _ _ Ek). auto.
    + left. exists 1, up'. destruct (Ins 1 (opened_nil cfg radix2 step1 _ _ _ HA)) as (E1 & E2). rewrite E1. cbn [bind].
      split; [apply maxstep_gt1; auto|]. auto 6.
Qed.

(** ** Room *)

(** The last step of every path is at most the number of siblings: no gaps. *)
Definition compact (t : mp_table) (F : forest node) : Prop :=
  forall r up x, In r t -> In x (kl up F) -> nid x = m_pk r -> sv cfg (m_path r) <= length (kl up F).

Fixpoint narrow (m : nat) (F : forest node) : Prop :=
  match F with Nil => True | Cons _ k r => length (roots k) < m /\ narrow m k /\ narrow m r end.

Fixpoint height (F : forest node) : nat :=
  match F with Nil => 0 | Cons _ k r => Nat.max (S (height k)) (height r) end.

(** There are steps for all siblings, and the paths fit in their column. *)
Definition fits (F : forest node) : Prop :=
  length (roots F) < maxstep /\ narrow maxstep F /\ height F * w <= maxlen cfg.

Lemma ext_roots F F' : ext F F' -> length (roots F) <= length (roots F').
Proof.
  revert F'. induction F as [|a k _ r IH]; intros [|a' k' r']; cbn; try tauto; try lia.
  intros (_ & _ & H). apply IH in H. lia.
Qed.

Lemma ext_narrow m F F' : ext F F' -> narrow m F' -> narrow m F.
Proof.
  revert F'. induction F as [|a k IHk r IHr]; intros [|a' k' r']; cbn; try tauto.
  intros (_ & Hk & Hr) (N1 & N2 & N3). assert (E := ext_roots _ _ Hk). split; [lia|]. eauto.
Qed.

Lemma ext_height F F' : ext F F' -> height F <= height F'.
Proof.
  revert F'. induction F as [|a k IHk r IHr]; intros [|a' k' r']; cbn [ext height]; try tauto; try lia.
  intros (_ & Hk & Hr). apply IHk in Hk. apply IHr in Hr. lia.
Qed.

Lemma ext_fits F F' : ext F F' -> fits F' -> fits F.
Proof.
  intros E (F1 & F2 & F3). assert (H1 := ext_roots _ _ E). assert (H2 := ext_height _ _ E).
  split; [lia|]. split; [eapply ext_narrow; eauto|]. nia.
Qed.

Lemma fits_kl up F : fits F -> length (kl up F) < maxstep.
Proof.
  intros (F1 & F2 & _). unfold kl, kid_list. assert (M := maxstep_gt1 cfg radix2 step1).
  destruct up as [p|]; cbn [kids_of option_map]; auto. clear F1.
  assert (G : forall c, children_of p F = Some c -> length (roots c) < maxstep).
  { induction F as [|a k IHk r IHr]; cbn [children_of]; [discriminate|]. destruct F2 as (N1 & N2 & N3). intros c.
    destruct (nid a =? p); [intros E; injection E as <-; auto|].
    destruct (children_of p k); [intros E; injection E as <-; auto|auto]. }
  destruct (children_of p F) as [c|]; cbn; [auto|lia].
Qed.

Lemma height_fapp c x : 1 <= height (fapp c (leaf x)).
Proof. destruct c; cbn [fapp height leaf]; lia. Qed.

Lemma height_below x f : forall q a, kpwf f -> wf_ids (kerase f) -> In (q, a) (rows f) ->
  length q + w <= height (append (Some (nid (fst a))) (leaf x) (kerase f)) * w.
Proof.
  unfold append. cbn [at_kids].
  induction f as [|[s b] k IHk r IHr]; intros q a W WF H; [destruct H|].
  destruct W as (Ws & Wk & Wr & _). cbn [fst] in Ws.
  change (kerase (Cons (s, b) k r)) with (Cons (fst b) (kerase k) (kerase r)) in *.
  apply wf_cons_inv in WF. destruct WF as (X1 & X2 & X3 & X4 & X5). cbn [at_node].
  cbn [rows] in H. destruct H as [H|H].
  - injection H as -> ->. rewrite Nat.eqb_refl. cbn [height]. assert (Hh := height_fapp (kerase k) x). nia.
  - apply in_app_iff in H. destruct H as [H|H].
    + apply in_map_iff in H. destruct H as ([q' a'] & E & H). unfold pre in E. cbn [fst snd] in E. injection E as <- ->.
      assert (Hi : In (nid (fst a)) (ids (kerase k))).
      { unfold kerase. rewrite erase_ids. apply in_map_iff. exists (q', a). auto. }
      destruct (Nat.eqb_spec (nid (fst b)) (nid (fst a))) as [E|_]; [rewrite E in *; tauto|].
      cbn [height]. specialize (IHk _ _ Wk X3 H). rewrite app_length, Ws. nia.
    + assert (Hi : In (nid (fst a)) (ids (kerase r))).
      { unfold kerase. rewrite erase_ids. apply in_map_iff. exists (q, a). auto. }
      destruct (Nat.eqb_spec (nid (fst b)) (nid (fst a))) as [E|_]; [rewrite E in *; tauto|].
      cbn [height]. specialize (IHr _ _ Wr X4 H). nia.
Qed.

(** Every stored forest has at most as many siblings as there are steps. *)
Lemma roots_bound (f : kf) : kpwf f -> kvalid f -> length (roots f) < maxstep.
Proof.
  intros W V. assert (M := maxstep_gt1 cfg radix2 step1).
  assert (ND : NoDup (map fst (roots f))).
  { clear V. induction f as [|[s b] k _ r IH]; [constructor|]. destruct W as (_ & _ & Wr & O). cbn [roots map fst]. constructor; auto.
    intros H. apply in_map_iff in H. destruct H as (z & E & H). rewrite Forall_forall in O. specialize (O z H). cbn [fst] in O.
    rewrite E in O. assert (X := @llt_irr nat Nat.ltb irr s). unfold MPStep.maxstep in *. congruence. }
  assert (ND2 : NoDup (map (fun x : path * payload => undigits R (fst x)) (roots f))).
  { rewrite <- (map_map fst (undigits R)). apply nodup_map_inj; auto.
    intros a b Ha Hb E. apply in_map_iff in Ha, Hb. destruct Ha as (xa & <- & Ha), Hb as (xb & <- & Hb).
    rewrite <- (seg_undigits cfg radix2 step1 _ (kvalid_roots cfg _ _ V Ha)), E. apply (seg_undigits cfg radix2 step1).
    apply (kvalid_roots cfg _ _ V Hb). }
  assert (L : length (roots f) <= length (seq 1 (maxstep - 1))).
  { rewrite <- (map_length (fun x : path * payload => undigits R (fst x)) (roots f)). apply NoDup_incl_length; auto.
    intros n Hn. apply in_map_iff in Hn. destruct Hn as (z & <- & Hz). assert (Vz := kvalid_roots cfg _ _ V Hz).
    apply in_seq. assert (B := vseg_bound cfg _ Vz). destruct Vz as (_ & _ & V1). lia. }
  rewrite seq_length in L. lia.
Qed.

Lemma stored_narrow (f : kf) : kpwf f -> kvalid f -> narrow maxstep (kerase f).
Proof.
  induction f as [|[s b] k IHk r IHr]; intros W V; [exact I|]. destruct W as (_ & Wk & Wr & _).
  apply kvalid_cons in V. destruct V as (_ & Vk & Vr).
  change (kerase (Cons (s, b) k r)) with (Cons (fst b) (kerase k) (kerase r)). cbn [narrow]. split; [|auto].
  rewrite MPReorder.kerase_roots, map_length. apply roots_bound; auto.
Qed.

Lemma stored_height (f : kf) : kpwf f -> kerase f = Nil \/ exists x, In x (rows f) /\ length (fst x) = height (kerase f) * w.
Proof.
  induction f as [|[s b] k IHk r IHr]; intros W; [auto|]. right. destruct W as (Ws & Wk & Wr & _). cbn [fst] in Ws.
  change (kerase (Cons (s, b) k r)) with (Cons (fst b) (kerase k) (kerase r)). cbn [height].
  destruct (Nat.max_spec (S (height (kerase k))) (height (kerase r))) as [[H E]|[H E]]; rewrite E.
  - destruct (IHr Wr) as [E0|(x & Hx & El)]; [rewrite E0 in H; cbn in H; lia|]. exists x. split; auto.
    cbn [rows]. right. apply in_app_iff. auto.
  - destruct (IHk Wk) as [E0|(x & Hx & El)].
    + exists (s, b). split; [left; auto|]. rewrite E0. cbn. lia.
    + exists (pre s x). split; [right; apply in_app_iff; left; apply in_map; auto|]. cbn [fst pre]. rewrite app_length, Ws, El. cbn. lia.
Qed.

Lemma stored_fits t F : stores t F -> (forall r, In r t -> length (m_path r) <= maxlen cfg) -> fits F.
Proof.
  intros (f & L & _ & <- & _) H. assert (W : kpwf f) by apply L. assert (V : kvalid f) by apply L. split.
  - rewrite MPReorder.kerase_roots, map_length. apply roots_bound; auto.
  - split; [apply stored_narrow; auto|]. destruct (stored_height f W) as [E|(x & Hx & E)]; [rewrite E; cbn; lia|].
    rewrite <- E. apply (H _ (lay_in_rev cfg _ _ _ L Hx)).
Qed.

(** ** Loading *)
Lemma stores_in t F r : stores t F -> In r t -> In (m_pk r) (ids F).
Proof. intros (f & L & _ & <- & _) H. apply (Permutation_in _ (lay_pks cfg _ _ L)). apply in_map. auto. Qed.

Lemma inc_parent_in t q r : In r (inc_parent t q) -> exists y, In y t /\ m_pk y = m_pk r /\ m_path y = m_path r.
Proof.
  unfold inc_parent. destruct q as [|d q]; [eauto|]. intros H. apply in_map_iff in H. destruct H as (y & <- & Hy).
  exists y. unfold upd_nc. destruct (peq _ _); auto.
Qed.

Lemma inc_parent_pks t q : map m_pk (inc_parent t q) = map m_pk t.
Proof.
  unfold inc_parent. destruct q; auto. rewrite map_map. apply map_ext. intros r. unfold upd_nc. destruct (peq _ _); auto.
Qed.

Lemma upath_len t F up q : stores t F -> upath t up q -> exists n, length q = n * w.
Proof.
  intros (f & L & _) H. destruct up as [p|]; cbn in H; [|exists 0; rewrite H; auto].
  destruct H as (node & Hn & _ & <-). destruct (lay_in cfg _ _ _ L Hn) as (x & Hx & ->).
  destruct (k_len cfg step1 _ _ (proj1 L) Hx) as [n E]. exists (S n). auto.
Qed.

Lemma compact_add t F up q x k c d : stores t F -> is_up (ups up) F -> ~ In (nid x) (ids F) -> upath t up q ->
  wf_ids (append (ups up) (leaf x) F) -> k < maxstep ->
  (k = 1 \/ exists last, In last t /\ parent_of (m_pk last) F = Some (ups up) /\ k = sv cfg (m_path last) + 1) ->
  compact t F -> compact (mkMP (nid x) (q ++ seg k) c 0 d :: inc_parent t q) (append (ups up) (leaf x) F).
Proof.
  intros St U Fr Uq W' Kb K C. assert (WF : wf_ids F) by (destruct St as (f & _ & _ & _ & ?); auto).
  destruct (is_up_kids _ _ U) as [l El].
  destruct (ins_added (ups up) PLast x F l WF El I Fr) as (L1 & L2 & Sp & A).
  change (at_kids (ups up) (ins PLast (leaf x)) F) with (append (ups up) (leaf x) F) in A.
  cbn in Sp. subst L2. destruct A as [A1 A2 A3 A4]. rewrite app_nil_r in A1.
  apply kl_kid_list in A1, A2, A3.
  intros r up' y Hr Hy Ey. destruct Hr as [<-|Hr].
  - cbn [m_pk m_path] in *. assert (Hx : In x (kl (ups up) (append (ups up) (leaf x) F))) by (rewrite A2; apply in_app_iff; cbn; auto).
    destruct (kl_unique _ _ _ _ _ W' Hy Hx Ey) as (-> & ->). rewrite A2, app_length. cbn [length].
    unfold sv. rewrite last_step_app by (auto; apply (seg_len cfg radix2 step1); auto). rewrite (seg_val cfg radix2).
    destruct K as [->|(last & Hl & Pl & ->)]; [lia|].
    destruct (kl_ex F (m_pk last) WF (stores_in _ _ _ St Hl)) as (q0 & a & Ha & Ea & P0).
    assert (q0 = ups up) by congruence. subst q0. specialize (C _ _ _ Hl Ha Ea). rewrite A1 in C. lia.
  - destruct (inc_parent_in _ _ _ Hr) as (z & Hz & Ez & Ep). rewrite <- Ep.
    assert (Nx : nid y <> nid x). { rewrite Ey, <- Ez. intros E. apply Fr. rewrite <- E. eapply stores_in; eauto. }
    destruct (option_eq_dec_nat up' (ups up)) as [->|Nu].
    + rewrite A2 in Hy. apply in_app_iff in Hy. destruct Hy as [Hy|[<-|[]]]; [|tauto].
      assert (X := C z (ups up) y Hz). rewrite A1 in X. rewrite A2, app_length. specialize (X Hy ltac:(congruence)). lia.
    + destruct (option_eq_dec_nat up' (Some (nid x))) as [->|Nx']; [rewrite A3 in Hy; destruct Hy|].
      assert (E : kl up' (append (ups up) (leaf x) F) = kl up' F) by (unfold kl; rewrite A4; auto).
      rewrite E in *. apply (C z up' y); auto. congruence.
Qed.

(** The reasons of a PathOverflow. *)
Definition full_at (t : mp_table) (F : forest node) (up : option mprow) (q : path) : Prop :=
  (exists last, In last t /\ parent_of (m_pk last) F = Some (ups up) /\ sv cfg (m_path last) = maxstep - 1) \/
  (ups up <> None /\ kl (ups up) F = [] /\ maxlen cfg < length q + w).

Lemma full_not_fits t G u q x : stores t G -> is_up (ups u) G -> ~ In (nid x) (ids G) -> upath t u q -> full_at t G u q ->
  ~ (compact t G /\ fits (append (ups u) (leaf x) G)).
Proof.
  intros S U Fr Uq K (C & Fi).
  assert (WG : wf_ids G) by (destruct S as (f & _ & _ & _ & ?); auto).
  destruct (is_up_kids _ _ U) as [c Ec].
  assert (W' : wf_ids (append (ups u) (leaf x) G)).
  { apply append_wf; auto; [constructor; [intros []|constructor]|]. intros i [<-|[]]. auto. }
  destruct K as [(last & Hl & Pl & Sl)|(Nu & Kl & M)].
  * destruct (kl_ex G (m_pk last) WG (stores_in _ _ _ S Hl)) as (q0 & a & Ha & Ea & P0).
    assert (q0 = ups u) by congruence. subst q0. assert (X := C _ _ _ Hl Ha Ea).
    apply (fits_kl (ups u)) in Fi. rewrite (kl_some _ _ _ (append_kids _ (leaf x) _ _ WG W' Ec)), roots_fapp, app_length in Fi.
    rewrite (kl_some _ _ _ Ec) in X. cbn in Fi. lia.
  * destruct u as [p|]; [|tauto]. destruct Uq as (node & Hn & En & <-). cbn [BulkFacts.ups option_map] in *.
    destruct S as (f & L & _ & <- & _). destruct (lay_in cfg _ _ _ L Hn) as ([q a] & Hx & ->).
    assert (X := height_below x f q a (proj1 L) WG Hx). change (m_pk (mkrow (q, a))) with (nid (fst a)) in En. rewrite En in X.
    destruct Fi as (_ & _ & Fi). change (m_path (mkrow (q, a))) with q in M. lia.
Qed.

(** What load_bulk does when the new nodes come after their siblings. *)
Theorem mp_load_last next keep_ids db F data parent g : stores (db_rows db) F -> ordered o F ->
  (forall p, parent = Some p -> In (m_pk p) (ids F)) -> describes keep_ids next data g ->
  wf_ids g -> (forall i, In i (ids g) -> ~ In i (ids F)) ->
  let up := option_map m_pk parent in follows o (kl up F) g ->
  (exists db', mp_load_bulk cfg next keep_ids db data parent = Ok (db', ids g) /\
     stores (db_rows db') (append up g F) /\ ordered o (append up g F)) \/
  (mp_load_bulk cfg next keep_ids db data parent = Err PathOverflow /\
   ~ (compact (db_rows db) F /\ fits (append up g F))).
Proof.
  intros St O Hp De Wg D up Fo. destruct (prepare_ok _ _ _ _ De) as (m & E). unfold mp_load_bulk. rewrite E. cbn [bind].
  set (P := compact (db_rows db) F).
  destruct (load_ok mp_db mprow (fun db up x => mp_add cfg db up 0 x) m_pk o
    (fun d G => stores (db_rows d) G /\ (P -> compact (db_rows d) G)) (fun d r => In (m_pk r) (map m_pk (db_rows d)))
    (fun G => P /\ fits G) (fun e => e = PathOverflow)) with (g := g) (db := db) (F := F) (up := parent)
    as [(db' & E1 & (S1 & _) & O1 & _)|(e & E1 & -> & N)]; auto.
  - intros d G ((f & _ & _ & _ & W) & _). auto.
  - intros d G r (S & _) H. destruct S as (f & L & _ & <- & _). apply (Permutation_in _ (lay_pks cfg _ _ L)). auto.
  - intros G G' X (P1 & Fi). split; auto. eapply ext_fits; eauto.
  - clear - radix2 step1. intros d G u x (S & C) O Gu Fr Gl.
    assert (U : is_up (ups u) G).
    { intros p Ep. destruct u as [r|]; [|discriminate]. injection Ep as <-. specialize (Gu _ eq_refl).
      destruct S as (f & L & _ & <- & _). apply (Permutation_in _ (lay_pks cfg _ _ L)). auto. }
    destruct (mp_add_last d G u x S U Fr Gl) as (q & Uq & [(k & u' & Kb & E & Eu & S' & K)|(E & K)]).
    + left. eexists _, _, u'. split; [exact E|].
      assert (W' : wf_ids (append (ups u) (leaf x) G)) by (destruct S' as (f & _ & _ & _ & ?); auto).
      unfold added_ok, good_up. cbn [db_rows map m_pk In]. rewrite inc_parent_pks. split.
      * split; auto. intros HP. eapply compact_add; eauto.
      * split; auto. split; auto. split; auto. split; [|auto]. intros p Ep. right.
        destruct u as [r|], u' as [r'|]; try discriminate. injection Ep as <-. cbn in Eu. injection Eu as ->. auto.
    + right. exists PathOverflow. split; auto. split; auto. intros (HP & Fi).
      apply (full_not_fits (db_rows d) G u q x S U Fr Uq K). auto.
  - intros p Ep. specialize (Hp p Ep). destruct St as (f & L & _ & <- & _).
    apply (Permutation_in _ (Permutation_sym (lay_pks cfg _ _ L))). auto.
  - left. exists db'. auto.
Qed.

(** Loading in general: every node goes where adding it would put it. *)
Theorem mp_load_any next keep_ids db F data parent g : stores (db_rows db) F -> ordered o F ->
  (forall p, parent = Some p -> In (m_pk p) (ids F)) -> describes keep_ids next data g ->
  wf_ids g -> (forall i, In i (ids g) -> ~ In i (ids F)) -> (o <> [] -> values_f o g) ->
  let up := option_map m_pk parent in
  (exists db', mp_load_bulk cfg next keep_ids db data parent = Ok (db', ids g) /\
     stores (db_rows db') (sp_load o up g F) /\ ordered o (sp_load o up g F)) \/
  mp_load_bulk cfg next keep_ids db data parent = Err PathOverflow.
Proof.
  intros St O Hp De Wg D V up. destruct (prepare_ok _ _ _ _ De) as (m & E). unfold mp_load_bulk. rewrite E. cbn [bind].
  destruct (load_any mp_db mprow (fun db up x => mp_add cfg db up 0 x) m_pk o (fun d G => stores (db_rows d) G)
    (fun e => e = PathOverflow)) with (g := g) (db := db) (F := F) (up := parent)
    as [(db' & E1 & S1 & O1 & _)|(e & E1 & ->)]; auto.
  - intros d G (f & _ & _ & _ & W). auto.
  - clear - radix2 step1. intros d G u x S O U Fr V. unfold mp_add, sp_add. destruct u as [p|]; cbn [BulkFacts.ups option_map].
    + destruct (add_child_ok cfg radix2 step1 d G p (mkNew (nid x) 0 (ndata x)) S)
        as (nd & Hnd & _ & [(db' & r' & t' & E' & _ & Er & _ & _ & S')|[E' T]]); auto.
      { intros Hs. rewrite is_sorted_sorts in Hs. apply sorts_true in Hs. destruct (O Hs) as [S1 S2].
        apply ordered_splits; auto; destruct (kids_of (Some (m_pk p)) G) as [l|] eqn:El; try constructor;
        destruct (sorted_kids o _ G l S1 S2 El); [apply roots_sorted|apply roots_values]; auto. }
      * left. rewrite E'. cbn [bind]. exists db', r', (Some t'). split; auto.
        split; [unfold opt_gt in S'; rewrite is_sorted_sorts in S'; destruct x; apply S'|].
        split; [apply Er|]. cbn. f_equal. revert E'. unfold add_child. destruct (get_by_pk _ _); cbn [bind]; [|discriminate].
        destruct (_ && _).
        -- destruct (opt_res _ _); cbn [bind]; [|discriminate]. destruct (add_sibling _ _ _ _ _) as [[]|]; cbn [bind]; [|discriminate].
           intros H. injection H as _ _ <-. auto.
        -- match goal with |- context [bind ?e _] => destruct e end; cbn [bind]; [|discriminate].
           destruct (save_row _ _); cbn [bind]; [|discriminate]. intros H. injection H as _ _ <-. auto.
      * right. rewrite E'. exists PathOverflow. auto.
    + destruct (add_root_ok cfg radix2 step1 d G (mkNew (nid x) 0 (ndata x)) S) as [(db' & r & E & _ & Er & _ & S')|[E T]]; auto.
      { simpl. intros Hs. rewrite is_sorted_sorts in Hs. apply sorts_true in Hs.
        destruct (O Hs). apply ordered_splits; auto; [apply roots_sorted|apply roots_values]; auto. }
      * left. rewrite E. cbn [bind]. exists db', r, None. split; auto.
        split; [unfold opt_gt in S'; rewrite is_sorted_sorts in S'; destruct x; apply S'|]. auto.
      * right. rewrite E. exists PathOverflow. auto.
  - intros p Ep. destruct parent as [q|]; [|discriminate]. injection Ep as <-. auto.
  - left. exists db'. auto.
Qed.
End MP.
