(** add_sibling, add_root and add_child on tables that store a forest. *)
From Coq Require Import String List Arith Lia Bool Permutation Sorted.
From Verif Require Import Prelude Forest NumConv SpecFacts PathTab PathMove CommonModel MPModel MPStep MPInv
  MPShift MPReorder.
Import ListNotations.

Lemma nodes_split (l : kf) L1 L2 : nodes l = L1 ++ L2 ->
  exists l1 l2, l = fapp l1 l2 /\ nodes l1 = L1 /\ nodes l2 = L2.
Proof.
  intros E. apply map_app_split in E. destruct E as (R1 & R2 & E & E1 & E2).
  apply roots_app_split in E. destruct E as (l1 & l2 & -> & F1 & F2).
  exists l1, l2. rewrite F1, F2. auto.
Qed.

(** Ids of siblings are different. *)
Lemma nodes_NoDup q pa (l l' f f' : kf) : At q pa l l' f f' ->
  (forall a a', pa = Some (a, a') -> fst a = fst a') -> wf_ids (kerase f) -> NoDup (map nid (nodes l)).
Proof.
  intros H E W. assert (C := At_Ctx fst H E). assert (Wl := Ctx_wf_l C W).
  change (erase fst l) with (kerase l) in Wl. rewrite <- kerase_roots.
  clear - Wl. revert Wl. generalize (kerase l). intros g. induction g as [|a k IHk r IHr]; simpl; intros Wl.
  - constructor.
  - apply wf_cons_inv in Wl. constructor; [|tauto]. intros Hi. apply Wl.
    apply in_map_iff in Hi. destruct Hi as (x & <- & Hx). unfold ids. apply in_map.
    apply roots_preorder; auto.
Qed.

Lemma pid_fst (pa : option (payload * payload)) : pold pa = pnew pa ->
  forall a a', pa = Some (a, a') -> fst a = fst a'.
Proof. intros E a a' ->. simpl in E. congruence. Qed.

Section Add.
Variable cfg : mp_cfg.
Hypothesis radix2 : 2 <= radix cfg.
Hypothesis step1 : 1 <= steplen cfg.
Notation R := (radix cfg).
Notation w := (steplen cfg).
Notation mkrow := (mkrow cfg).
Notation kpwf := (kpwf cfg).
Notation kvalid := (kvalid cfg).
Notation lay := (lay cfg).
Notation seg := (seg cfg).
Notation maxstep := (maxstep cfg).

(** Where a row is. *)
Lemma locate t f r : lay t f -> In r t ->
  exists q s pa l1 a c l2 n, r = mkrow (q ++ s, a) /\ pold pa = pnew pa /\
    At q pa (fapp l1 (Cons (s, a) c l2)) (fapp l1 (Cons (s, a) c l2)) f f /\
    length q = n * w /\ m_depth r = S n /\ (pa = None <-> q = []).
Proof.
  intros L Hr. destruct (lay_in cfg _ _ _ L Hr) as ([p a] & Hx & ->).
  assert (W : kpwf f) by apply L.
  destruct (@row_siblings _ _ _ _ _ Hx) as (q & s & up & l & -> & Hs & Hl).
  destruct (Hl l up (iff_refl _)) as [f' H].
  set (pa := match up with Some x => match up with Some y => Some (x, y) | None => None end | None => None end) in H.
  assert (Ep : pold pa = pnew pa) by (destruct up; reflexivity).
  assert (f = f') by (eapply At_same; eauto). subst f'.
  destruct (@roots_split _ _ _ _ Hs) as (l1 & c & l2 & ->).
  destruct (k_At_len cfg step1 _ _ _ _ _ _ H W) as [n En].
  exists q, s, pa, l1, a, c, l2, n. repeat split; auto.
  - change (m_depth (mkrow (q ++ s, a))) with (length (q ++ s) / w).
    rewrite (root_row_len cfg _ _ _ _ _ _ _ _ H W Hs), En.
    replace (n * w + w) with (S n * w) by (simpl; lia). apply Nat.div_mul. lia.
  - intros E. rewrite E in H. inversion H; auto.
  - intros E. destruct pa as [aa|] eqn:Epa; auto. exfalso.
    apply (k_At_nonempty cfg step1 _ _ _ _ _ _ H W E).
Qed.

(** *** Inserting one row *)

Definition bump (a : payload) : payload := (fst a, S (snd a)).

Lemma upd_nc_mk q x : upd_nc q S (mkrow x) = mkrow (updrow Nat.ltb q bump x).
Proof. unfold upd_nc, updrow. simpl. unfold peq. destruct (leq Nat.ltb (fst x) q); auto. Qed.

Definition pa_bump (pa : option (payload * payload)) : option (payload * payload) :=
  option_map (fun aa => (fst aa, bump (fst aa))) pa.

Definition inc_parent (t : mp_table) (q : path) : mp_table :=
  match q with [] => t | _ => map (upd_nc q S) t end.

(** The row [x] goes to the free step [k] of the list at [q], the count of the
    parent is incremented. *)
Lemma insert_ok t f q pa m1 m2 k n :
  lay t f -> nc_ok f -> At q pa (fapp m1 m2) (fapp m1 m2) f f -> pold pa = pnew pa ->
  (pa = None <-> q = []) -> 1 <= k -> k < maxstep ->
  (forall x, In x (roots m1) -> plt (fst x) (seg k) = true) ->
  (forall x, In x (roots m2) -> plt (seg k) (fst x) = true) ->
  exists f2, At q (pa_bump pa) (fapp m1 m2) (fapp m1 (Cons (seg k, (n, 0)) Nil m2)) f f2 /\
    lay (mkrow (q ++ seg k, (n, 0)) :: inc_parent t q) f2 /\ nc_ok f2 /\
    (forall r, In r (inc_parent t q) -> peq (m_path r) (q ++ seg k) = false) /\
    map m_pk (inc_parent t q) = map m_pk t.
Proof.
  intros L N H Ep Eq K1 K2 O1 O2.
  assert (W : kpwf f) by apply L. assert (V : kvalid f) by apply L.
  assert (Wl := k_At_pwf_l cfg _ _ _ _ _ _ H W).
  assert (Vl := kvalid_At_l cfg _ _ _ _ _ _ H V).
  assert (Nl := nc_At_l _ _ _ _ _ _ H N).
  (* step 1: the counter *)
  assert (exists f1 pb, At q (pa_bump pa) (fapp m1 m2) (fapp m1 m2) f f1 /\
            lay (inc_parent t q) f1 /\ pold pb = pnew pb /\ pold pb = pnew (pa_bump pa) /\
            pcomp (pa_bump pa) pb = pa_bump pa) as (f1 & pb & H1 & L1 & Epb & Epb' & Epc).
  { destruct pa as [[a a']|].
    - simpl in Ep. injection Ep as <-.
      destruct (@At_upd _ Nat.ltb w payload irr ltb_tot' step1 _ _ _ _ _ H W bump) as (f1 & H1 & P1).
      exists f1, (Some (bump a, bump a)). simpl. split; auto. split; auto.
      assert (Hq : q <> []) by (intros ->; destruct Eq as [_ Eq]; discriminate (Eq eq_refl)).
      split; [|split].
      + apply (k_At_pwf cfg _ _ _ _ _ _ H1 W Wl).
      + apply (kvalid_At cfg _ _ _ _ _ _ H1 V Vl).
      + unfold inc_parent. destruct q as [|d q]; [congruence|].
        destruct L as (_ & _ & P). rewrite P, map_map.
        rewrite (map_ext _ _ (upd_nc_mk (d :: q))). rewrite <- (map_map (updrow Nat.ltb (d :: q) bump) mkrow).
        apply Permutation_map. auto.
    - destruct Eq as [Eq _]. rewrite (Eq eq_refl) in *. exists f, None. simpl. auto 6. }
  destruct (@At_chain _ _ _ _ _ _ _ _ H1 pb (fapp m1 (Cons (seg k, (n, 0)) Nil m2)) Epb') as (f2 & H2 & H3).
  rewrite Epc in H3.
  assert (W1 : kpwf f1) by apply L1.
  assert (W2 : kpwf f2).
  { apply (k_At_pwf cfg _ _ _ _ _ _ H2 W1). apply pwf_insert; auto using irr.
    - constructor.
    - apply seg_len; auto. }
  assert (V2 : kvalid f2).
  { apply (kvalid_At cfg _ _ _ _ _ _ H3 V). apply kvalid_fapp. rewrite kvalid_cons.
    apply kvalid_fapp in Vl. simpl. repeat split; try tauto.
    - apply seg_len; auto.
    - apply seg_digits; auto.
    - rewrite seg_val; auto.
    - constructor. }
  assert (P2 := At_insert_rows Nat.ltb irr ltb_tot' step1 _ _ _ _ _ H2 Epb).
  exists f2. split; auto. split; [|split; [|split]].
  - split; [|split]; auto. destruct L1 as (_ & _ & P1). rewrite P2, map_app, <- P1.
    simpl. apply Permutation_cons_append.
  - apply (nc_At _ _ _ _ _ _ H3 N).
    + apply nc_fapp. simpl. apply nc_fapp in Nl. tauto.
    + intros a a' E. destruct pa as [[b b']|]; [|discriminate]. simpl in E. injection E as <- <-.
      simpl. rewrite (nc_At_par _ _ _ _ _ _ _ H N), !roots_fapp, !app_length. simpl. lia.
  - intros r Hr. apply peq_false. intros E.
    destruct (lay_in cfg _ _ _ L1 Hr) as (x & Hx & ->). simpl in E.
    assert (ND := k_NoDup cfg step1 f2 W2).
    rewrite (Permutation_map fst P2), map_app in ND. apply NoDup_app_iff in ND.
    destruct ND as (_ & _ & ND). apply (ND (q ++ seg k)).
    + rewrite <- E. apply in_map. auto.
    + simpl. auto.
  - unfold inc_parent. destruct q; auto. rewrite map_map. apply map_ext. intros r.
    unfold upd_nc. destruct (peq _ _); auto.
Qed.

Lemma save_fresh db r : (forall x, In x (db_rows db) -> peq (m_path x) (m_path r) = false) ->
  ~ In (m_pk r) (map m_pk (db_rows db)) -> save_row db r = Ok (mkDB (r :: db_rows db) (db_sig db)).
Proof.
  intros H1 H2. unfold save_row. rewrite (proj2 (existsb_false _ _)).
  - rewrite (proj2 (existsb_false _ _)); auto. intros x Hx. apply Nat.eqb_neq. intros E. apply H2.
    rewrite <- E. apply in_map. auto.
  - intros x Hx. rewrite H1; auto.
Qed.

(** The place the specification asks for. *)
Lemma split_place p q pa l l1 st a c l2 f gt m1 m2 :
  At q pa l l f f -> pold pa = pnew pa -> wf_ids (kerase f) -> l = fapp l1 (Cons (st, a) c l2) ->
  is_sib_pos p ->
  match p with
  | Left => nodes m1 = nodes l1 /\ nodes m2 = nodes (Cons (st, a) c l2)
  | Right => nodes m1 = nodes (fapp l1 (Cons (st, a) c Nil)) /\ nodes m2 = nodes l2
  | FirstSibling => nodes m1 = [] /\ nodes m2 = nodes l
  | LastSibling => nodes m1 = nodes l /\ nodes m2 = []
  | _ => (forall x, In x (nodes m1) -> gt x = false) /\ (forall x, In x (nodes m2) -> gt x = true)
  end -> ins_split (sib_place p (nid (fst a)) gt) (nodes m1) (nodes m2).
Proof.
  intros H Ep WF El P HP.
  assert (ND := nodes_NoDup _ _ _ _ _ _ H (pid_fst _ Ep) WF). rewrite El in ND.
  rewrite roots_fapp, !map_app in ND. simpl in ND. apply NoDup_remove_2 in ND.
  rewrite in_app_iff in ND.
  destruct p; simpl in *; try tauto; try (destruct P).
  - destruct HP as [-> ->]. simpl. split.
    + intros x Hx E. apply ND. left. rewrite <- E. apply in_map. auto.
    + eauto.
  - destruct HP as [-> _]. rewrite roots_fapp, map_app. simpl.
    exists (nodes l1), (fst a). repeat split; auto.
    intros x Hx E. apply ND. left. rewrite <- E. apply in_map. auto.
  - destruct HP as [HP1 HP2]. split; auto. intros b L E. apply HP2. rewrite E. simpl. auto.
Qed.

(** What add_sibling does before the row is written: for every position the
    room is made at the place the specification asks for. *)
Lemma find_room db f q pa l1 st a c l2 n p gt d :
  lay (db_rows db) f -> wf_ids (kerase f) -> pold pa = pnew pa ->
  At q pa (fapp l1 (Cons (st, a) c l2)) (fapp l1 (Cons (st, a) c l2)) f f ->
  length q = n * w -> is_sib_pos p ->
  (forall x, gt x = sorted_after (order_by cfg) d (ndata x)) ->
  (p = SortedSibling -> splits gt (nodes (fapp l1 (Cons (st, a) c l2)))) ->
  let target := mkrow (q ++ st, a) in
  let room := do '(p, newpos, siblings) <-
    match p with
    | SortedSibling =>
        let siblings := sorted_siblings cfg (db_rows db) target d in
        match hd_error siblings with
        | Some first => do n <- get_lastpos cfg (m_path first); Ok (p, Some n, siblings)
        | None => Ok (LastSibling, None, siblings)
        end
    | _ => Ok (p, None, [])
    end;
    reorder cfg db p newpos (S n) target siblings None in
  (exists db' k f' m1 m2 tp, room = Ok (db', None, q ++ seg k, tp) /\ lay (db_rows db') f' /\
     opened cfg q pa (fapp l1 (Cons (st, a) c l2)) f k f' m1 m2 /\
     ins_split (sib_place p (nid (fst a)) gt) (nodes m1) (nodes m2)) \/
  (room = Err PathOverflow /\ is_full cfg (fapp l1 (Cons (st, a) c l2))).
Proof.
  intros L WF Ep H Eq P Gt Sp target room.
  set (l := fapp l1 (Cons (st, a) c l2)) in *.
  assert (Hs : In (st, a) (roots l)) by (unfold l; rewrite roots_fapp, in_app_iff; simpl; auto).
  assert (W : kpwf f) by apply L. assert (V : kvalid f) by apply L.
  assert (Wl := k_At_pwf_l cfg _ _ _ _ _ _ H W).
  assert (Vl := kvalid_At_l cfg _ _ _ _ _ _ H V).
  assert (Epath : forall k, get_path cfg (m_path target) (S n) k = q ++ seg k).
  { intros k. apply get_path_app. auto. }
  (* the branch that appends *)
  assert (Last : forall p' np sb, goes_last cfg (db_rows db) p' target = true ->
     ins_split (sib_place p (nid (fst a)) gt) (nodes l) [] ->
     (exists db' k f' m1 m2 tp, reorder cfg db p' np (S n) target sb None = Ok (db', None, q ++ seg k, tp) /\
        lay (db_rows db') f' /\ opened cfg q pa l f k f' m1 m2 /\
        ins_split (sib_place p (nid (fst a)) gt) (nodes m1) (nodes m2)) \/
     (reorder cfg db p' np (S n) target sb None = Err PathOverflow /\ is_full cfg l)).
  { intros p' np sb GL Hi.
    destruct (reorder_add_last cfg radix2 step1 db f q pa l st a p' (S n) sb np L H Hs GL) as [(k & E & O)|HE].
    - left. exists db, k, f, l, Nil, (q ++ st). auto.
    - right. auto. }
  (* the branch that shifts *)
  assert (Mid : forall p' np sb k h1 h2, goes_last cfg (db_rows db) p' target = false ->
     hole cfg l k h1 h2 ->
     match np with Some n => Ok (n, sb) | None => reorder_pos cfg (db_rows db) p' target end
       = Ok (k, sibrows cfg q h2) ->
     (forall m1 m2, nodes m1 = nodes h1 -> nodes m2 = nodes h2 ->
        ins_split (sib_place p (nid (fst a)) gt) (nodes m1) (nodes m2)) ->
     (exists db' k f' m1 m2 tp, reorder cfg db p' np (S n) target sb None = Ok (db', None, q ++ seg k, tp) /\
        lay (db_rows db') f' /\ opened cfg q pa l f k f' m1 m2 /\
        ins_split (sib_place p (nid (fst a)) gt) (nodes m1) (nodes m2)) \/
     (reorder cfg db p' np (S n) target sb None = Err PathOverflow /\ is_full cfg l)).
  { intros p' np sb k h1 h2 GL Ho Er Hi.
    destruct (reorder_add_mid cfg radix2 step1 db f q pa l k h1 h2 target p' (S n) np sb L H Ep Ho GL Er (Epath k))
      as [(db' & f' & m1 & m2 & tp & E & L' & O & E1 & E2)|HE].
    - left. exists db', k, f', m1, m2, tp. split; [auto|]. split; [auto|]. split; [auto|].
      apply Hi; apply map_snd_roots_nodes; auto.
    - right. auto. }
  assert (SP := fun p gt m1 m2 => split_place p q pa l l1 st a c l2 f gt m1 m2 H Ep WF eq_refl).
  (* explicit positions *)
  assert (Expl : (p = Left \/ p = Right \/ p = FirstSibling) ->
     goes_last cfg (db_rows db) p target = false ->
     (exists db' k f' m1 m2 tp, reorder cfg db p None (S n) target [] None = Ok (db', None, q ++ seg k, tp) /\
        lay (db_rows db') f' /\ opened cfg q pa l f k f' m1 m2 /\
        ins_split (sib_place p (nid (fst a)) gt) (nodes m1) (nodes m2)) \/
     (reorder cfg db p None (S n) target [] None = Err PathOverflow /\ is_full cfg l)).
  { intros Hp GL.
    destruct (reorder_pos_ok cfg radix2 step1 (db_rows db) f q pa l l1 st a c l2 p L H eq_refl WF Ep GL Hp)
      as (k & h1 & h2 & Er & Ho & _ & Hh).
    apply (Mid p None [] k h1 h2 GL Ho Er). intros m1 m2 E1 E2. apply SP; auto.
    destruct Hp as [->|[->| ->]]; destruct Hh as [-> ->]; auto. }
  unfold room. destruct p; try (destruct P); cbn [bind].
  - apply Expl; auto.
  - apply Expl; auto.
  - destruct (goes_last cfg (db_rows db) Right target) eqn:GL.
    + apply Last; auto.
      (* the target is the last one *)
      assert (E2 : l2 = Nil).
      { unfold goes_last in GL. destruct (last_split l) as (l1' & s' & a' & c' & El').
        { intros E. rewrite E in Hs. destruct Hs. }
        unfold target in GL. rewrite (last_sib cfg radix2 step1 _ f q pa l l1' s' a' c' st a L H Hs El') in GL.
        simpl in GL. apply Nat.eqb_eq in GL.
        assert (ND := nodes_NoDup _ _ _ _ _ _ H (pid_fst _ Ep) WF).
        destruct (last_opt (roots l2)) as [[s2 a2]|] eqn:E2.
        - exfalso. apply last_opt_Some in E2. destruct E2 as [L2 E2].
          assert (Er : roots l = (roots l1 ++ (st, a) :: L2) ++ [(s2, a2)]).
          { unfold l. rewrite roots_fapp. simpl. rewrite E2, <- app_assoc. auto. }
          assert (Er' : roots l = roots l1' ++ [(s', a')]) by (rewrite El', roots_fapp; auto).
          rewrite Er in Er'. apply app_inj_tail in Er'. destruct Er' as [_ Er']. injection Er' as <- <-.
          rewrite Er, !map_app in ND. simpl in ND. apply NoDup_app_iff in ND. destruct ND as (_ & _ & ND).
          apply (ND (nid (fst a))); simpl; auto. rewrite in_app_iff. simpl. auto.
        - apply last_opt_None in E2. destruct l2; [auto|discriminate]. }
      apply (SP Right gt l Nil); simpl; auto. unfold l. rewrite E2. auto.
    + apply Expl; auto.
  - apply Last; auto. simpl. auto.
  - (* sorted *)
    destruct (Sp eq_refl) as (L1 & L2 & EL & G1 & G2).
    destruct (nodes_split _ _ _ EL) as (h1 & h2 & El & E1 & E2).
    assert (Sib : sorted_siblings cfg (db_rows db) target d = sibrows cfg q h2).
    { unfold sorted_siblings, target.
      rewrite (get_siblings_lay cfg radix2 step1 _ f q pa l l f st a L H Hs). rewrite El.
      apply filter_sib.
      - intros x Hx. simpl. rewrite <- Gt. apply G1. rewrite <- E1. apply (in_map (fun r => fst (snd r))); auto.
      - intros x Hx. simpl. rewrite <- Gt. apply G2. rewrite <- E2. apply (in_map (fun r => fst (snd r))); auto. }
    cbn zeta. rewrite Sib. destruct h2 as [|[s2 a2] c2 r2].
    + change (hd_error (sibrows cfg q Nil)) with (@None mprow). cbn [bind]. apply Last; auto.
      simpl. rewrite fapp_nil_r in El. rewrite El, E1. split; auto. discriminate.
    + change (hd_error (sibrows cfg q (Cons (s2, a2) c2 r2))) with (Some (mkrow (q ++ s2, a2))).
      cbn iota.
      assert (H2 : In (s2, a2) (roots l)) by (rewrite El, roots_fapp, in_app_iff; simpl; auto).
      assert (V2 := kvalid_roots cfg _ _ Vl H2). simpl in V2.
      change (m_path (mkrow (q ++ s2, a2))) with (q ++ s2).
      rewrite get_lastpos_ok by auto. cbn [bind].
      apply (Mid SortedSibling (Some (undigits R s2)) _ (undigits R s2) h1 (Cons (s2, a2) c2 r2)); auto.
      * rewrite El in Wl. destruct (mid_order cfg _ _ _ _ _ Wl) as [O1 O2].
        repeat split; auto.
        { apply V2. } { apply vseg_bound; auto. }
        { rewrite seg_undigits by auto. auto. }
        { rewrite seg_undigits by auto. intros x [<-|Hx]; simpl; [apply plt_irr|apply plt_asym; auto]. }
      * intros m1 m2 F1 F2. apply SP; [exact I|].
        rewrite F1, F2, E1, E2. auto.
Qed.

(** Step [maxstep - 1] (all characters the last of the alphabet) below [q] is in the table. *)
Definition step_taken (t : mp_table) (q : path) : Prop :=
  exists r, In r t /\ m_path r = q ++ repeat (R - 1) w.

Lemma max_seg s : vseg cfg s -> undigits R s = maxstep - 1 -> s = repeat (R - 1) w.
Proof.
  intros (L & D & _) E. assert (M1 := maxstep_gt1 cfg radix2 step1).
  apply undigits_inj with R; auto.
  - rewrite repeat_length. auto.
  - apply Forall_forall. intros d Hd. apply repeat_spec in Hd. lia.
  - rewrite E. unfold MPStep.maxstep. clear - radix2. induction w as [|n IH]; [reflexivity|].
    simpl repeat. rewrite undigits_cons, repeat_length. rewrite <- IH. simpl.
    assert (1 <= R ^ n) by (apply Nat.neq_0_lt_0, Nat.pow_nonzero; lia). nia.
Qed.

Lemma full_taken t f q pa l l' f' : lay t f -> At q pa l l' f f' -> is_full cfg l -> step_taken t q.
Proof.
  intros L H ([s a] & Hx & E). simpl in E.
  assert (Vl := kvalid_At_l cfg _ _ _ _ _ _ H (proj1 (proj2 L))).
  assert (Vs := kvalid_roots cfg _ _ Vl Hx). simpl in Vs.
  exists (mkrow (q ++ s, a)). split.
  - eapply lay_in_rev; eauto. eapply k_root_in; eauto.
  - simpl. rewrite (max_seg s); auto.
Qed.

(** Rows give unique ids. *)
Lemma lay_wf t f : lay t f -> NoDup (map m_pk t) -> wf_ids (kerase f).
Proof. intros L H. unfold wf_ids. rewrite <- (lay_pks cfg _ _ L). auto. Qed.

Lemma Ctx_up_At q pa (l l' f f' : kf) s : At q pa l l' f f' -> pold pa = pnew pa ->
  wf_ids (kerase f) -> In s (map nid (nodes l)) ->
  parent_of s (kerase f) = Some (option_map (fun z => nid (fst (fst z))) pa) /\
  kids_of (option_map (fun z => nid (fst (fst z))) pa) (kerase f) = Some (kerase l).
Proof.
  intros H E W Hs. assert (C := At_Ctx fst H (pid_fst _ E)).
  rewrite <- kerase_roots in Hs. split.
  - apply (Ctx_parent_of _ C W Hs).
  - apply (Ctx_kids_of C W).
Qed.

Lemma pa_bump_fst pa a a' : pa_bump pa = Some (a, a') -> fst a = fst a'.
Proof. destruct pa as [[b b']|]; simpl; [|discriminate]. intros E. injection E as <- <-. auto. Qed.

Lemma At_stay q pa (l l' f f' : kf) : At q pa l l' f f' -> pold pa = pnew pa -> At q pa l' l' f' f'.
Proof.
  intros H E. destruct (At_chain H pa l' E) as (f'' & H1 & _).
  assert (f' = f'') by (eapply At_same; eauto). subst. auto.
Qed.

Lemma At_erase_same q pa (l l' f f' : kf) : At q pa l l' f f' -> pold pa = pnew pa ->
  kerase l = kerase l' -> kerase f = kerase f'.
Proof.
  intros H E El. assert (C := At_Ctx fst H (pid_fst _ E)).
  change (erase fst l) with (kerase l) in C. change (erase fst l') with (kerase l') in C.
  rewrite El in C. change (erase fst f) with (kerase f) in C. change (erase fst f') with (kerase f') in C.
  revert C. generalize (kerase l') (kerase f) (kerase f'). intros L g g' C.
  remember L as L2 in C at 2. revert HeqL2. induction C; intros; subst; auto; f_equal; auto.
Qed.

Lemma nc_opened q pa (l l' f f' : kf) : At q pa l l' f f' -> pold pa = pnew pa -> nc_ok f ->
  nc_ok l' -> length (roots l') = length (roots l) -> nc_ok f'.
Proof.
  intros H E N N' El. apply (nc_At _ _ _ _ _ _ H N N'). intros a a' ->.
  simpl in E. injection E as <-. rewrite (nc_At_par _ _ _ _ _ _ _ H N). auto.
Qed.

Lemma at_in_new q a a' (l l' f f' : kf) : At q (Some (a, a')) l l' f f' -> In (q, a') (rows f').
Proof.
  intros H. remember (Some (a, a')) as pa eqn:E. revert a a' E. induction H; intros b b' E; try discriminate.
  - injection E as -> ->. simpl. auto.
  - simpl. right. apply in_app_iff. left. apply (in_map (fun z => (fst sb ++ fst z, snd z)) _ _ (IHAt _ _ E)).
  - simpl. right. apply in_app_iff. right. eauto.
Qed.

(** After the room was made: the rest of adding a node. *)
Lemma insert_opened db f q pa l k f' m1 m2 n wh :
  lay (db_rows db) f' -> nc_ok f -> wf_ids (kerase f) -> At q pa l l f f -> pold pa = pnew pa ->
  (pa = None <-> q = []) -> opened cfg q pa l f k f' m1 m2 -> ~ In (nid n) (ids (kerase f)) ->
  ins_split wh (nodes m1) (nodes m2) ->
  let r := mkrow (q ++ seg k, (n, 0)) in
  let db2 := mkDB (inc_parent (db_rows db) q) (db_sig db) in
  exists db3, save_row db2 r = Ok db3 /\ In r (db_rows db3) /\ db_sig db3 = db_sig db /\
  stores cfg (db_rows db3) (at_kids (option_map (fun z => nid (fst (fst z))) pa) (ins wh (leaf n)) (kerase f)) /\
  (forall a a', pa = Some (a, a') -> In (mkrow (q, bump a)) (db_rows db3)).
Proof.
  intros L N WF H Ep Eq (HA & K1 & K2 & O1 & O2 & Ee & En & El) Fr Hi r db2.
  assert (N' : nc_ok f').
  { eapply nc_opened; eauto. apply En. apply (nc_At_l _ _ _ _ _ _ H N). }
  assert (Ke : kerase f = kerase f') by (eapply At_erase_same; eauto).
  assert (H' := At_stay _ _ _ _ _ _ HA Ep).
  destruct (insert_ok (db_rows db) f' q pa m1 m2 k n L N' H' Ep Eq K1 K2 O1 O2)
    as (f2 & H2 & L2 & N2 & Np & Epk).
  assert (Fr' : ~ In (m_pk r) (map m_pk (inc_parent (db_rows db) q))).
  { rewrite Epk. intros Hin. apply Fr. rewrite Ke.
    apply (Permutation_in _ (lay_pks cfg _ _ L)). apply Hin. }
  exists (mkDB (r :: inc_parent (db_rows db) q) (db_sig db)). split.
  { apply (save_fresh db2 r); auto. }
  split; [simpl; auto|]. split; auto. simpl. split.
  2: { intros a a' ->. apply (lay_in_rev cfg _ f2 (q, bump a) L2). apply (at_in_new _ _ _ _ _ _ _ H2). }
  assert (WF2 : wf_ids (kerase f2)).
  { apply (lay_wf _ _ L2). simpl. constructor; auto. rewrite Epk.
    rewrite (lay_pks cfg _ _ L). rewrite <- Ke. auto. }
  exists f2. split; auto. split; auto.
  assert (Er : kerase f2 = at_kids (option_map (fun z => nid (fst (fst z))) pa) (ins wh (leaf n)) (kerase f)).
  { rewrite Ke. apply (insert_spec fst) with (a := (n, 0)) (1 := H2); auto.
    - apply pa_bump_fst.
    - change (erase fst f') with (kerase f'). rewrite <- Ke. auto.
    - destruct pa as [[a a']|]; auto. }
  split; auto. rewrite <- Er. auto.
Qed.

Lemma prepare_add_sib p P : prepare_pos_add (is_sorted cfg) p = Ok P -> is_sib_pos P.
Proof.
  unfold prepare_pos_add, prepare_pos_var.
  set (s := match p with None => _ | Some p => p end).
  destruct (str_in s valid_pos_for_add_sibling) eqn:E; cbn [negb]; [|discriminate].
  destruct (is_sorted cfg && negb (str_in s valid_pos_for_sorted_add_sibling)); [discriminate|].
  destruct (str_in s valid_pos_for_sorted_add_sibling && negb (is_sorted cfg)); [discriminate|].
  cbn [to_pos]. unfold str_in in E. apply existsb_exists in E. destruct E as (x & Hx & Ex).
  apply String.eqb_eq in Ex. rewrite Ex. simpl in Hx.
  repeat (destruct Hx as [<-|Hx]; [simpl; intros E; injection E as <-; exact I|]). destruct Hx.
Qed.

Theorem add_sibling_full db F target p P x :
  stores cfg (db_rows db) F -> In target (db_rows db) -> ~ In (new_pk x) (ids F) -> new_nc x = 0 ->
  prepare_pos_add (is_sorted cfg) p = Ok P ->
  let gt n := sorted_after (order_by cfg) (new_data x) (ndata n) in
  (P = SortedSibling -> splits gt (siblings_of (m_pk target) F)) ->
  (exists db' r, add_sibling cfg db target p x = Ok (db', r) /\ In r (db_rows db') /\
     m_pk r = new_pk x /\ m_data r = new_data x /\
     stores cfg (db_rows db') (sp_add_sibling (m_pk target) P gt (mkNode (new_pk x) (new_data x)) F) /\
     forall r0, In r0 (db_rows db) -> m_path r0 = get_parent_path cfg (m_path target) ->
       In (set_nc r0 (S (m_nc r0))) (db_rows db')) \/
  (add_sibling cfg db target p x = Err PathOverflow /\
   step_taken (db_rows db) (get_parent_path cfg (m_path target))).
Proof.
  intros (f & L & N & <- & WF) Ht Fr Nc Pp gt Sp.
  assert (P' := prepare_add_sib _ _ Pp).
  destruct (locate _ _ _ L Ht) as (q & s & pa & l1 & a & c & l2 & n & -> & Ep & H & En & Ed & Eq).
  set (l := fapp l1 (Cons (s, a) c l2)) in *.
  assert (Hs : In (s, a) (roots l)) by (unfold l; rewrite roots_fapp, in_app_iff; simpl; auto).
  assert (Hn : In (nid (fst a)) (map nid (nodes l))).
  { apply in_map. apply (in_map (fun r : path * payload => fst (snd r))) in Hs. auto. }
  destruct (Ctx_up_At _ _ _ _ _ _ _ H Ep WF Hn) as [Epa Eki].
  change (m_pk (mkrow (q ++ s, a))) with (nid (fst a)) in *.
  assert (Sl : siblings_of (nid (fst a)) (kerase f) = nodes l).
  { unfold siblings_of. rewrite Epa, Eki. apply kerase_roots. }
  rewrite Sl in Sp.
  assert (Ls : length s = w).
  { apply (roots_len Nat.ltb w _ (s, a) (k_At_pwf_l cfg _ _ _ _ _ _ H (proj1 L)) Hs). }
  unfold add_sibling. rewrite Pp. cbn [bind]. rewrite Ed.
  assert (Room := find_room db f q pa l1 s a c l2 n P gt (new_data x) L WF Ep H En P' (fun _ => eq_refl) Sp).
  cbn zeta in Room. fold l in Room.
  unfold sp_add_sibling. rewrite (resolve_sib _ _ _ _ _ P' Epa).
  match type of Room with context [bind ?X ?Y = Ok _] => set (M := X) in * end.
  destruct Room as [(db' & k & f' & m1 & m2 & tp & ER & L' & O & Hi)|[ER Full]].
  - left. destruct M as [[[p' np] sb]|e]; cbn [bind] in *; [|discriminate].
    rewrite ER. cbn [bind]. 
    assert (Eb : get_basepath cfg (q ++ seg k) (S n - 1) = q).
    { simpl. rewrite Nat.sub_0_r. apply get_basepath_app; auto. }
    rewrite Eb.
    destruct (insert_opened db' f q pa l k f' m1 m2 (mkNode (new_pk x) (new_data x)) _
                L' N WF H Ep Eq O Fr Hi) as (db3 & Es & Hr & _ & St & Par).
    assert (Er : mkMP (new_pk x) (q ++ seg k) (S n) (new_nc x) (new_data x)
                 = mkrow (q ++ seg k, (mkNode (new_pk x) (new_data x), 0))).
    { unfold MPInv.mkrow. simpl. rewrite Nc. f_equal. rewrite app_length, (seg_len cfg radix2 step1), En by apply O.
      replace (n * w + w) with (S n * w) by (simpl; lia). rewrite Nat.div_mul; lia. }
    rewrite Er.
    replace (match q with [] => db' | _ :: _ => increment_numchild db' q end)
      with (mkDB (inc_parent (db_rows db') q) (db_sig db')) by (destruct q, db'; reflexivity).
    rewrite Es. cbn [bind]. eexists _, _. split; [reflexivity|]. split; auto. split; auto. split; auto. split; auto.
    intros r0 Hr0 Er0. simpl in Er0. rewrite get_parent_path_app in Er0 by auto.
    destruct (lay_in cfg _ _ _ L Hr0) as ([p0 a0] & Hx0 & ->). simpl in Er0. subst p0.
    destruct pa as [[b b']|].
    + simpl in Ep. injection Ep as <-. assert (Hb := k_At_in cfg step1 _ _ _ _ _ _ _ H).
      assert (a0 = b) as -> by (apply (k_inj cfg step1 f q a0 b (proj1 L) Hx0 Hb)).
      apply (Par b b eq_refl).
    + assert (q = []) by (apply Eq; auto). subst q. exfalso. destruct (k_len cfg step1 _ _ (proj1 L) Hx0) as [z E0]. simpl in E0. lia.
  - right. destruct M as [[[p' np] sb]|e]; cbn [bind] in *.
    + rewrite ER. split; auto. simpl m_path. rewrite get_parent_path_app by auto.
      apply (full_taken _ _ _ _ _ _ _ L H Full).
    + split; [congruence|]. simpl m_path. rewrite get_parent_path_app by auto.
      apply (full_taken _ _ _ _ _ _ _ L H Full).
Qed.

Theorem add_sibling_ok db F target p P x :
  stores cfg (db_rows db) F -> In target (db_rows db) -> ~ In (new_pk x) (ids F) -> new_nc x = 0 ->
  prepare_pos_add (is_sorted cfg) p = Ok P ->
  let gt n := sorted_after (order_by cfg) (new_data x) (ndata n) in
  (P = SortedSibling -> splits gt (siblings_of (m_pk target) F)) ->
  (exists db' r, add_sibling cfg db target p x = Ok (db', r) /\ In r (db_rows db') /\
     m_pk r = new_pk x /\ m_data r = new_data x /\
     stores cfg (db_rows db') (sp_add_sibling (m_pk target) P gt (mkNode (new_pk x) (new_data x)) F)) \/
  (add_sibling cfg db target p x = Err PathOverflow /\
   step_taken (db_rows db) (get_parent_path cfg (m_path target))).
Proof.
  intros St Ht Fr Nc Pp gt Sp.
  destruct (add_sibling_full db F target p P x St Ht Fr Nc Pp Sp) as [(db' & r & E & H1 & H2 & H3 & H4 & _)|H]; auto.
  left. exists db', r. auto.
Qed.

(** *** add_root and add_child *)

Lemma opened_nil q pa f : At q pa Nil Nil f f -> opened cfg q pa Nil f 1 f Nil Nil.
Proof.
  intros H. repeat split; auto; simpl; try tauto. apply maxstep_gt1; auto.
Qed.

Lemma mkrow_new x q k n d : new_nc x = 0 -> k < maxstep -> length q = n * w -> d = S n ->
  mkMP (new_pk x) (q ++ seg k) d (new_nc x) (new_data x)
  = mkrow (q ++ seg k, (mkNode (new_pk x) (new_data x), 0)).
Proof.
  intros Nc K En ->. unfold MPInv.mkrow. simpl. rewrite Nc. f_equal.
  rewrite app_length, (seg_len cfg radix2 step1), En by auto.
  replace (n * w + w) with (S n * w) by (simpl; lia). rewrite Nat.div_mul; lia.
Qed.

Definition opt_gt (x : newobj) : option (node -> bool) :=
  if is_sorted cfg then Some (fun n => sorted_after (order_by cfg) (new_data x) (ndata n)) else None.

Theorem add_root_ok db F x :
  stores cfg (db_rows db) F -> ~ In (new_pk x) (ids F) -> new_nc x = 0 ->
  let gt n := sorted_after (order_by cfg) (new_data x) (ndata n) in
  (is_sorted cfg = true -> splits gt (roots F)) ->
  (exists db' r, add_root cfg db x = Ok (db', r) /\ In r (db_rows db') /\
     m_pk r = new_pk x /\ m_data r = new_data x /\
     stores cfg (db_rows db') (sp_add_root (opt_gt x) (mkNode (new_pk x) (new_data x)) F)) \/
  (add_root cfg db x = Err PathOverflow /\ step_taken (db_rows db) []).
Proof.
  intros St Fr Nc gt Sp. assert (St' := St). destruct St' as (f & L & N & EF & WF).
  unfold add_root, get_last_root_node. rewrite (get_root_nodes_lay cfg radix2 step1 _ f L).
  assert (HA := At_top f f).
  assert (Eq : @None (payload * payload) = None <-> @nil nat = []) by tauto.
  assert (Edb : mkDB (inc_parent (db_rows db) []) (db_sig db) = db) by (destruct db; auto).
  assert (Fin : forall k m1 m2, opened cfg [] None f f k f m1 m2 -> is_sorted cfg = false ->
    ins_split PLast (nodes m1) (nodes m2) ->
    let r := mkMP (new_pk x) (seg k) 1 (new_nc x) (new_data x) in
    exists db' r', (do db' <- save_row db r; Ok (db', r)) = Ok (db', r') /\ In r' (db_rows db') /\
     m_pk r' = new_pk x /\ m_data r' = new_data x /\
     stores cfg (db_rows db') (sp_add_root (opt_gt x) (mkNode (new_pk x) (new_data x)) F)).
  { intros k m1 m2 O Hso Hi r. subst F.
    destruct (insert_opened db f [] None f k f m1 m2 (mkNode (new_pk x) (new_data x)) PLast
                L N WF HA eq_refl Eq O Fr Hi) as (db3 & Es & Hr & _ & St3 & Par).
    rewrite Edb in Es.
    change (seg k) with ([] ++ seg k) in r. unfold r.
    rewrite (mkrow_new x [] k 0 1) by (auto; apply O).
    rewrite Es. cbn [bind]. eexists _, _. split; [reflexivity|].
    split; auto. split; auto. split; auto. unfold sp_add_root, opt_gt. rewrite Hso. auto. }
  assert (Hf : f = Nil \/ f <> Nil) by (destruct f; [left; auto|right; discriminate]).
  destruct Hf as [->|Hf].
  - (* the first root *)
    left. simpl last_opt. cbn iota. unfold get_path, get_basepath. simpl firstn. simpl app.
    change (pad cfg (digits R 1)) with (seg 1). subst F.
    destruct (is_sorted cfg) eqn:Hso.
    + destruct (insert_opened db Nil [] None Nil 1 Nil Nil Nil (mkNode (new_pk x) (new_data x)) (PSorted gt)
                L N WF HA eq_refl Eq (opened_nil _ _ _ HA) Fr) as (db3 & Es & Hr & _ & St3 & Par).
      { simpl. split; [tauto|discriminate]. }
      rewrite Edb in Es. cbn zeta. change (seg 1) with ([] ++ seg 1).
      rewrite (mkrow_new x [] 1 0 1) by (auto; apply maxstep_gt1; auto).
      rewrite Es. cbn [bind]. eexists _, _. split; [reflexivity|].
      split; auto. split; auto. split; auto. unfold sp_add_root, opt_gt. rewrite Hso. auto.
    + apply (Fin 1 Nil Nil); auto; [apply opened_nil; auto|reflexivity].
  - destruct (last_split f Hf) as (l1 & s & b & c & El).
    assert (Ela : last_opt (sibrows cfg [] f) = Some (mkrow ([] ++ s, b))).
    { rewrite El, sibrows_fapp. apply (last_opt_app _ (mkrow ([] ++ s, b))). }
    assert (Hs : In (s, b) (roots f)) by (rewrite El, roots_fapp, in_app_iff; simpl; auto).
    rewrite Ela. cbn iota. destruct (is_sorted cfg) eqn:Hso.
    + assert (Hn : In (nid (fst b)) (map nid (nodes f))).
      { apply in_map. apply (in_map (fun r : path * payload => fst (snd r))) in Hs. auto. }
      subst F. destruct (Ctx_up_At _ _ _ _ _ _ _ HA eq_refl WF Hn) as [Epa Eki].
      destruct (add_sibling_ok db (kerase f) (mkrow ([] ++ s, b)) (Some "sorted-sibling"%string) SortedSibling x
         St) as [(db' & r & E & Hr & E1 & E2 & St')|[E T]]; auto.
      * apply (lay_in_rev cfg _ f); auto. eapply k_root_in; eauto.
      * rewrite Hso. reflexivity.
      * intros _. change (m_pk (mkrow ([] ++ s, b))) with (nid (fst b)).
        unfold siblings_of. rewrite Epa, Eki. apply Sp. auto.
      * left. rewrite E. eexists _, _. split; [reflexivity|]. repeat split; auto.
        unfold sp_add_sibling in St'. change (m_pk (mkrow ([] ++ s, b))) with (nid (fst b)) in St'.
        rewrite (resolve_sib SortedSibling _ _ _ _ I Epa) in St'. simpl in St'.
        unfold sp_add_root, opt_gt. rewrite Hso. auto.
      * right. split; auto. change (m_path (mkrow ([] ++ s, b))) with ([] ++ s) in T.
        rewrite get_parent_path_app in T; auto.
        apply (roots_len Nat.ltb w _ (s, b) (proj1 L) Hs).
    + change (m_path (mkrow ([] ++ s, b))) with ([] ++ s).
      destruct (inc_last cfg radix2 step1 _ _ _ _ _ _ _ _ _ L HA El) as [(k & E & O)|[E Fu]]; rewrite E; cbn [bind].
      * left. apply (Fin k f Nil); auto. simpl; auto.
      * right. split; auto. apply (full_taken _ _ _ _ _ _ _ L HA Fu).
Qed.

Lemma upd_pk_path t f r : lay t f -> wf_ids (kerase f) -> In r t ->
  map (upd_nc_pk (m_pk r) S) t = map (upd_nc (m_path r) S) t.
Proof.
  intros L WF Hr. apply map_ext_in. intros y Hy. unfold upd_nc_pk, upd_nc.
  destruct (Nat.eqb_spec (m_pk y) (m_pk r)) as [E|E].
  - rewrite (pk_inj cfg _ _ _ _ L WF Hy Hr E). rewrite peq_refl. auto.
  - replace (peq (m_path y) (m_path r)) with false; auto. symmetry. apply peq_false. intros Ep. apply E.
    destruct (lay_in cfg _ _ _ L Hy) as ([p a] & Hx & ->).
    destruct (lay_in cfg _ _ _ L Hr) as ([p' a'] & Hx' & ->). simpl in *. subst p'.
    rewrite (k_inj cfg step1 _ _ _ _ (proj1 L) Hx Hx'). auto.
Qed.

Theorem add_child_full db F target x :
  stores cfg (db_rows db) F -> In (m_pk target) (ids F) -> ~ In (new_pk x) (ids F) -> new_nc x = 0 ->
  let gt n := sorted_after (order_by cfg) (new_data x) (ndata n) in
  (is_sorted cfg = true -> splits gt (match kids_of (Some (m_pk target)) F with Some l => roots l | None => [] end)) ->
  exists node, In node (db_rows db) /\ m_pk node = m_pk target /\
  ((exists db' r target', add_child cfg db target x = Ok (db', r, target') /\ In r (db_rows db') /\
     m_pk r = new_pk x /\ m_data r = new_data x /\
     (In target (db_rows db) -> target' = set_nc target (S (m_nc target)) /\ In target' (db_rows db')) /\
     stores cfg (db_rows db') (sp_add_child (opt_gt x) (m_pk target) (mkNode (new_pk x) (new_data x)) F)) \/
  (add_child cfg db target x = Err PathOverflow /\
     (step_taken (db_rows db) (m_path node) \/ m_nc node = 0 /\ maxlen cfg < length (m_path node) + w))).
Proof.
  intros St Ht Fr Nc gt Sp. assert (St' := St). destruct St' as (f & L & N & EF & WF). subst F.
  apply (Permutation_in _ (Permutation_sym (lay_pks cfg _ _ L))) in Ht.
  apply in_map_iff in Ht. destruct Ht as (node & Epk & Hn). exists node. split; auto. split; auto.
  assert (Fresh : In target (db_rows db) -> target = node).
  { intros Hin. apply (pk_inj cfg _ _ _ _ L WF Hin Hn). auto. }
  unfold add_child. rewrite <- Epk in *. rewrite (get_by_pk_lay cfg _ f node L WF Hn). cbn [bind].
  destruct (lay_in cfg _ _ _ L Hn) as ([p a] & Hx & ->).
  destruct (@row_kids _ _ _ _ _ Hx) as [l Hl]. destruct (Hl a l) as [f' HA].
  assert (f = f') by (eapply At_same; eauto). subst f'. clear Hl.
  assert (W : kpwf f) by apply L.
  assert (Hq := k_At_nonempty cfg step1 _ _ _ _ _ _ HA W).
  assert (Eq : Some (a, a) = None <-> p = []) by (split; [discriminate|tauto]).
  assert (Nl := nc_At_par _ _ _ _ _ _ _ HA N).
  destruct (depth_spec cfg radix2 step1 _ _ W Hx) as [Dl D1]. simpl fst in Dl.
  set (n := m_depth (mkrow (p, a))) in *.
  assert (Ekid : kids_of (Some (nid (fst a))) (kerase f) = Some (kerase l)).
  { assert (C := At_Ctx fst HA (pid_fst (Some (a, a)) eq_refl)). apply (Ctx_kids_of C WF). }
  change (m_pk (mkrow (p, a))) with (nid (fst a)) in *.
  rewrite Ekid in Sp.
  assert (Edb : mkDB (map (upd_nc_pk (nid (fst a)) S) (db_rows db)) (db_sig db)
              = mkDB (inc_parent (db_rows db) p) (db_sig db)).
  { f_equal. change (nid (fst a)) with (m_pk (mkrow (p, a))). rewrite (upd_pk_path _ f) by auto.
    unfold inc_parent. destruct p; [tauto|]. auto. }
  (* storing the row at a free step *)
  assert (Fin : forall k m1 m2 wh, opened cfg p (Some (a, a)) l f k f m1 m2 ->
    ins_split wh (nodes m1) (nodes m2) ->
    wh = (match opt_gt x with None => PLast | Some g => PSorted g end) ->
    let r := mkMP (new_pk x) (p ++ seg k) (n + 1) (new_nc x) (new_data x) in
    exists db' r' target', (do db2 <- save_row (mkDB (map (upd_nc_pk (nid (fst a)) S) (db_rows db)) (db_sig db)) r;
        Ok (db2, r, set_nc target (S (snd a)))) = Ok (db', r', target') /\ In r' (db_rows db') /\
     m_pk r' = new_pk x /\ m_data r' = new_data x /\
     (In target (db_rows db) -> target' = set_nc target (S (m_nc target)) /\ In target' (db_rows db')) /\
     stores cfg (db_rows db') (sp_add_child (opt_gt x) (nid (fst a)) (mkNode (new_pk x) (new_data x)) (kerase f))).
  { intros k m1 m2 wh O Hi Ewh r.
    destruct (insert_opened db f p (Some (a, a)) l k f m1 m2 (mkNode (new_pk x) (new_data x)) wh
                L N WF HA eq_refl Eq O Fr Hi) as (db3 & Es & Hr & _ & St3 & Par).
    rewrite Edb. unfold r. rewrite (mkrow_new x p k n (n + 1)) by (auto; try lia; apply O).
    rewrite Es. cbn [bind]. eexists _, _, _. split; [reflexivity|].
    split; auto. split; auto. split; auto. split.
    - intros Hin. rewrite (Fresh Hin). split; auto. apply (Par a a eq_refl).
    - unfold sp_add_child. rewrite <- Ewh. auto. }
  assert (Egp : forall k, get_path cfg p (n + 1) k = p ++ seg k).
  { intros k. rewrite Nat.add_1_r. rewrite <- (app_nil_r p) at 1. apply get_path_app. auto. }
  unfold is_leaf. change (m_nc (mkrow (p, a))) with (snd a) in *. change (m_path (mkrow (p, a))) with p.
  destruct (Nat.eqb_spec (snd a) 0) as [E0|E0].
  - (* a leaf *)
    rewrite andb_false_r.
    assert (l = Nil) as -> by (destruct l; [auto|simpl in Nl; lia]).
    rewrite Egp. 
    assert (S1 : length (seg 1) = w) by (apply seg_len; auto; apply maxstep_gt1; auto).
    destruct (Nat.ltb_spec (maxlen cfg) (length (p ++ seg 1))) as [M|M]; cbn [bind].
    + right. split; auto. right. split; auto. rewrite app_length, S1 in M. auto.
    + left. eapply (Fin 1 Nil Nil); [apply opened_nil; auto| |reflexivity].
      destruct (opt_gt x); simpl; auto. split; [tauto|discriminate].
  - (* it has children *)
    rewrite andb_true_r.
    destruct (last_split l) as (l1 & s & b & c & El).
    { intros ->. simpl in Nl. lia. }
    assert (Hs : In (s, b) (roots l)) by (rewrite El, roots_fapp, in_app_iff; simpl; auto).
    assert (Ela : get_last_child cfg (db_rows db) (mkrow (p, a)) = Some (mkrow (p ++ s, b))).
    { unfold get_last_child. rewrite (get_children_lay cfg radix2 step1 _ _ _ _ _ _ _ _ L N HA).
      rewrite El, sibrows_fapp. apply (last_opt_app _ (mkrow (p ++ s, b))). }
    assert (Ls : length s = w).
    { apply (roots_len Nat.ltb w _ (s, b) (k_At_pwf_l cfg _ _ _ _ _ _ HA W) Hs). }
    rewrite Ela. cbn [opt_res bind]. destruct (is_sorted cfg) eqn:Hso.
    + assert (Hnn : In (nid (fst b)) (map nid (nodes l))).
      { apply in_map. apply (in_map (fun r : path * payload => fst (snd r))) in Hs. auto. }
      destruct (Ctx_up_At _ _ _ _ _ _ _ HA eq_refl WF Hnn) as [Epa Eki].
      destruct (add_sibling_full db (kerase f) (mkrow (p ++ s, b)) (Some "sorted-sibling"%string) SortedSibling x
         St) as [(db' & r & E & Hr & E1 & E2 & St' & Par)|[E T]]; auto.
      * apply (lay_in_rev cfg _ f); auto. eapply k_root_in; eauto.
      * rewrite Hso. reflexivity.
      * intros _. change (m_pk (mkrow (p ++ s, b))) with (nid (fst b)).
        unfold siblings_of. rewrite Epa, Eki. apply Sp. auto.
      * left. rewrite E. cbn [bind]. eexists _, _, _. split; [reflexivity|].
        split; auto. split; auto. split; auto. split.
        { intros Hin. split; auto. apply Par; auto. rewrite (Fresh Hin). simpl. rewrite get_parent_path_app by auto. auto. }
        unfold sp_add_sibling in St'. change (m_pk (mkrow (p ++ s, b))) with (nid (fst b)) in St'.
        rewrite (resolve_sib SortedSibling _ _ _ _ I Epa) in St'. simpl in St'.
        unfold sp_add_child, opt_gt. rewrite Hso. auto.
      * right. rewrite E. cbn [bind]. split; auto. left.
        change (m_path (mkrow (p ++ s, b))) with (p ++ s) in T.
        rewrite get_parent_path_app in T; auto.
    + change (m_path (mkrow (p ++ s, b))) with (p ++ s).
      destruct (inc_last cfg radix2 step1 _ _ _ _ _ _ _ _ _ L HA El) as [(k & E & O)|[E Fu]]; rewrite E; cbn [bind].
      * left. eapply (Fin k l Nil); [exact O| |reflexivity]. unfold opt_gt. rewrite Hso. simpl. auto.
      * right. split; auto. left. apply (full_taken _ _ _ _ _ _ _ L HA Fu).
Qed.

Theorem add_child_ok db F target x :
  stores cfg (db_rows db) F -> In (m_pk target) (ids F) -> ~ In (new_pk x) (ids F) -> new_nc x = 0 ->
  let gt n := sorted_after (order_by cfg) (new_data x) (ndata n) in
  (is_sorted cfg = true -> splits gt (match kids_of (Some (m_pk target)) F with Some l => roots l | None => [] end)) ->
  exists node, In node (db_rows db) /\ m_pk node = m_pk target /\
  ((exists db' r target', add_child cfg db target x = Ok (db', r, target') /\ In r (db_rows db') /\
     m_pk r = new_pk x /\ m_data r = new_data x /\
     (In target (db_rows db) -> target' = set_nc target (S (m_nc target))) /\
     stores cfg (db_rows db') (sp_add_child (opt_gt x) (m_pk target) (mkNode (new_pk x) (new_data x)) F)) \/
  (add_child cfg db target x = Err PathOverflow /\
     (step_taken (db_rows db) (m_path node) \/ m_nc node = 0 /\ maxlen cfg < length (m_path node) + w))).
Proof.
  intros St Ht Fr Nc gt Sp.
  destruct (add_child_full db F target x St Ht Fr Nc Sp) as (node & H1 & H2 & [(db' & r & t' & E & H3 & H4 & H5 & H6 & H7)|H]);
    exists node; split; auto; split; auto.
  left. exists db', r, t'. repeat (split; auto). intros Hin. apply H6. auto.
Qed.

End Add.
