(** move on tables that store a forest. *)
From Coq Require Import String List Arith ZArith Lia Bool Permutation Sorted.
From Verif Require Import Prelude Forest NumConv SpecFacts PathTab PathMove CommonModel MPModel MPStep MPInv
  MPCount MPShift MPReorder MPAdd.
Import ListNotations.

(** ** Reordering inside one sibling list, on the specification side *)

Section Move.
Variable cfg : mp_cfg.
Hypothesis radix2 : 2 <= radix cfg.
Hypothesis step1 : 1 <= steplen cfg.
Notation R := (radix cfg).
Notation w := (steplen cfg).
Notation mkrow := (mkrow cfg).
Notation kpwf := (kpwf cfg).
Notation kvalid := (kvalid cfg).
Notation lay := (lay cfg).
Notation seg := (seg cfg).
Notation maxstep := (maxstep cfg).

(** *** The moved row and its siblings *)
Lemma rows_id_inj f x y : wf_ids (kerase f) -> In x (rows f) -> In y (rows f) ->
  nid (fst (snd x)) = nid (fst (snd y)) -> x = y.
Proof.
  intros W Hx Hy E. unfold wf_ids, kerase in W. rewrite erase_ids in W.
  eapply NoDup_map_inj; eauto.
Qed.

Lemma nodes_filter_path f q pa l l' f' np an L : kpwf f -> wf_ids (kerase f) -> At q pa l l' f f' ->
  In (np, an) (rows f) -> (forall r, In r L -> In r (roots l)) ->
  map (fun r : path * payload => fst (snd r)) (filter (fun r => negb (peq (q ++ fst r) np)) L)
  = drop (nid (fst an)) (map (fun r : path * payload => fst (snd r)) L).
Proof.
  intros W WF H Hn Hl. unfold drop. rewrite filter_map. f_equal. apply filter_ext_In. intros [s a] Hs.
  simpl. f_equal. apply Hl in Hs. assert (Hr := k_root_in cfg step1 _ _ _ _ _ _ _ _ H Hs).
  destruct (peq (q ++ s) np) eqn:E.
  - apply peq_iff in E. subst np. symmetry. apply Nat.eqb_eq.
    rewrite (k_inj cfg step1 _ _ _ _ W Hr Hn). auto.
  - apply peq_false in E. symmetry. apply Nat.eqb_neq. intros E2. apply E.
    assert (E3 := rows_id_inj _ _ _ WF Hr Hn E2). congruence.
Qed.

Lemma filter_split_at L1 L2 M1 M2 k : L1 ++ L2 = M1 ++ M2 :> list (path * payload) ->
  (forall r, In r L1 -> plt (fst r) (seg k) = true) -> (forall r, In r M1 -> plt (fst r) (seg k) = true) ->
  (forall r, In r L2 -> plt (seg k) (fst r) = true) -> (forall r, In r M2 -> plt (seg k) (fst r) = true) ->
  L1 = M1 /\ L2 = M2.
Proof.
  intros E H1 H2 H3 H4.
  assert (F := f_equal (filter (fun r => plt (fst r) (seg k))) E).
  rewrite !filter_app in F. rewrite (filter_all _ L1), (filter_all _ M1) in F by auto.
  rewrite (filter_none _ L2), (filter_none _ M2) in F by (intros; apply plt_asym; auto).
  rewrite !app_nil_r in F. subst. apply app_inv_head in E. auto.
Qed.

Lemma nco_row d f : forall p y, nco d p f -> In y (rows f) ->
  (0 <= Z.of_nat (snd (snd y)) + d (p ++ fst y))%Z.
Proof.
  induction f as [|sa k IHk r IHr]; simpl; [tauto|]. intros p y (N1 & N2 & N3) [<-|H].
  - lia.
  - apply in_app_iff in H. destruct H as [H|H]; auto.
    apply in_map_iff in H. destruct H as (z & <- & Hz). simpl. rewrite app_assoc. apply IHk; auto.
Qed.

Lemma set_newpath_pks db old new db' : set_newpath cfg db old new = Ok db' ->
  map m_pk (db_rows db') = map m_pk (db_rows db).
Proof.
  unfold set_newpath. destruct (peq old new); [|destruct (paths_clash _ _ _ _)]; intros E; try discriminate;
    injection E as <-; simpl; auto. rewrite map_map. apply map_ext. intros r. unfold set_row.
  destruct (ppre _ _); auto.
Qed.

Lemma update_counts_pks db op np : 
  map m_pk (db_rows (update_parent_counts cfg db op np)) = map m_pk (db_rows db).
Proof.
  assert (U : forall q g t, map m_pk (map (upd_nc q g) t) = map m_pk t).
  { intros q g t. rewrite map_map. apply map_ext. intros r. unfold upd_nc. destruct (peq _ _); auto. }
  unfold update_parent_counts. destruct (peq _ _); auto.
  destruct (get_parent_path cfg op), (get_parent_path cfg np); simpl; rewrite ?U; auto.
Qed.

(** A branch moves to a free step of the list at [q], and the counts are updated. *)
Lemma finish_move db f q pa l1 l2 np an k :
  lay (db_rows db) f -> nc_ok f -> wf_ids (kerase f) -> In (np, an) (rows f) ->
  At q pa (fapp l1 l2) (fapp l1 l2) f f -> pold pa = pnew pa -> (pa = None <-> q = []) ->
  (pa <> None -> ppre np q = false) -> 1 <= k -> k < maxstep ->
  (forall x, In x (roots l1) -> plt (fst x) (seg k) = true) ->
  (forall x, In x (roots l2) -> plt (seg k) (fst x) = true) ->
  exists db3 f3, set_newpath cfg db np (q ++ seg k) = Ok db3 /\
    lay (db_rows (update_parent_counts cfg db3 np (q ++ seg k))) f3 /\ nc_ok f3 /\ wf_ids (kerase f3) /\
    forall wh, ins_split wh (drop (nid (fst an)) (nodes l1)) (drop (nid (fst an)) (nodes l2)) ->
      kerase f3 = at_kids (option_map (fun z => nid (fst (fst z))) pa)
                    (ins wh (subtree (nid (fst an)) (kerase f))) (remove (nid (fst an)) (kerase f)).
Proof.
  intros L N WF Hn H Ep Eq Np K1 K2 O1 O2.
  assert (W : kpwf f) by apply L.
  assert (Ls : length (seg k) = w) by (apply seg_len; auto).
  assert (Hf : ~ In (seg k) (map fst (roots (fapp l1 l2)))).
  { rewrite in_map_iff. intros (r & Er & Hr). rewrite roots_fapp, in_app_iff in Hr.
    destruct Hr as [Hr|Hr]; [apply O1 in Hr|apply O2 in Hr]; rewrite Er, plt_irr in Hr; discriminate. }
  destruct (@move_general _ Nat.ltb w payload irr ltb_tr' ltb_tot' step1 fst f np an q pa (fapp l1 l2) (seg k)
     W Hn H Ep Np Ls Hf) as (qn & sn & pan & x & c & y & f0 & m1 & m2 & f2 & -> & Lsn & En & Hrem & Hins & W0 & W2 & Er & B1 & B2).
  destruct (set_newpath_ok cfg radix2 step1 db f qn pan x sn an c y f0 q pa m1 (seg k) m2 f2 L Hrem En Hins Ep W2)
    as (_ & db3 & E3 & L3 & _).
  { apply vseg_seg; auto. }
  assert (Hm : roots m1 = filter (fun r => negb (peq (q ++ fst r) (qn ++ sn))) (roots l1) /\
               roots m2 = filter (fun r => negb (peq (q ++ fst r) (qn ++ sn))) (roots l2)).
  { rewrite !roots_fapp, filter_app in Er. apply filter_split_at with k; auto.
    - intros r Hr. apply filter_In in Hr. apply O1. tauto.
    - intros r Hr. apply filter_In in Hr. apply O2. tauto. }
  destruct Hm as [Em1 Em2].
  assert (Nm1 : nodes m1 = drop (nid (fst an)) (nodes l1)).
  { rewrite Em1. apply (nodes_filter_path f q pa (fapp l1 l2) _ _ _ an (roots l1) W WF H Hn).
    intros r. rewrite roots_fapp, in_app_iff. auto. }
  assert (Nm2 : nodes m2 = drop (nid (fst an)) (nodes l2)).
  { rewrite Em2. apply (nodes_filter_path f q pa (fapp l1 l2) _ _ _ an (roots l2) W WF H Hn).
    intros r. rewrite roots_fapp, in_app_iff. auto. }
  assert (Sp : forall wh, ins_split wh (drop (nid (fst an)) (nodes l1)) (drop (nid (fst an)) (nodes l2)) ->
      kerase f2 = at_kids (option_map (fun z => nid (fst (fst z))) pa)
                    (ins wh (subtree (nid (fst an)) (kerase f))) (remove (nid (fst an)) (kerase f))).
  { intros wh Hi. rewrite <- Nm1, <- Nm2 in Hi.
    eapply (move_spec fst) with (1 := Hrem) (3 := Hins); eauto using pid_fst. }
  (* the counts *)
  assert (Nk : forall z, q ++ seg k ++ z <> qn).
  { intros z Ez. destruct (k_At_len cfg step1 _ _ _ _ _ _ Hrem W) as [nn Enn].
    destruct pan as [[b b']|].
    - assert (Hb := k_At_in cfg step1 _ _ _ _ _ _ _ Hrem).
      assert (Hp := no_prefix cfg radix2 step1 _ _ _ _ _ _ _ H W Ls Hf _ Hb). simpl in Hp.
      rewrite <- Ez, app_assoc, ppre_app in Hp. discriminate.
    - assert (E0 : qn = []) by (inversion Hrem; auto). rewrite E0 in Ez. apply app_eq_nil in Ez. destruct Ez as [_ Ez].
      apply app_eq_nil in Ez. destruct Ez as [Ez _]. rewrite Ez in Ls. simpl in Ls. lia. }
  set (d0 := addat (fun _ => 0%Z) qn (-1)).
  assert (N0 : nco d0 [] f0).
  { assert (Nz : nco (fun _ => 0%Z) [] f) by (apply nco_zero; auto).
    assert (Nl := nco_At_l _ _ _ _ _ _ _ Hrem [] Nz). apply nco_fapp in Nl. simpl in Nl.
    assert (Nr := nco_At cfg step1 (fun _ => 0%Z) _ _ _ _ _ _ Hrem En W0 [] Nz).
    simpl app in Nr. unfold d0.
    replace (-1)%Z with (Z.of_nat (length (roots (fapp x y))) - Z.of_nat (length (roots (fapp x (Cons (sn, an) c y)))))%Z.
    - apply Nr. apply nco_fapp. tauto.
    - rewrite !roots_fapp, !app_length. simpl. lia. }
  assert (Nc : snd an = length (roots c) /\ nc_ok c).
  { assert (Nl := nc_At_l _ _ _ _ _ _ Hrem N). apply nc_fapp in Nl. simpl in Nl. tauto. }
  assert (N2 : nco (addat d0 q 1) [] f2).
  { assert (Nl := nco_At_l _ _ _ _ _ _ _ Hins [] N0). apply nco_fapp in Nl. simpl in Nl.
    assert (Nr := nco_At cfg step1 d0 _ _ _ _ _ _ Hins Ep W2 [] N0). simpl app in Nr.
    replace 1%Z with (Z.of_nat (length (roots (fapp m1 (Cons (seg k, an) c m2)))) - Z.of_nat (length (roots (fapp m1 m2))))%Z.
    - apply Nr. apply nco_fapp. simpl. repeat split; try tauto.
      + unfold d0. rewrite addat_other.
        * destruct Nc. lia.
        * intros E. apply (Nk []). rewrite app_nil_r. auto.
      + apply nco_ext with (fun _ => 0%Z).
        * intros z Hz. unfold d0. rewrite addat_other; auto. rewrite <- app_assoc. apply Nk.
        * apply nco_zero. tauto.
    - rewrite !roots_fapp, !app_length. simpl. lia. }
  exists db3.
  assert (Fin : exists f3, lay (db_rows (update_parent_counts cfg db3 (qn ++ sn) (q ++ seg k))) f3 /\
            nc_ok f3 /\ kerase f3 = kerase f2).
  { unfold update_parent_counts. rewrite !get_parent_path_app by auto.
    destruct (peq qn q) eqn:Eqq.
    - apply peq_iff in Eqq. subst qn. exists f2. split; auto. split; auto.
      apply (nco_zero f2 []). eapply nco_ext; [|apply N2]. intros z _.
      unfold d0, addat. destruct (peq _ _); lia.
    - apply peq_false in Eqq.
      assert (S1 : exists f', lay (db_rows (match qn with [] => db3 | _ => decrement_numchild db3 qn end)) f' /\
                 nco (addat (fun _ => 0%Z) q 1) [] f' /\ kerase f' = kerase f2).
      { destruct qn as [|d qn'] eqn:Eqn.
        - exists f2. split; auto. split; auto. eapply nco_ext; [|apply N2]. intros z Hz. simpl app.
          unfold d0, addat. destruct (peq (fst z) []) eqn:E0; auto.
          apply peq_iff in E0. exfalso. apply (k_nonempty cfg step1 _ _ W2 Hz E0).
        - rewrite <- Eqn in *. exists (kupd qn (fun a => (fst a, pred (snd a))) [] f2).
          split; [apply upd_nc_lay; auto|]. split; [|apply kupd_erase; auto].
          apply nco_ext with (addat (addat d0 q 1) qn (- (-1))).
          { intros z _. unfold d0, addat. rewrite <- ?Eqn. simpl app.
            destruct (peq (fst z) qn) eqn:E1, (peq (fst z) q) eqn:E2; auto; lia. }
          apply (kupd_nco cfg step1); auto. intros z Hz Ez. simpl in Ez. simpl.
          assert (Nz := nco_row _ _ _ _ N2 Hz). simpl in Nz. rewrite Ez in Nz.
          rewrite addat_other in Nz by auto. unfold d0 in Nz. rewrite <- ?Eqn in Nz. rewrite addat_same in Nz. lia. }
      destruct S1 as (f' & L' & N' & E').
      destruct q as [|d q'] eqn:Eq'.
      + exists f'. split; auto. split; auto. apply (nco_zero f' []).
        eapply nco_ext; [|apply N']. intros z Hz. simpl app.
        rewrite addat_other; auto. apply (k_nonempty cfg step1 _ _ (proj1 L') Hz).
      + rewrite <- Eq' in *. exists (kupd q (fun a => (fst a, S (snd a))) [] f').
        split; [apply upd_nc_lay; auto|]. split; [|rewrite kupd_erase; auto].
        apply (nco_zero _ []).
        apply nco_ext with (addat (addat (fun _ => 0%Z) q 1) q (- (1))).
        { intros z _. unfold addat. destruct (peq _ _); lia. }
        apply (kupd_nco cfg step1); auto. intros z Hz Ez. simpl. lia. }
  destruct Fin as (f3 & L3' & N3 & E3').
  exists f3. split; auto. split; auto. split; auto. split.
  - apply (lay_wf cfg _ _ L3'). rewrite update_counts_pks, (set_newpath_pks _ _ _ _ E3).
    rewrite (lay_pks cfg _ _ L). auto.
  - rewrite E3'. auto.
Qed.

(** What [reorder] followed by the update of the counts does to a forest when a
    branch moves between [L1] and [L2] in the list of [up]. *)
Definition reorder_moves (f : kf) (up : option nat) (L1 L2 : list node) (n : nat)
  (res : res (mp_db * option path * path * path)) : Prop :=
  exists db' op' np' tp f', res = Ok (db', Some op', np', tp) /\
    lay (db_rows (update_parent_counts cfg db' op' np')) f' /\ nc_ok f' /\ wf_ids (kerase f') /\
    forall wh, ins_split wh (drop n L1) (drop n L2) ->
      kerase f' = at_kids up (ins wh (subtree n (kerase f))) (remove n (kerase f)).

Lemma reorder_move_last db f q pa l np an st a p newdepth sibs newpos :
  lay (db_rows db) f -> nc_ok f -> wf_ids (kerase f) -> In (np, an) (rows f) ->
  At q pa l l f f -> pold pa = pnew pa -> (pa = None <-> q = []) ->
  (pa <> None -> ppre np q = false) -> In (st, a) (roots l) ->
  goes_last cfg (db_rows db) p (mkrow (q ++ st, a)) = true ->
  reorder_moves f (option_map (fun z => nid (fst (fst z))) pa) (nodes l) [] (nid (fst an))
    (reorder cfg db p newpos newdepth (mkrow (q ++ st, a)) sibs (Some np)) \/
  (reorder cfg db p newpos newdepth (mkrow (q ++ st, a)) sibs (Some np) = Err PathOverflow /\ is_full cfg l).
Proof.
  intros L N WF Hn H Ep Eq Np Hs GL.
  destruct (last_split l) as (l1 & s & b & c & El).
  { intros ->. destruct Hs. }
  unfold reorder. rewrite GL. rewrite (last_sib cfg radix2 step1 _ f q pa l l1 s b c st a L H Hs El).
  cbn [opt_res bind]. change (m_path (mkrow (q ++ s, b))) with (q ++ s).
  destruct (inc_last cfg radix2 step1 _ _ _ _ _ _ _ _ _ L H El) as [(k & E & O)|[E Fu]]; rewrite E; cbn [bind].
  - left. destruct O as (_ & K1 & K2 & O1 & _).
    assert (H' : At q pa (fapp l Nil) (fapp l Nil) f f) by (rewrite fapp_nil_r; auto).
    destruct (finish_move db f q pa l Nil np an k L N WF Hn H' Ep Eq Np K1 K2 O1)
      as (db3 & f3 & E3 & L3 & N3 & WF3 & Sp); [intros x []|].
    rewrite E3. cbn [bind]. exists db3, np, (q ++ seg k), (m_path (mkrow (q ++ st, a))), f3. auto.
  - right. auto.
Qed.

Lemma child_in_list q pa (l l' f f' : kf) s a : At q pa l l' f f' -> kpwf f -> In (q ++ s, a) (rows f) ->
  length s = w -> In (s, a) (roots l).
Proof.
  intros H W Hi Ls. assert (F := k_children cfg step1 _ _ _ _ _ _ H W).
  assert (Hz : In (q ++ s, a) (map (pre q) (roots l))).
  { rewrite <- F. apply filter_In. split; auto. simpl. rewrite ppre_app, app_length, Ls, Nat.eqb_refl. auto. }
  apply in_map_iff in Hz. destruct Hz as ([s' a'] & E & Hz). unfold pre in E. simpl in E.
  injection E as E ->. apply app_inv_head in E. subst. auto.
Qed.

Lemma incr_fst es : forall es' k, map fst es = map fst es' -> incr k es -> incr k es'.
Proof.
  induction es as [|[v x] es IH]; intros [|[v' x'] es'] k E; try discriminate; simpl in *; auto.
  injection E as <- E. intros [? ?]. split; auto.
Qed.

Lemma bounded_fst es : forall es', map fst es = map fst es' -> bounded cfg es -> bounded cfg es'.
Proof.
  induction es as [|[v x] es IH]; intros [|[v' x'] es'] E B; try discriminate; simpl in *; [constructor|].
  injection E as <- E. inversion B; subst. constructor; auto. apply IH; auto.
Qed.

Lemma epath_fst q es : forall es', map fst es = map fst es' -> map (epath cfg q) es = map (epath cfg q) es'.
Proof.
  intros es' E. assert (G : forall es, map (epath cfg q) es = map (fun v => q ++ seg v) (map fst es)).
  { intros es0. rewrite map_map. reflexivity. }
  rewrite !G. congruence.
Qed.

Lemma shiftable_small q k es v : (forall e, In e es -> fst e <= v) -> v + 1 < maxstep -> shiftable cfg q k es = true.
Proof.
  intros H B. unfold shiftable. apply forallb_forall. intros e He. apply takeS_incl in He.
  apply H in He. apply Nat.ltb_lt. lia.
Qed.

Lemma last_max l l1 sl al cl : kvalid l -> kpwf l -> l = fapp l1 (Cons (sl, al) cl Nil) ->
  forall x, In x (roots l) -> undigits R (fst x) <= undigits R sl.
Proof.
  intros V W -> x Hx. assert (Vx := kvalid_roots cfg _ _ V Hx).
  assert (Vs : vseg cfg sl).
  { apply (kvalid_roots cfg _ (sl, al) V). rewrite roots_fapp, in_app_iff. simpl. auto. }
  destruct (mid_order cfg _ _ _ _ _ W) as [O1 _].
  rewrite roots_fapp, in_app_iff in Hx. destruct Hx as [Hx|[<-|[]]]; [|simpl; lia].
  apply O1 in Hx. rewrite (plt_vseg cfg) in Hx by auto. apply Nat.ltb_lt in Hx. lia.
Qed.

Lemma move_siblings_pks db op tp l db' op' tp' : move_siblings cfg db op tp l = Ok (db', op', tp') ->
  map m_pk (db_rows db') = map m_pk (db_rows db).
Proof.
  revert db op tp. induction l as [|r l IH]; simpl; intros db op tp E; [congruence|].
  destruct (inc_path cfg (m_path r)) as [inc|]; cbn [bind] in E; [|discriminate].
  destruct (set_newpath cfg db (m_path r) inc) as [db1|] eqn:E1; cbn [bind] in E; [|discriminate].
  rewrite <- (set_newpath_pks _ _ _ _ E1). destruct op; eapply IH; eauto.
Qed.

(** The second half of [reorder] (after the move to the temporary path, if any). *)
Definition reorder_rest (db1 : mp_db) (op : path) (tp : path) (newpath : path) (siblings : list mprow)
  (temp : option path) : res (mp_db * option path * path * path) :=
  do movesiblings <- collect_movesiblings cfg newpath siblings;
  do '(db2, oldpath2, tpath) <- move_siblings cfg db1 (Some op) tp (rev movesiblings);
  match oldpath2 with
  | None => Ok (db2, None, newpath, tpath)
  | Some op2 =>
      do db3 <- set_newpath cfg db2 (match temp with Some x => x | None => op2 end) newpath;
      Ok (db3, Some op2, newpath, tpath)
  end.

Lemma rest_plain db f q pa l k l1 l2 np an tp :
  lay (db_rows db) f -> nc_ok f -> wf_ids (kerase f) -> In (np, an) (rows f) ->
  At q pa l l f f -> pold pa = pnew pa -> (pa = None <-> q = []) ->
  (pa <> None -> ppre np q = false) -> hole cfg l k l1 l2 ->
  reorder_moves f (option_map (fun z => nid (fst (fst z))) pa) (nodes l1) (nodes l2) (nid (fst an))
    (reorder_rest db np tp (q ++ seg k) (sibrows cfg q l2) None) \/
  (reorder_rest db np tp (q ++ seg k) (sibrows cfg q l2) None = Err PathOverflow /\ is_full cfg l).
Proof.
  intros L N WF Hn H Ep Eq Np Ho.
  assert (W : kpwf f) by apply L. assert (V : kvalid f) by apply L.
  assert (Vl := kvalid_At_l cfg _ _ _ _ _ _ H V).
  assert (Wl := k_At_pwf_l cfg _ _ _ _ _ _ H W).
  destruct (hole_ents cfg radix2 step1 _ _ _ _ Vl Wl Ho) as (I & B & Ee).
  destruct Ho as (El & K1 & K2 & O1 & O2).
  assert (V2 : kvalid l2) by (subst l; apply kvalid_fapp in Vl; tauto).
  unfold reorder_rest.
  assert (C := collect_spec cfg radix2 step1 q (ents cfg l2) k (sibrows cfg q l2) K1 K2 I B
                 (sib_paths cfg radix2 step1 q l2 V2)).
  destruct (shiftable cfg q k (ents cfg l2)) eqn:Sh.
  - destruct C as (ms & -> & Em). cbn [bind]. left.
    destruct (move_siblings_spec cfg radix2 step1 q pa Nil (ents cfg l2) k l1 db f (Some np) tp ms [])
      as (db' & f' & op' & tp' & E1 & L1 & H1 & F1); auto.
    + rewrite Ee, fapp_nil_r. subst l. auto.
    + simpl; tauto.
    + rewrite app_nil_r in E1. rewrite E1. cbn [move_siblings bind].
      assert (E1' := E1). cbn [move_siblings] in E1'. apply move_siblings_pks in E1'.
      destruct op' as [op'|]; [|destruct F1]. destruct F1 as (F1 & F2 & F3).
      rewrite !fapp_nil_r, Ee, <- El in H1.
      set (l2' := embed cfg (shiftE cfg q k (ents cfg l2))) in *.
      assert (Ke : kerase f' = kerase f).
      { symmetry. eapply At_erase_same; eauto. unfold l2'.
        rewrite kerase_fapp, (shiftE_erase cfg q (ents cfg l2) k), Ee. subst l. rewrite kerase_fapp. auto. }
      assert (N' : nc_ok f').
      { eapply nc_opened; eauto.
        - assert (Nl := nc_At_l _ _ _ _ _ _ H N). subst l. rewrite !nc_fapp in *. split; [tauto|].
          apply shiftE_nc. rewrite Ee. tauto.
        - unfold l2'. subst l. rewrite !roots_fapp, !app_length, shiftE_len, Ee. auto. }
      assert (H' := At_stay _ _ _ _ _ _ H1 Ep).
      rewrite <- Ke in WF.
      destruct (finish_move db' f' q pa l1 l2' op' an k L1 N' WF (F1 _ Hn) H' Ep Eq)
        as (db3 & f3 & E3 & L3 & N3 & WF3 & Sp); auto.
      { apply shiftE_above; auto. }
      rewrite E3. cbn [bind]. exists db3, op', (q ++ seg k), tp', f3.
      split; auto. split; auto. split; auto. split; auto. rewrite <- Ke.
      intros wh Hi. apply Sp. replace (nodes l2') with (nodes l2); auto.
      apply map_snd_roots_nodes. unfold l2'. rewrite shiftE_payload, Ee. auto.
  - right. rewrite C. split; auto.
    assert (Fe := Sh). apply shiftable_false in Fe; auto. destruct Fe as (e & He & Ex).
    destruct (ents_full cfg _ _ He Ex) as (x & Hx & Ex'). exists x. split; auto.
    subst l. rewrite roots_fapp, in_app_iff. auto.
Qed.

(** [rs]: the siblings to shift, with or without the row of the moved node, which has
    left its place; [es]: their steps. *)
Lemma rest_temp_es db f q pa l k l1 l2 x1 c x2 m1 m2 s an tp vl es rs :
  lay (db_rows db) f -> nc_ok f -> wf_ids (kerase f) -> length s = w ->
  At q pa l l f f -> pold pa = pnew pa -> hole cfg l k l1 l2 ->
  l = fapp x1 (Cons (s, an) c x2) -> fapp m1 m2 = fapp x1 x2 ->
  nodes m1 = drop (nid (fst an)) (nodes l1) -> nodes m2 = drop (nid (fst an)) (nodes l2) ->
  (forall x, In x (roots m1) -> In x (roots l1)) ->
  (forall x, In x (roots l) -> undigits R (fst x) <= vl) -> vl + 2 < maxstep ->
  embed cfg es = m2 -> incr k es -> bounded cfg es -> (forall e, In e es -> fst e <= vl) ->
  map m_path rs = map (epath cfg q) es ->
  exists db1, set_newpath cfg db (q ++ s) (q ++ seg (vl + 2)) = Ok db1 /\
  reorder_moves f (option_map (fun z => nid (fst (fst z))) pa) (nodes l1) (nodes l2) (nid (fst an))
    (reorder_rest db1 (q ++ s) tp (q ++ seg k) rs (Some (q ++ seg (vl + 2)))).
Proof.
  intros L N WF Ls H Ep Ho El' Em12 D1 D2 Im1 Hv Bv Ees Ies Bes Hes Ers.
  assert (W : kpwf f) by apply L. assert (V : kvalid f) by apply L.
  assert (Vl := kvalid_At_l cfg _ _ _ _ _ _ H V).
  assert (Wl := k_At_pwf_l cfg _ _ _ _ _ _ H W).
  assert (Nl := nc_At_l _ _ _ _ _ _ H N).
  destruct Ho as (El & K1 & K2 & O1 & O2).
  set (X := fapp m1 m2).
  assert (EX : fapp x1 x2 = X) by (symmetry; exact Em12).
  set (z := Cons (seg (vl + 2), an) c Nil : kf).
  assert (WX := Wl). rewrite El' in WX. apply pwf_mid in WX. rewrite EX in WX.
  destruct WX as (WX & Wc & _).
  assert (NX : nc_ok (fapp X z)).
  { rewrite El' in Nl. apply nc_fapp in Nl. destruct Nl as [Na Nb].
    apply nc_fapp. rewrite <- EX, nc_fapp. simpl in *. tauto. }
  (* to the temporary path *)
  destruct (@At_chain _ _ _ _ _ _ _ _ H pa X Ep) as (f0 & H0 & H0').
  rewrite pcomp_id in H0' by auto.
  destruct (@At_chain _ _ _ _ _ _ _ _ H0' pa (fapp X z) Ep) as (f1 & H1 & H1').
  rewrite pcomp_id in H1' by auto.
  assert (W0 : kpwf f0) by (apply (k_At_pwf cfg _ _ _ _ _ _ H0 W WX)).
  assert (WXz : kpwf (fapp X z)).
  { unfold z. apply pwf_insert; auto using irr.
    - rewrite fapp_nil_r. auto.
    - apply seg_len; auto.
    - intros x Hx. change (plt (fst x) (seg (vl + 2)) = true).
      assert (Hxl : In x (roots l)).
      { rewrite El'. rewrite <- EX in Hx. rewrite !roots_fapp, !in_app_iff in *. simpl. tauto. }
      rewrite (plt_vseg cfg radix2 step1); [| apply (kvalid_roots cfg _ _ Vl Hxl)|apply vseg_seg; auto; lia].
      rewrite seg_val by auto. apply Nat.ltb_lt. apply Hv in Hxl. lia. }
  assert (W1 : kpwf f1) by (apply (k_At_pwf cfg _ _ _ _ _ _ H1 W0 WXz)).
  destruct (set_newpath_ok cfg radix2 step1 db f q pa x1 s an c x2 f0 q pa X (seg (vl + 2)) Nil f1)
    as (_ & db1 & E1 & L1 & _); auto.
  { rewrite EX, <- El'. auto. }
  { rewrite fapp_nil_r. auto. }
  { apply vseg_seg; auto; lia. }
  exists db1. split; auto.
  assert (WF1 : wf_ids (kerase f1)).
  { apply (lay_wf cfg _ _ L1). rewrite (set_newpath_pks _ _ _ _ E1), (lay_pks cfg _ _ L). auto. }
  assert (N1 : nc_ok f1).
  { eapply nc_opened; [exact H1'| | | |]; auto. rewrite El', <- EX. unfold z.
    rewrite !roots_fapp, !app_length. simpl. lia. }
  (* shifting *)
  assert (Sh : shiftable cfg q k es = true) by (eapply shiftable_small; eauto; lia).
  assert (C := collect_spec cfg radix2 step1 q es k rs K1 K2 Ies Bes Ers).
  rewrite Sh in C. destruct C as (ms & Ec & Em).
  unfold reorder_rest. rewrite Ec. cbn [bind].
  assert (H1s : At q pa (fapp m1 (fapp (embed cfg es) z)) (fapp m1 (fapp (embed cfg es) z)) f1 f1).
  { rewrite Ees, <- fapp_assoc. apply (At_stay _ _ _ _ _ _ H1 Ep). }
  destruct (move_siblings_spec cfg radix2 step1 q pa z es k m1 db1 f1 (Some (q ++ s)) tp ms [])
    as (db2 & f2 & op' & tp' & Em2 & L2 & H2 & F2); auto.
  { intros x [<-|[]]. exists (vl + 2). simpl. split; auto. split; auto. intros e He. apply Hes in He. lia. }
  rewrite app_nil_r in Em2. rewrite Em2. cbn [move_siblings bind].
  assert (Epk := Em2). cbn [move_siblings] in Epk. apply move_siblings_pks in Epk.
  destruct op' as [op'|]; [|destruct F2]. destruct F2 as (_ & F2 & _).
  destruct (F2 s eq_refl Ls) as (s' & -> & Ls').
  set (S := embed cfg (shiftE cfg q k es)) in *.
  assert (WF2 : wf_ids (kerase f2)).
  { apply (lay_wf cfg _ _ L2). rewrite Epk, (lay_pks cfg _ _ L1). auto. }
  assert (NS : nc_ok (fapp m1 (fapp S z))).
  { unfold X in NX. rewrite !nc_fapp in *. unfold S. split; [tauto|]. split; [|tauto].
    apply shiftE_nc. rewrite Ees. tauto. }
  assert (N2 : nc_ok f2).
  { eapply nc_opened; [exact H2| | | |]; auto. rewrite !roots_fapp, !app_length. unfold S.
    rewrite shiftE_len. auto. }
  (* to the final path *)
  assert (W2 : kpwf f2) by apply L2.
  assert (H2s := At_stay _ _ _ _ _ _ H2 Ep). rewrite <- fapp_assoc in H2s.
  assert (WS := k_At_pwf_l cfg _ _ _ _ _ _ H2s W2). apply pwf_mid in WS.
  rewrite fapp_nil_r in WS. destruct WS as (WS & _ & _).
  destruct (@At_chain _ _ _ _ _ _ _ _ H2s pa (fapp m1 S) Ep) as (g & H3 & H3').
  rewrite pcomp_id in H3' by auto.
  destruct (@At_chain _ _ _ _ _ _ _ _ H3' pa (fapp m1 (Cons (seg k, an) c S)) Ep) as (f3 & H4 & H4').
  rewrite pcomp_id in H4' by auto.
  assert (W3 : kpwf f3).
  { apply (k_At_pwf cfg _ _ _ _ _ _ H4').
    - auto.
    - apply pwf_insert; auto using irr.
      + apply seg_len; auto.
      + intros x Hx. apply (shiftE_above cfg radix2 step1 q es k); auto. }
  destruct (set_newpath_ok cfg radix2 step1 db2 f2 q pa (fapp m1 S) (seg (vl + 2)) an c Nil g q pa m1 (seg k) S f3)
    as (_ & db3 & E3 & L3 & _); auto.
  { rewrite fapp_nil_r. auto. }
  { apply vseg_seg; auto. }
  rewrite E3. cbn [bind]. exists db3, (q ++ s'), (q ++ seg k), tp', f3. split; auto.
  unfold update_parent_counts. rewrite !get_parent_path_app by (auto; apply seg_len; auto).
  rewrite peq_refl. split; auto. split; [|split].
  - eapply nc_opened; [exact H4'| | | |]; auto.
    + rewrite !nc_fapp in *. unfold z in NS. simpl in *. tauto.
    + rewrite !roots_fapp, !app_length. simpl. lia.
  - apply (lay_wf cfg _ _ L3). rewrite (set_newpath_pks _ _ _ _ E3), Epk, (lay_pks cfg _ _ L1). auto.
  - intros wh Hi.
    assert (C1 := At_Ctx fst H1' (pid_fst _ Ep)). assert (C2 := At_Ctx fst H2 (pid_fst _ Ep)).
    assert (C3 := At_Ctx fst H4' (pid_fst _ Ep)). rewrite fapp_assoc in C3.
    rewrite Ees in C2. unfold X in C1. rewrite (fapp_assoc m1 m2 z) in C1.
    assert (C := Ctx_trans _ _ _ _ _ _ _ C1 (Ctx_trans _ _ _ _ _ _ _ C2 C3 WF2) WF1).
    change (@erase nat payload fst) with kerase in C.
    rewrite El', !kerase_fapp in C.
    change (kerase (Cons (s, an) c x2)) with (Cons (fst an) (kerase c) (kerase x2)) in C.
    change (kerase (Cons (seg k, an) c S)) with (Cons (fst an) (kerase c) (kerase S)) in C.
    assert (ES : kerase S = kerase m2) by (unfold S; rewrite shiftE_erase, Ees; auto).
    eapply Ctx_move; eauto.
    + rewrite ES, <- !kerase_fapp. f_equal. exact Em12.
    + rewrite ES, !kerase_roots, D1, D2. exact Hi.
Qed.

Lemma rest_temp db f q pa l k l1 l2 s an tp vl :
  lay (db_rows db) f -> nc_ok f -> wf_ids (kerase f) -> In (q ++ s, an) (rows f) -> length s = w ->
  At q pa l l f f -> pold pa = pnew pa -> hole cfg l k l1 l2 ->
  (forall x, In x (roots l) -> undigits R (fst x) <= vl) -> vl + 2 < maxstep ->
  exists db1, set_newpath cfg db (q ++ s) (q ++ seg (vl + 2)) = Ok db1 /\
  forall rs, rs = sibrows cfg q l2 \/
    (exists y1 c y2, l2 = fapp y1 (Cons (s, an) c y2) /\ rs = sibrows cfg q (fapp y1 y2)) ->
  reorder_moves f (option_map (fun z => nid (fst (fst z))) pa) (nodes l1) (nodes l2) (nid (fst an))
    (reorder_rest db1 (q ++ s) tp (q ++ seg k) rs (Some (q ++ seg (vl + 2)))).
Proof.
  intros L N WF Hn Ls H Ep Ho Hv Bv.
  assert (W : kpwf f) by apply L. assert (V : kvalid f) by apply L.
  assert (Vl := kvalid_At_l cfg _ _ _ _ _ _ H V).
  assert (Wl := k_At_pwf_l cfg _ _ _ _ _ _ H W).
  assert (ND := nodes_NoDup _ _ _ _ _ _ H (pid_fst _ Ep) WF).
  destruct (hole_ents cfg radix2 step1 _ _ _ _ Vl Wl Ho) as (I & B & Ee).
  assert (Ho' := Ho). destruct Ho' as (El & K1 & K2 & O1 & O2).
  assert (V2 : kvalid l2) by (rewrite El in Vl; apply kvalid_fapp in Vl; tauto).
  assert (Hv2 : forall e, In e (ents cfg l2) -> fst e <= vl).
  { intros e He. apply ents_roots in He. destruct He as (s' & a' & c' & -> & Hr).
    apply (Hv (s', a')). rewrite El, roots_fapp, in_app_iff. auto. }
  assert (Goal2 : forall rs db1, set_newpath cfg db (q ++ s) (q ++ seg (vl + 2)) = Ok db1 ->
     (exists db1, set_newpath cfg db (q ++ s) (q ++ seg (vl + 2)) = Ok db1 /\
       reorder_moves f (option_map (fun z => nid (fst (fst z))) pa) (nodes l1) (nodes l2) (nid (fst an))
         (reorder_rest db1 (q ++ s) tp (q ++ seg k) rs (Some (q ++ seg (vl + 2))))) ->
       reorder_moves f (option_map (fun z => nid (fst (fst z))) pa) (nodes l1) (nodes l2) (nid (fst an))
         (reorder_rest db1 (q ++ s) tp (q ++ seg k) rs (Some (q ++ seg (vl + 2))))).
  { intros rs db1 E (db2 & E' & Rm). rewrite E in E'. injection E' as <-. auto. }
  assert (Es : forall y1 c y2 rs, l2 = fapp y1 (Cons (s, an) c y2) ->
     rs = sibrows cfg q l2 \/ rs = sibrows cfg q (fapp y1 y2) ->
     exists db1, set_newpath cfg db (q ++ s) (q ++ seg (vl + 2)) = Ok db1 /\
       reorder_moves f (option_map (fun z => nid (fst (fst z))) pa) (nodes l1) (nodes l2) (nid (fst an))
         (reorder_rest db1 (q ++ s) tp (q ++ seg k) rs (Some (q ++ seg (vl + 2))))).
  { intros y1 c y2 rs E2 Hrs.
    assert (Vy : kvalid y1 /\ vseg cfg s /\ kvalid c /\ kvalid y2).
    { rewrite E2 in V2. apply kvalid_fapp in V2. rewrite kvalid_cons in V2. tauto. }
    assert (El' : l = fapp (fapp l1 y1) (Cons (s, an) c y2)) by (rewrite El, E2, fapp_assoc; auto).
    assert (Dn : ~ In (nid (fst an)) (map nid (nodes l1)) /\ ~ In (nid (fst an)) (map nid (nodes y1)) /\
                 ~ In (nid (fst an)) (map nid (nodes y2))).
    { rewrite El', !roots_fapp, !map_app in ND. simpl in ND. apply NoDup_remove_2 in ND.
      rewrite !in_app_iff in ND. tauto. }
    destruct Dn as (Dn1 & Dn2 & Dn3).
    assert (D1 : nodes l1 = drop (nid (fst an)) (nodes l1)) by (rewrite drop_notin; auto).
    assert (D2 : nodes (fapp y1 y2) = drop (nid (fst an)) (nodes l2)).
    { rewrite E2, !roots_fapp, !map_app, !drop_app. simpl. rewrite Nat.eqb_refl. simpl.
      fold (drop (nid (fst an)) (nodes y2)). rewrite !drop_notin by auto. auto. }
    assert (Em : fapp l1 (fapp y1 y2) = fapp (fapp l1 y1) y2) by (symmetry; apply fapp_assoc).
    destruct Hrs as [-> | ->].
    - set (es := ents cfg y1 ++ (undigits R s, None) :: ents cfg y2).
      assert (Ef : map fst (ents cfg l2) = map fst es).
      { unfold es. rewrite E2, ents_fapp, !map_app. reflexivity. }
      apply (rest_temp_es db f q pa l k l1 l2 (fapp l1 y1) c y2 l1 (fapp y1 y2) s an tp vl es); auto.
      + unfold es. rewrite embed_app. simpl. rewrite !(embed_ents cfg radix2 step1) by tauto. auto.
      + apply (incr_fst _ _ _ Ef I).
      + apply (bounded_fst _ _ Ef B).
      + intros e He. apply (in_map fst) in He. rewrite <- Ef in He. apply in_map_iff in He.
        destruct He as (e' & <- & He). auto.
      + rewrite (sib_paths cfg radix2 step1 q l2 V2). apply epath_fst. auto.
    - apply (rest_temp_es db f q pa l k l1 l2 (fapp l1 y1) c y2 l1 (fapp y1 y2) s an tp vl (ents cfg y1 ++ ents cfg y2)); auto.
      + rewrite embed_app. rewrite !(embed_ents cfg radix2 step1) by tauto. auto.
      + rewrite E2, ents_fapp in I. clear - I radix2 step1. revert k I. induction (ents cfg y1) as [|[v x] es IH]; intros k; simpl.
        * intros [I1 I2]. apply (incr_le cfg radix2 step1 (S (undigits R s))); auto.
        * intros [I1 I2]. auto.
      + rewrite E2, ents_fapp in B. apply Forall_app in B. destruct B as [B1 B2]. inversion B2; subst. apply Forall_app. auto.
      + intros e He. apply Hv2. rewrite E2, ents_fapp. apply in_app_iff in He. apply in_app_iff. simpl. tauto.
      + rewrite <- ents_fapp. apply (sib_paths cfg radix2 step1). apply kvalid_fapp. tauto. }
  assert (Hs := child_in_list _ _ _ _ _ _ _ _ H W Hn Ls).
  rewrite El, roots_fapp, in_app_iff in Hs. destruct Hs as [Hs|Hs].
  - (* Python takes the new path for the smaller one although it is the greater one *)
    destruct (@roots_split _ _ _ _ Hs) as (z1 & c & z2 & E1).
    assert (El' : l = fapp z1 (Cons (s, an) c (fapp z2 l2))) by (rewrite El, E1, fapp_assoc; auto).
    assert (Dn : ~ In (nid (fst an)) (map nid (nodes z1)) /\ ~ In (nid (fst an)) (map nid (nodes z2)) /\
                 ~ In (nid (fst an)) (map nid (nodes l2))).
    { rewrite El', !roots_fapp, !map_app in ND. simpl in ND. rewrite roots_fapp, !map_app in ND.
      apply NoDup_remove_2 in ND. rewrite !in_app_iff in ND. tauto. }
    destruct Dn as (Dn1 & Dn2 & Dn3).
    assert (F1 : exists db1, set_newpath cfg db (q ++ s) (q ++ seg (vl + 2)) = Ok db1 /\
       reorder_moves f (option_map (fun z => nid (fst (fst z))) pa) (nodes l1) (nodes l2) (nid (fst an))
         (reorder_rest db1 (q ++ s) tp (q ++ seg k) (sibrows cfg q l2) (Some (q ++ seg (vl + 2))))).
    { apply (rest_temp_es db f q pa l k l1 l2 z1 c (fapp z2 l2) (fapp z1 z2) l2 s an tp vl (ents cfg l2)); auto.
      - apply fapp_assoc.
      - rewrite E1, !roots_fapp, !map_app, !drop_app. simpl. rewrite Nat.eqb_refl. simpl.
        fold (drop (nid (fst an)) (nodes z2)). rewrite !drop_notin by auto. auto.
      - rewrite drop_notin; auto.
      - intros x. rewrite E1, !roots_fapp, !in_app_iff. simpl. tauto.
      - apply (sib_paths cfg radix2 step1 q l2 V2). }
    assert (F2 := F1). destruct F2 as (db1 & E & _). exists db1. split; auto.
    intros rs [-> | (y1 & d & y2 & E2 & _)]; [apply Goal2; auto|]. exfalso. apply Dn3.
    rewrite E2, roots_fapp, !map_app, in_app_iff. simpl. auto.
  - destruct (@roots_split _ _ _ _ Hs) as (y1 & c & y2 & E2).
    destruct (Es y1 c y2 _ E2 (or_introl eq_refl)) as (db1 & E1 & _). exists db1. split; auto.
    intros rs [-> | (z1 & d & z2 & E2' & ->)]; apply Goal2; auto.
    + apply (Es y1 c y2 _ E2 (or_introl eq_refl)).
    + apply (Es z1 d z2 _ E2' (or_intror eq_refl)).
Qed.

End Move.
