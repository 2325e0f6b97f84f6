(** Programs that keep node objects, materialized path (C53). *)
From Coq Require Import String List Arith Lia Bool ZArith Permutation.
From Verif Require Import Prelude Forest NumConv SpecFacts SpecSane SpecKids SpecRun PathTab CommonModel Order History SessionModel Session
  MPModel MPStep MPInv MPAdd MPMove MPMoveOk MPDelete MPReads MPHist.
From Verif Require PropsMP BulkMP.
Import ListNotations.

Section MP.
Variable cfg : mp_cfg.
Hypothesis radix2 : 2 <= radix cfg.
Hypothesis step1 : 1 <= steplen cfg.
Notation o := (order_by cfg).

Definition mp_srel (st : mp_sess) (s : sess) : Prop :=
  mp_rel cfg (mp_now st) (s_tree s) /\ map m_pk (mp_objs st) = s_names s /\
  forall u r, nth_error (mp_objs st) u = Some r -> current (s_stat s u) = true -> In r (db_rows (mp_now st)).

(** A careful statement; moves need room (see C05). *)
Definition mp_ok (st : mp_sess) (s : sess) (c : cmd) : Prop :=
  careful true o s c /\ match c with MoveTo _ _ _ => roomy cfg (db_rows (mp_now st)) | _ => True end.

Lemma saved db r db' : save_row db r = Ok db' -> In r (db_rows db').
Proof.
  unfold save_row. destruct (existsb (fun x => peq (m_path x) (m_path r) && _) _); [discriminate|].
  destruct (existsb (fun x => m_pk x =? m_pk r) (db_rows db)) eqn:E; intros H; injection H as <-; cbn; auto.
  apply existsb_exists in E. destruct E as (y & Hy & E). apply in_map_iff. exists y. rewrite E. auto.
Qed.

Lemma sibling_saved db target p x db' r : add_sibling cfg db target p x = Ok (db', r) -> In r (db_rows db') /\ m_pk r = new_pk x.
Proof.
  unfold add_sibling. destruct (prepare_pos_add (is_sorted cfg) p) as [P|]; cbn [bind]; [|discriminate].
  match goal with |- bind ?z _ = _ -> _ => destruct z as [[[p2 np] sb]|]; cbn [bind]; [|discriminate] end.
  match goal with |- bind ?z _ = _ -> _ => destruct z as [[[[db1 ?] np'] ?]|]; cbn [bind]; [|discriminate] end.
  match goal with |- bind ?z _ = _ -> _ => destruct z as [db3|] eqn:E; cbn [bind]; [|discriminate] end.
  intros H. injection H as <- <-. split; auto. apply saved in E. auto.
Qed.

Lemma root_saved db x db' r : add_root cfg db x = Ok (db', r) -> In r (db_rows db') /\ m_pk r = new_pk x.
Proof.
  unfold add_root. destruct (get_last_root_node (db_rows db)) as [l|].
  - destruct (is_sorted cfg); [apply sibling_saved|]. destruct (inc_path cfg (m_path l)) as [np|]; cbn [bind]; [|discriminate].
    match goal with |- bind ?z _ = _ -> _ => destruct z as [db3|] eqn:E; cbn [bind]; [|discriminate] end.
    intros H. injection H as <- <-. split; auto. apply saved in E. auto.
  - match goal with |- bind ?z _ = _ -> _ => destruct z as [db3|] eqn:E; cbn [bind]; [|discriminate] end.
    intros H. injection H as <- <-. split; auto. apply saved in E. auto.
Qed.

Lemma kids_split F d k : ordered o F -> o <> [] -> has_values o d ->
  splits (fun n => sorted_after o d (ndata n)) (match kids_of (Some k) F with Some l => roots l | None => [] end).
Proof.
  intros O No V. destruct (O No) as [S1 S2]. apply ordered_splits; auto;
    destruct (kids_of (Some k) F) as [l|] eqn:El; try constructor;
    destruct (sorted_kids o _ F l S1 S2 El); [apply roots_sorted|apply roots_values]; auto.
Qed.

Lemma leaf_kids t F r : stores cfg t F -> In r t -> has_kids F (m_pk r) = negb (m_nc r =? 0).
Proof.
  intros S Hr. destruct (PropsMP.C07_children cfg radix2 step1 t F r S Hr) as (k & E & _ & _ & H & _).
  unfold has_kids. rewrite (kl_kid_list _ _ _ E). unfold is_leaf in H.
  destruct (m_nc r =? 0); destruct k; cbn; auto; destruct H as [H1 H2].
  - assert (X : n :: k = []) by auto. discriminate.
  - assert (X : false = true) by auto. discriminate.
Qed.

Lemma fresh1 F (x : node) : ~ In (nid x) (ids F) -> forall i, In i [nid x] -> ~ In i (ids F).
Proof. intros H i [<-|[]]. auto. Qed.

Lemma srel_new st s db F r k (stat : nat -> status) : map m_pk (mp_objs st) = s_names s -> mp_rel cfg db F ->
  In r (db_rows db) -> m_pk r = k ->
  (forall u x, nth_error (mp_objs st) u = Some x -> current (stat u) = true -> In x (db_rows db)) ->
  mp_srel (mkMPS db (mp_objs st ++ [r])) (mkSess F (s_names s ++ [k]) stat).
Proof.
  intros Nm R Hr Ek H. split; auto. split; cbn.
  - rewrite map_app, Nm. cbn. congruence.
  - intros u x E C. apply snoc_nth in E. destruct E as [[_ E]|[_ ->]]; eauto.
Qed.

Lemma mp_step_ok st s c : mp_srel st s -> mp_ok st s c ->
  same mp_sess mp_srel (fun e => e = PathOverflow) (mp_step cfg st c) (sp_step o (mp_after o) s c).
Proof.
  intros (R & Nm & H) [[Ca Nw] Rm]. assert (St := proj1 R). assert (O := proj2 R).
  assert (Ln : length (s_names s) = length (mp_objs st)) by (rewrite <- Nm, map_length; auto).
  assert (Wf : wf_ids (s_tree s)) by (destruct St as (f & _ & _ & _ & W); auto).
  destruct c as [k|x|u x|u p x|u w p|u]; cbn [mp_step sp_step call_of careful new_node] in *.
  - (* fetch *)
    destruct (get_pk_cases cfg _ _ k St) as [[E Hk]|(r & E & Hr & Er & Hk)]; rewrite E; cbn [bind same].
    + apply has_false in Hk. rewrite Hk. auto.
    + rewrite (proj2 (has_spec _ _) Hk). eexists. split; [reflexivity|]. apply srel_new; auto.
      intros v y Ey C. cbn [mp_after] in C. unfold also in C. rewrite Ln in C.
      assert (v < length (mp_objs st)) by (apply nth_error_Some; congruence).
      destruct (Nat.eqb_spec v (length (mp_objs st))); [lia|eauto].
  - (* root *)
    destruct Nw as [Fr V].
    assert (G := mp_call_ok cfg radix2 step1 _ _ (CAddRoot x) R V (fresh1 _ _ Fr) Logic.I).
    cbn [mp_exec sp_exec] in G |- *. destruct (add_root cfg (mp_now st) (mkNew (nid x) 0 (ndata x))) as [[db' r]|e] eqn:E; cbn [bind fst agree same] in *.
    + destruct G as [G|(G & _)]; [|discriminate]. eexists. split; [reflexivity|]. destruct (root_saved _ _ _ _ E) as [Hr Ek].
      apply srel_new; auto. intros v y Ey C. cbn [mp_after] in C. apply only_current in C. destruct C as (z & C & Cz).
      destruct C as [C|[]]. injection C as <- _. rewrite Ln in Ey. assert (length (mp_objs st) < length (mp_objs st)) by (apply nth_error_Some; congruence). lia.
    + destruct G as [G|(G & _)]; [destruct G|]. injection G as ->. right. eauto.
  - (* child *)
    destruct Ca as (Hi & Hu & _). destruct Nw as [Fr V]. rewrite Ln in Hu.
    destruct (obj_ok _ _ Hu) as (t & Et & Eo). rewrite Eo. cbn [bind].
    destruct (nth_names m_pk _ _ _ _ Nm Et) as (En & Ew & _). unfold who in *. rewrite Ew in *. rewrite En. cbn [option_map sp_exec].
    rewrite (proj2 (has_spec _ _) Hi). cbn [bind sp_call].
    destruct (add_child_full cfg radix2 step1 (mp_now st) (s_tree s) t (mkNew (nid x) 0 (ndata x)) St Hi Fr eq_refl)
      as (nd & Hnd & _ & [(db' & r & t' & E & Hr & Er & _ & Ht & S')|[E _]]).
    { intros Hs. rewrite is_sorted_sorts in Hs. apply sorts_true in Hs. apply kids_split; auto. }
    + rewrite E. cbn [bind same]. eexists. split; [reflexivity|].
      assert (Et' : m_pk t' = m_pk t).
      { clear -E. unfold add_child in E. destruct (get_by_pk (db_rows (mp_now st)) (m_pk t)) as [n|]; cbn [bind] in E; [|discriminate].
        destruct (is_sorted cfg && negb (is_leaf n)).
        - destruct (opt_res (get_last_child cfg (db_rows (mp_now st)) n) AttributeError) as [l|]; cbn [bind] in E; [|discriminate].
          destruct (add_sibling cfg (mp_now st) l _ _) as [[? ?]|]; cbn [bind] in E; [|discriminate]. injection E as _ _ <-. auto.
        - match type of E with bind ?z _ = _ => destruct z; cbn [bind] in E; [|discriminate] end.
          match type of E with bind ?z _ = _ => destruct z; cbn [bind] in E; [|discriminate] end. injection E as _ _ <-. auto. }
      split; [|split]; cbn [mp_now mp_objs s_tree s_names s_stat].
      * split; [|apply (sp_call_ordered o (s_tree s) (CAddChild (m_pk t) x)); auto].
        unfold opt_gt in S'. cbn [new_data] in S'. rewrite is_sorted_sorts in S'. unfold gt_opt. destruct x; apply S'.
      * rewrite map_app. cbn. rewrite (put_map m_pk _ u t' t Et Et'), Nm, Er. auto.
      * intros v y Ey C. apply snoc_nth in Ey. rewrite put_length in Ey. destruct Ey as [[Lv Ey]|[_ ->]]; auto.
        apply only_current in C. destruct C as (z & C & Cz). cbn [In mp_after] in C. rewrite Ln in C.
        destruct C as [C|[C|[]]]; [injection C as Ev _; lia|]. injection C as -> <-.
        rewrite put_nth, Nat.eqb_refl in Ey. rewrite (proj2 (Nat.ltb_lt _ _) Hu) in Ey. cbn in Ey. injection Ey as <-.
        apply Ht. apply (H v); auto.
    + rewrite E. cbn [bind same]. right. split; eauto.
  - (* sibling *)
    destruct Ca as (Hu & Cu). destruct Nw as [Fr V]. rewrite Ln in Hu.
    destruct (obj_ok _ _ Hu) as (t & Et & Eo). rewrite Eo. cbn [bind].
    destruct (nth_names m_pk _ _ _ _ Nm Et) as (En & Ew & _). rewrite En. cbn [option_map].
    assert (Ht := H u t Et Cu).
    assert (G := mp_call_ok cfg radix2 step1 _ _ (CAddSibling (m_pk t) p x) R V (fresh1 _ _ Fr) Logic.I).
    cbn [mp_exec] in G. destruct St as (f & L & N & Ef & W).
    rewrite (get_by_pk_lay cfg _ f t L) in G by (rewrite ?Ef; auto). cbn [bind] in G.
    destruct (add_sibling cfg (mp_now st) t p (mkNew (nid x) 0 (ndata x))) as [[db' r]|e] eqn:E; cbn [bind fst agree same] in *.
    + destruct G as [G|(G & _)]; [|discriminate].
      destruct (sp_exec o (s_tree s) (CAddSibling (m_pk t) p x)) as [F'|] eqn:Es; cbn [agree] in G; [|destruct G]. cbn [bind].
      eexists. split; [reflexivity|]. destruct (sibling_saved _ _ _ _ _ _ E) as [Hr Ek].
      apply srel_new; auto. intros v y Ey C. cbn [mp_after] in C. apply only_current in C. destruct C as (z & C & Cz).
      destruct C as [C|[]]. injection C as <- _. rewrite Ln in Ey. assert (length (mp_objs st) < length (mp_objs st)) by (apply nth_error_Some; congruence). lia.
    + destruct G as [G|(G & _ & F' & ->)].
      * destruct (sp_exec o (s_tree s) (CAddSibling (m_pk t) p x)); cbn [agree] in G; [destruct G|]. subst. cbn [bind]. auto.
      * injection G as ->. right. cbn [bind]. eauto.
  - (* move *)
    destruct Ca as (Hu & Hw & Cu & Cw). rewrite Ln in Hu, Hw.
    destruct (obj_ok _ _ Hu) as (n & En & Eo). rewrite Eo. cbn [bind].
    destruct (obj_ok _ _ Hw) as (t & Et & Eo'). rewrite Eo'. cbn [bind].
    destruct (nth_names m_pk _ _ _ _ Nm En) as (Enn & _). destruct (nth_names m_pk _ _ _ _ Nm Et) as (Ent & Ewt & _). rewrite Enn, Ent.
    assert (Hn := H u n En Cu). assert (Ht := H w t Et Cw).
    assert (In1 : In (m_pk n) (ids (s_tree s))) by (apply (BulkMP.stores_in cfg _ _ _ St Hn)).
    assert (In2 : In (m_pk t) (ids (s_tree s))) by (apply (BulkMP.stores_in cfg _ _ _ St Ht)).
    cbn [sp_exec]. rewrite (proj2 (has_spec _ _) In1), (proj2 (has_spec _ _) In2). cbn [andb sp_call]. change (sorts o) with (is_sorted cfg).
    destruct (prepare_pos_move (is_sorted cfg) p) as [P|e] eqn:EP; cbn [bind].
    2:{ unfold move. rewrite EP. cbn [bind same]. auto. }
    destruct (stored_data cfg _ _ _ St Hn) as [Ed Vd].
    assert (Dec : o = [] \/ o <> []) by (destruct o; [auto|right; discriminate]).
    destruct (move_ok cfg radix2 step1 (mp_now st) (s_tree s) n t p P St Hn Ht EP) as [[Hi E]|[Hi [(db' & n' & t' & E & S' & Hn' & En' & Et' & X1 & X2)|[E _]]]].
    { intros ->. destruct Dec as [Eo2|No].
      - exfalso. rewrite is_sorted_sorts, Eo2 in EP. destruct (prepare_move_unsorted p SortedSibling EP). congruence.
      - destruct (O No) as [S1 S2]. destruct (siblings_sorted o (m_pk t) (s_tree s) S1 S2). apply ordered_splits; auto. }
    { intros ->. destruct Dec as [Eo2|No].
      - exfalso. rewrite is_sorted_sorts, Eo2 in EP. destruct (prepare_move_unsorted p SortedChild EP). congruence.
      - apply kids_split; auto. apply Vd; auto. apply (O No). }
    { intros _ r Hr _. apply Rm; auto. }
    + rewrite E, (proj2 (insideb_spec _ _ _ _) Hi). cbn [bind same]. auto.
    + rewrite E, (proj2 (insideb_false _ _ _ _) Hi). cbn [bind same]. eexists. split; [reflexivity|].
      split; [|split]; cbn [mp_now mp_objs s_tree s_names s_stat].
      * split; [rewrite Ed; auto|]. assert (Ox := sp_call_ordered o (s_tree s) (CMove (m_pk n) (m_pk t) p) Wf O). cbn [sp_call call_values] in Ox.
        change (sorts o) with (is_sorted cfg) in Ox. rewrite EP in Ox. auto.
      * rewrite app_nil_r. rewrite <- Nm. etransitivity; [|apply (put_map m_pk _ u n' n En En')].
        assert (Ew2 : exists z, nth_error (put (mp_objs st) u n') w = Some z /\ m_pk z = m_pk t).
        { rewrite put_nth. destruct (Nat.eqb_spec w u); cbn [andb]; [|eauto]. subst u. rewrite (proj2 (Nat.ltb_lt _ _) Hw).
          exists n'. split; auto. congruence. }
        destruct Ew2 as (z & Ez & Epz). eapply put_map; eauto. congruence.
      * intros v y Ey C. apply only_current in C. destruct C as (z & C & Cz). cbn [mp_after In] in C.
        rewrite put_nth, put_length, put_nth in Ey.
        destruct (Nat.eqb_spec v w) as [->|Nw'].
        -- rewrite (proj2 (Nat.ltb_lt _ _) Hw) in Ey. cbn [andb] in Ey. injection Ey as <-.
           destruct C as [C|[C|[]]].
           ++ injection C as -> _. (* same object *)
              rewrite En in Et. injection Et as <-. apply X1. left.
              destruct (is_child_pos P) eqn:CP; auto. exfalso. apply Hi. right. auto.
           ++ apply X1. destruct (is_child_pos P) eqn:CP; auto. right. injection C as <-. revert Cz.
              unfold to_child. change (sorts o) with (is_sorted cfg). rewrite EP, CP. cbn [andb].
              unfold who. rewrite Ewt, (leaf_kids _ _ _ St Ht). destruct (Nat.eqb_spec (m_nc t) 0); cbn; congruence.
        -- destruct C as [C|[C|[]]]; injection C as Ev _; [|congruence]. subst v. rewrite Nat.eqb_refl, (proj2 (Nat.ltb_lt _ _) Hu) in Ey.
           cbn [andb] in Ey. injection Ey as <-. auto.
    + rewrite E, (proj2 (insideb_false _ _ _ _) Hi). cbn [bind same]. right. split; eauto.
  - (* remove *)
    assert (Hu := Ca). rewrite Ln in Hu. destruct (obj_ok _ _ Hu) as (t & Et & Eo). rewrite Eo. cbn [bind].
    destruct (nth_names m_pk _ _ _ _ Nm Et) as (En & Ew & _). rewrite En. cbn [option_map].
    assert (G := mp_call_ok cfg radix2 step1 _ _ (CDelete [m_pk t]) R (fun _ => Logic.I) (fun i (Hi : In i []) => match Hi with end) Logic.I).
    destruct G as [G|(G & _)]; [|discriminate]. cbn [mp_exec sp_exec agree] in G. cbn [sp_exec bind same]. eexists. split; [reflexivity|].
    assert (Eq : delete_queryset cfg (db_rows (mp_now st)) (fun r => m_pk r =? m_pk t) =
                 delete_queryset cfg (db_rows (mp_now st)) (fun r => existsb (Nat.eqb (m_pk r)) [m_pk t])).
    { unfold delete_queryset, delete_statements. rewrite (filter_ext (fun r => existsb (Nat.eqb (m_pk r)) [m_pk t]) (fun r => m_pk r =? m_pk t)); auto.
      intros a. cbn. apply orb_false_r. }
    split; [|split]; cbn [mp_now mp_objs s_tree s_names s_stat].
    + rewrite Eq. apply G.
    + cbn. rewrite app_nil_r. auto.
    + intros v y Ey C. cbn in C. discriminate.
Qed.

(** A careful program has the outcome of the specification, or the keys are used up. *)
Theorem mp_session_ok cs st s : mp_srel st s -> all_ok mp_sess (mp_step cfg) o (mp_after o) mp_ok st s cs ->
  match play (mp_step cfg) st cs with
  | Ok st' => exists s', play (sp_step o (mp_after o)) s cs = Ok s' /\ mp_srel st' s'
  | Err e => play (sp_step o (mp_after o)) s cs = Err e \/ e = PathOverflow
  end.
Proof. apply play_ok. apply mp_step_ok. Qed.
End MP.
