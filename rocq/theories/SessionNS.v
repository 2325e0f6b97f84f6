(** Programs that keep node objects, nested sets (C53). *)
From Coq Require Import String List Arith ZArith Lia Bool Permutation.
From Verif Require Import Prelude Forest SpecFacts SpecSane SpecKids SpecRun CommonModel Order History SessionModel Session
  NSModel NSInv NSReads NSUpd NSAdd NSMove NSMoveOk NSDelete NSHist.
From Verif Require PropsNS.
Import ListNotations.
Local Open Scope nat_scope.

Section NS.
Variable o : ordering.

(** What an object must be: [Held], without a cached parent; [Tied], with one that is up to date. *)
Definition ns_fine (t : ns_table) (l : list ns_cell) (c : ns_cell) (x : status) : Prop :=
  match x with
  | Stale => True
  | Held => In (c_row c) t /\ c_up c = NoUp
  | Tied => good_obj t (ns_read l c) /\ forall v, c_up c = Shared v -> v < length l
  end.
Definition ns_srel (st : ns_sess) (s : sess) : Prop :=
  stores (ns_rows (ns_now st)) (s_tree s) /\ map (fun c => n_pk (c_row c)) (ns_objs st) = s_names s /\
  forall u c, nth_error (ns_objs st) u = Some c -> ns_fine (ns_rows (ns_now st)) (ns_objs st) c (s_stat s u).
Definition ns_ok (st : ns_sess) (s : sess) (c : cmd) : Prop := careful true o s c.

Lemma fine_good t l c x : ns_fine t l c x -> current x = true -> good_obj t (ns_read l c).
Proof.
  destruct x; cbn; intros H E; try discriminate; [|apply H]. destruct H as [H E']. unfold ns_read. rewrite E'. apply good_fresh. auto.
Qed.
Lemma fine_more t l k c x : ns_fine t l c x -> ns_fine t (l ++ k) c x.
Proof.
  destruct x; cbn; auto. intros [G V]. split.
  - revert G. unfold ns_read. destruct (c_up c) as [|v|r] eqn:E; auto. rewrite nth_error_app1; auto.
  - intros v E. rewrite app_length. specialize (V v E). lia.
Qed.

Lemma srel_new s db F r k (stat : nat -> status) l : map (fun c => n_pk (c_row c)) l = s_names s -> stores (ns_rows db) F ->
  In r (ns_rows db) -> n_pk r = k ->
  (forall u c, nth_error l u = Some c -> ns_fine (ns_rows db) l c (stat u)) -> stat (length l) = Held ->
  ns_srel (mkNSS db (l ++ [mkCell r NoUp])) (mkSess F (s_names s ++ [k]) stat).
Proof.
  intros Nm R Hr Ek H Hn. split; auto. split; cbn.
  - rewrite map_app, Nm. cbn. congruence.
  - intros u x E. apply snoc_nth in E. destruct E as [[_ E]|[-> ->]]; [apply fine_more; eauto|]. rewrite Hn. cbn. auto.
Qed.

Lemma only_new l n u : u <> n -> only [(n, l)] u = Stale.
Proof. intros H. unfold only. cbn. destruct (Nat.eqb_spec n u); [congruence|auto]. Qed.

Lemma root_names st s x : length (s_names s) = length (ns_objs st) -> forall u c, nth_error (ns_objs st) u = Some c ->
  only [(length (s_names s), x)] u = Stale.
Proof.
  intros Ln u c E. apply only_new. rewrite Ln. assert (u < length (ns_objs st)) by (apply nth_error_Some; congruence). lia.
Qed.

Lemma sibling_cached db F c p P : stores (ns_rows db) F -> In (o_row c) (ns_rows db) -> prepare_pos_add (is_sorted o) p = Ok P ->
  exists c', sibling_cache o db c p = Ok c'.
Proof.
  intros S Hc EP. unfold sibling_cache. rewrite EP. cbn [bind]. destruct (is_root (o_row c)) eqn:R; [eauto|].
  destruct (parent_read _ F (o_row c) S Hc) as (q & E & _). unfold get_parent in E. cbn [fresh o_row o_up] in E. rewrite R in E.
  destruct (query_parent (ns_rows db) (o_row c)); cbn [bind] in E; [|discriminate]. cbn [bind]. destruct P, (o_up c); eauto.
Qed.

Lemma leaf_kids t F r : stores t F -> In r t -> has_kids F (n_pk r) = negb (is_leaf r).
Proof.
  intros S Hr. destruct (PropsNS.C20_children t F r S Hr) as (k & E & _ & _ & H & _).
  unfold has_kids. rewrite (kl_kid_list _ _ _ E).
  destruct (is_leaf r); destruct k; cbn; auto; destruct H as [H1 H2].
  - assert (X : n :: k = []) by auto. discriminate.
  - assert (X : false = true) by auto. discriminate.
Qed.

Lemma move_shape db n t p db' n' t' : move o db n t p = Ok (db', n', t') ->
  (db' = db /\ n' = n /\ t' = t) \/ (o_up n' = None /\ o_up t' = None).
Proof.
  unfold move. destruct (prepare_pos_move (is_sorted o) p) as [P|]; cbn [bind]; [|discriminate].
  destruct (move_target _ _ _ _) as [[[par tg] P']|]; cbn [bind]; [|discriminate].
  destruct (is_descendant_of _ _); [discriminate|]. destruct (move_is_noop _ _ _ _) as [[]|]; cbn [bind]; [| |discriminate].
  { intros H. injection H as <- <- <-. auto. }
  match goal with |- bind ?z _ = _ -> _ => destruct z as [[P1 tg1]|]; cbn [bind]; [|discriminate] end.
  match goal with |- bind ?z _ = _ -> _ => destruct z as [[P2 tg2]|]; cbn [bind]; [|discriminate] end.
  match goal with |- bind ?z _ = _ -> _ => destruct z as [[[db1 tt] np]|]; cbn [bind]; [|discriminate] end.
  match goal with |- bind ?z _ = _ -> _ => destruct z as [nd1|]; cbn [bind]; [|discriminate] end.
  match goal with |- bind ?z _ = _ -> _ => destruct z as [nd2|]; cbn [bind]; [|discriminate] end.
  match goal with |- bind ?z _ = _ -> _ => destruct z as [tg3|]; cbn [bind]; [|discriminate] end.
  intros H. injection H as _ <- <-. auto.
Qed.

Lemma ns_step_ok st s c : ns_srel st s -> ns_ok st s c ->
  same ns_sess ns_srel (fun _ => False) (ns_step o st c) (sp_step o ns_after s c).
Proof.
  intros (St & Nm & H) [Ca Nw].
  assert (Ln : length (s_names s) = length (ns_objs st)) by (rewrite <- Nm, map_length; auto).
  assert (Wf : wf_ids (s_tree s)) by (apply St).
  destruct c as [k|x|u x|u p x|u w p|u]; cbn [ns_step sp_step call_of careful new_node] in *.
  - (* fetch *)
    destruct (get_pk_cases _ _ k St) as [[E Hk]|(r & E & Hr & Er & Hk)]; rewrite E, Hk; cbn [bind same]; auto.
    eexists. split; [reflexivity|]. apply srel_new; auto.
    + intros v y Ey. cbn [ns_after]. unfold also. rewrite Ln.
      assert (v < length (ns_objs st)) by (apply nth_error_Some; congruence).
      destruct (Nat.eqb_spec v (length (ns_objs st))); [lia|eauto].
    + cbn [ns_after]. unfold also. rewrite Ln, Nat.eqb_refl. auto.
  - (* root *)
    destruct Nw as [Fr _]. destruct (add_root_ok o (ns_now st) (s_tree s) x St Fr) as (db' & r & E & Hr & Er & S').
    rewrite E. cbn [bind same sp_exec sp_call]. eexists. split; [reflexivity|]. cbn [new_ids].
    apply srel_new; auto.
    + rewrite <- Er. auto.
    + intros v y Ey. cbn [ns_after]. rewrite (root_names st s _ Ln v y Ey). cbn. auto.
    + cbn [ns_after]. rewrite Ln. unfold only. cbn. rewrite Nat.eqb_refl. auto.
  - (* child *)
    destruct Ca as (Hi & Hu & _). destruct Nw as [Fr _]. rewrite Ln in Hu.
    destruct (obj_ok _ _ Hu) as (t & Et & Eo). rewrite Eo. cbn [bind].
    destruct (nth_names (fun c => n_pk (c_row c)) _ _ _ _ Nm Et) as (En & Ew & _). unfold who in *. rewrite Ew in *. rewrite En. cbn [option_map sp_exec].
    destruct (get_pk_cases _ _ (n_pk (c_row t)) St) as [[E Hk]|(nd & E & Hnd & End & Hk)].
    { apply has_false in Hk. tauto. }
    rewrite E, Hk. cbn [bind].
    destruct (add_child_ok o (ns_now st) (s_tree s) (c_row t) x St Hi Fr) as (db' & r & t' & E' & Hr & Er & S' & Ht).
    rewrite E'. cbn [bind same sp_call]. eexists. split; [reflexivity|]. cbn [new_ids].
    assert (Et' : n_pk t' = n_pk (c_row t)).
    { clear -E'. unfold add_child in E'. destruct (get_by_pk _ _) as [nd|]; cbn [bind] in E'; [|discriminate].
      destruct (is_leaf nd); cbn [negb] in E'.
      - injection E' as _ _ <-. auto.
      - destruct (get_last_child _ _); [|discriminate]. destruct (add_sibling _ _ _ _ _) as [[? ?]|]; cbn [bind] in E'; [|discriminate].
        injection E' as _ _ <-. auto. }
    split; auto. split; cbn [ns_now ns_objs s_tree s_names s_stat].
    { rewrite map_app. cbn. rewrite (put_map (fun c => n_pk (c_row c)) _ u (mkCell t' (c_up t)) t Et Et'), Nm, <- Er. auto. }
    assert (Lf := leaf_kids _ _ _ St Hnd). rewrite End in Lf.
    assert (Same : In (c_row t) (ns_rows (ns_now st)) -> nd = c_row t).
    { intros Hin. destruct St as (W & ts & I & P). apply (row_eq _ (s_tree s) ts W I P); auto. }
    assert (Up : In t' (ns_rows db') -> query_parent (ns_rows db') r = Ok t').
    { intros Ht'. destruct (parent_read _ _ r S' Hr) as (q & Eq & Epar & Hq).
      destruct (add_child_sane (gt_opt o (ndata x)) (n_pk (c_row t)) x (s_tree s) Wf Hi Fr) as (L1 & L2 & A & _).
      assert (Ep : parent_of (n_pk r) (sp_add_child (gt_opt o (ndata x)) (n_pk (c_row t)) x (s_tree s)) = Some (Some (n_pk (c_row t)))).
      { change (n_pk r) with (nid (row_node r)). rewrite Er. apply kl_parent; [apply S'|].
        destruct A as [_ A _ _]. rewrite (kl_kid_list _ _ _ A). apply in_app_iff. right. left. auto. }
      rewrite Ep in Epar. destruct q as [q|]; cbn in Epar; [|discriminate]. injection Epar as Epar.
      assert (Eqq : q = t').
      { destruct S' as (W & ts & I & P). apply (row_eq _ _ ts W I P); auto. congruence. }
      subst q. unfold get_parent in Eq. cbn [fresh o_row o_up] in Eq. destruct (is_root r); [discriminate|].
      destruct (query_parent (ns_rows db') r); cbn [bind] in Eq; [|discriminate]. congruence. }
    cbn [ns_after]. unfold who. rewrite Ew, Lf, Ln.
    intros v y Ey. apply snoc_nth in Ey. rewrite put_length in Ey.
    destruct (is_leaf nd) eqn:El; cbn [negb].
    + destruct Ey as [[Lv Ey]|[-> ->]].
      * unfold only. cbn [find fst]. destruct (Nat.eqb_spec (length (ns_objs st)) v); [lia|].
        destruct (Nat.eqb_spec u v) as [<-|]; cbn [snd]; [|cbn; auto].
        rewrite put_nth, Nat.eqb_refl, (proj2 (Nat.ltb_lt _ _) Hu) in Ey. cbn in Ey. injection Ey as <-.
        assert (Hs := H u t Et). destruct (s_stat s u); cbn in Hs |- *; auto. destruct Hs as [Hs1 Hs2].
        split; auto. apply Ht; auto. rewrite <- (Same Hs1). auto.
      * unfold only. cbn [find fst]. rewrite Nat.eqb_refl. cbn [snd]. destruct (current (s_stat s u)) eqn:C; [|cbn; auto].
        assert (G := fine_good _ _ _ _ (H u t Et) C). destruct G as [G _]. cbn [ns_read o_row] in G.
        assert (Ht' : In t' (ns_rows db')) by (apply Ht; auto; rewrite <- (Same G); auto).
        cbn [ns_fine]. split.
        -- split; cbn; auto. intros z Ez. rewrite nth_error_app1 in Ez by (rewrite put_length; auto).
           rewrite put_nth, Nat.eqb_refl, (proj2 (Nat.ltb_lt _ _) Hu) in Ez. cbn in Ez. injection Ez as <-. auto.
        -- cbn. intros v Ev. injection Ev as <-. rewrite app_length, put_length. lia.
    + destruct Ey as [[Lv Ey]|[-> ->]].
      * rewrite only_new by lia. cbn. auto.
      * unfold only. cbn [find fst]. rewrite Nat.eqb_refl. cbn. auto.
  - (* sibling *)
    destruct Ca as (Hu & Cu). destruct Nw as [Fr _]. rewrite Ln in Hu.
    destruct (obj_ok _ _ Hu) as (t & Et & Eo). rewrite Eo. cbn [bind].
    destruct (nth_names (fun c => n_pk (c_row c)) _ _ _ _ Nm Et) as (En & Ew & _). rewrite En. cbn [option_map sp_exec].
    assert (G := fine_good _ _ _ _ (H u t Et) Cu).
    assert (Ht : In (c_row t) (ns_rows (ns_now st))) by apply G.
    assert (Hi : In (n_pk (c_row t)) (ids (s_tree s))) by (apply (PropsNS.stores_ids _ _ _ St Ht)).
    rewrite (proj2 (has_spec _ _) Hi). cbn [sp_call]. change (sorts o) with (is_sorted o).
    destruct (prepare_pos_add (is_sorted o) p) as [P|e] eqn:EP; cbn [bind].
    2:{ unfold sibling_cache. rewrite EP. cbn [bind same]. auto. }
    destruct (sibling_cached (ns_now st) (s_tree s) (ns_read (ns_objs st) t) p P St) as (c' & Ec); auto. rewrite Ec. cbn [bind].
    destruct (add_sibling_ok o (ns_now st) (s_tree s) (ns_read (ns_objs st) t) p P x St G Fr EP) as (db' & r & E & Hr & Er & S').
    rewrite E. cbn [bind same]. eexists. split; [reflexivity|]. cbn [new_ids ns_after].
    apply srel_new; auto.
    + etransitivity; [|apply Nm]. eapply put_map; eauto.
    + rewrite <- Er. auto.
    + intros v y Ey. rewrite Ln. rewrite only_new; cbn; auto.
      assert (L : v < length (put (ns_objs st) u (mkCell (c_row t)
                               match c_up t, NSModel.o_up c', Ok P with
                               | Shared v, Some _, Ok LastSibling => Shared v
                               | NoUp, None, _ => NoUp
                               | _, Some r, _ => Own r
                               | up, None, _ => up
                               end))) by (apply nth_error_Some; congruence). rewrite put_length in L. lia.
    + rewrite put_length, Ln. unfold only. cbn. rewrite Nat.eqb_refl. auto.
  - (* move *)
    destruct Ca as (Hu & Hw & Cu & Cw). rewrite Ln in Hu, Hw.
    destruct (obj_ok _ _ Hu) as (n & En & Eo). rewrite Eo. cbn [bind].
    destruct (obj_ok _ _ Hw) as (t & Et & Eo'). rewrite Eo'. cbn [bind].
    destruct (nth_names (fun c => n_pk (c_row c)) _ _ _ _ Nm En) as (Enn & _).
    destruct (nth_names (fun c => n_pk (c_row c)) _ _ _ _ Nm Et) as (Ent & Ewt & _). rewrite Enn, Ent.
    assert (Gn := fine_good _ _ _ _ (H u n En) Cu). assert (Gt := fine_good _ _ _ _ (H w t Et) Cw).
    assert (In1 : In (n_pk (c_row n)) (ids (s_tree s))) by (apply (PropsNS.stores_ids _ _ _ St (proj1 Gn))).
    assert (In2 : In (n_pk (c_row t)) (ids (s_tree s))) by (apply (PropsNS.stores_ids _ _ _ St (proj1 Gt))).
    cbn [sp_exec]. rewrite (proj2 (has_spec _ _) In1), (proj2 (has_spec _ _) In2). cbn [andb sp_call]. change (sorts o) with (is_sorted o).
    destruct (prepare_pos_move (is_sorted o) p) as [P|e] eqn:EP; cbn [bind].
    2:{ unfold move. rewrite EP. cbn [bind same]. auto. }
    destruct (move_ok o (ns_now st) (s_tree s) _ _ p P St Gn Gt EP) as [[Hi E]|[Hi (db' & n' & t' & E & S' & Hn' & En' & Ht' & Et')]];
      cbn [ns_read o_row] in *; rewrite E.
    { rewrite (proj2 (insideb_spec _ _ _ _) Hi). cbn [bind same]. auto. }
    rewrite (proj2 (insideb_false _ _ _ _) Hi). cbn [bind same]. eexists. split; [reflexivity|]. cbn [new_ids]. rewrite app_nil_r.
    assert (Sd := stored_data _ _ _ St (proj1 Gn)). cbn [ns_read o_row] in Sd.
    split; [cbn [ns_now s_tree]; rewrite Sd; auto|]. split; cbn [ns_now ns_objs s_tree s_names s_stat].
    { rewrite <- Nm. etransitivity; [|apply (put_map (fun c => n_pk (c_row c)) _ u (ns_write n n') n En En')].
      assert (Ew2 : exists z, nth_error (put (ns_objs st) u (ns_write n n')) w = Some z /\ n_pk (c_row z) = n_pk (c_row t)).
      { rewrite put_nth. destruct (Nat.eqb_spec w u); cbn [andb]; [|eauto]. subst u. rewrite (proj2 (Nat.ltb_lt _ _) Hw).
        exists (ns_write n n'). split; auto. cbn. congruence. }
      destruct Ew2 as (z & Ez & Epz). eapply put_map; eauto. cbn. congruence. }
    intros v y Ey. cbn [ns_after].
    assert (Sh := move_shape _ _ _ _ _ _ _ E).
    (* an object of a [stale] number *)
    unfold only. cbn [find fst].
    assert (Cy : (v <> u /\ v <> w) \/ (v = w /\ y = ns_write t t') \/ (v = u /\ v <> w /\ y = ns_write n n')).
    { rewrite put_nth, put_length, put_nth in Ey. destruct (Nat.eqb_spec v w) as [->|Nvw].
      - rewrite (proj2 (Nat.ltb_lt _ _) Hw) in Ey. cbn [andb] in Ey. injection Ey as <-. auto.
      - cbn [andb] in Ey. destruct (Nat.eqb_spec v u) as [->|Nvu]; auto. rewrite (proj2 (Nat.ltb_lt _ _) Hu) in Ey. cbn [andb] in Ey.
        injection Ey as <-. auto. }
    destruct Cy as [[N1 N2]|Cy].
    { destruct (Nat.eqb_spec u v); [congruence|]. destruct (Nat.eqb_spec w v); [congruence|]. cbn. auto. }
    assert (Eu : (if u =? v then Some (u, s_stat s u) else if w =? v then Some (w, s_stat s w) else None) = Some (v, s_stat s v)).
    { destruct (Nat.eqb_spec u v); [subst; auto|]. destruct (Nat.eqb_spec w v); [subst; auto|]. destruct Cy as [[? _]|[? _]]; congruence. }
    rewrite Eu. cbn [snd]. clear Eu.
    destruct Sh as [(-> & -> & ->)|[Un Ut]].
    + (* nothing happened *)
      assert (Wr : forall c : ns_cell, (forall v, c_up c = Shared v -> v < length (ns_objs st)) -> ns_write c (ns_read (ns_objs st) c) = c).
      { intros [r up] Hv. unfold ns_write. cbn. f_equal. destruct up as [|v'|r']; auto. cbn in Hv.
        destruct (nth_error (ns_objs st) v') eqn:Ev; auto. apply nth_error_None in Ev. specialize (Hv v' eq_refl). lia. }
      assert (Wf' : forall z c, nth_error (ns_objs st) z = Some c -> current (s_stat s z) = true -> ns_write c (ns_read (ns_objs st) c) = c).
      { intros z c Ez Cz. assert (Hz := H z c Ez). destruct (s_stat s z); try discriminate; cbn in Hz; apply Wr; try apply Hz.
        destruct Hz as [_ Hz]. rewrite Hz. discriminate. }
      assert (Pid : forall z c, nth_error (ns_objs st) z = Some c -> put (ns_objs st) z c = ns_objs st).
      { clear. generalize (ns_objs st). intros l. induction l as [|b l IH]; intros [|z] c; cbn; try congruence. intros Ez. rewrite IH; auto. }
      rewrite (Wf' u n En Cu), (Pid u n En), (Wf' w t Et Cw), (Pid w t Et). rewrite (Wf' u n En Cu), (Pid u n En), (Wf' w t Et Cw), (Pid w t Et) in Ey. auto.
    + assert (F1 : ns_fine (ns_rows db') (put (put (ns_objs st) u (ns_write n n')) w (ns_write t t')) y Held).
      { destruct Cy as [[_ ->]|(_ & _ & ->)]; unfold ns_write; rewrite ?Un, ?Ut; cbn; split; auto; [apply Ht'|apply Hn']. }
      destruct (s_stat s v); cbn in F1 |- *; auto. destruct F1 as [F1 F2]. rewrite F2. split; [|discriminate].
      unfold ns_read. rewrite F2. apply good_fresh. auto.
  - (* remove *)
    assert (Hu := Ca). rewrite Ln in Hu. destruct (obj_ok _ _ Hu) as (t & Et & Eo). rewrite Eo. cbn [bind].
    destruct (nth_names (fun c => n_pk (c_row c)) _ _ _ _ Nm Et) as (En & Ew & _). rewrite En. cbn [option_map].
    assert (G := ns_call_ok o (ns_now st) (s_tree s) (CDelete [n_pk (c_row t)]) St (fun i (Hi : In i []) => match Hi with end)).
    cbn [ns_exec sp_exec agree] in G. cbn [sp_exec bind same]. eexists. split; [reflexivity|].
    assert (Eq : delete_queryset (ns_now st) (fun r => n_pk r =? n_pk (c_row t)) =
                 delete_queryset (ns_now st) (fun r => existsb (Nat.eqb (n_pk r)) [n_pk (c_row t)])).
    { unfold delete_queryset. rewrite (filter_ext (fun r => existsb (Nat.eqb (n_pk r)) [n_pk (c_row t)]) (fun r => n_pk r =? n_pk (c_row t))); auto.
      intros a. cbn. apply orb_false_r. }
    split; [|split]; cbn [ns_now ns_objs s_tree s_names s_stat].
    + rewrite Eq. apply G.
    + cbn. rewrite app_nil_r. auto.
    + intros v y Ey. cbn. auto.
Qed.

(** A careful program has the outcome of the specification. *)
Theorem ns_session_ok cs st s : ns_srel st s -> all_ok ns_sess (ns_step o) o ns_after ns_ok st s cs ->
  match play (ns_step o) st cs with
  | Ok st' => exists s', play (sp_step o ns_after) s cs = Ok s' /\ ns_srel st' s'
  | Err e => play (sp_step o ns_after) s cs = Err e
  end.
Proof.
  intros R A. assert (P := play_ok _ _ _ _ _ ns_srel (fun _ => False) ns_step_ok cs st s R A).
  destruct (play (ns_step o) st cs); auto. tauto.
Qed.
End NS.
