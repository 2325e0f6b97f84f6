(** Programs that keep node objects, adjacency lists (C53). *)
From Coq Require Import String List Arith ZArith Lia Bool Permutation.
From Verif Require Import Prelude Forest SpecFacts SpecSane SpecKids SpecRun CommonModel Order History
  ALModel ALInv ALReads ALUpd ALOk ALHist SessionModel Session.
Import ListNotations.
Local Open Scope nat_scope.

Section AL.
Variable o : ordering.

Definition al_srel (st : al_sess) (s : sess) : Prop :=
  stores o (al_now st) (s_tree s) /\ map (fun c => a_pk (o_row c)) (al_objs st) = s_names s /\
  Forall cache_pos (al_objs st) /\
  forall u c, nth_error (al_objs st) u = Some c -> current (s_stat s u) = true -> In (o_row c) (al_now st).
Definition al_ok (st : al_sess) (s : sess) (c : cmd) : Prop := careful true o s c.

Lemma save_new t r : ~ In (a_pk r) (map a_pk t) -> save_row t r = r :: t.
Proof.
  intros H. unfold save_row. destruct (existsb _ t) eqn:E; auto. apply existsb_exists in E. destruct E as (y & Hy & E).
  apply Nat.eqb_eq in E. exfalso. apply H. rewrite <- E. apply in_map. auto.
Qed.
Lemma save_other t r x : In x t -> a_pk x <> a_pk r -> In x (save_row t r).
Proof.
  intros H N. unfold save_row. destruct (existsb _ t); [|right; auto]. apply in_map_iff. exists x.
  destruct (Nat.eqb_spec (a_pk x) (a_pk r)); tauto.
Qed.
Lemma stores_pks t F i : stores o t F -> In i (map a_pk t) -> In i (ids F).
Proof.
  intros (W & O & so & Fit & I) H. apply in_map_iff in H. destruct H as (r & <- & Hr).
  apply (fits_pk so t F W Fit r Hr).
Qed.

Lemma srel_new st s t F r k (stat : nat -> status) : map (fun c => a_pk (o_row c)) (al_objs st) = s_names s -> stores o t F ->
  Forall cache_pos (al_objs st) -> In (o_row r) t -> a_pk (o_row r) = k -> cache_pos r ->
  (forall u c, nth_error (al_objs st) u = Some c -> current (stat u) = true -> In (o_row c) t) ->
  al_srel (mkALS t (al_objs st ++ [r])) (mkSess F (s_names s ++ [k]) stat).
Proof.
  intros Nm R C Hr Ek Cr H. split; auto. split; [|split]; cbn.
  - rewrite map_app, Nm. cbn. congruence.
  - apply Forall_app. auto.
  - intros u x E Cu. apply snoc_nth in E. destruct E as [[_ E]|[-> ->]]; eauto.
Qed.

Lemma depth_pos t F n d c : stores o t F -> In (o_row n) t -> cache_pos n -> get_depth t n false = Ok (d, c) -> cache_pos c.
Proof.
  intros (W & O & so & Fit & I) Hn Hc E. destruct (get_depth_ok so t F W Fit n false Hn Hc) as (d' & c' & E' & H1 & H2).
  rewrite E in E'. injection E' as <- ->. revert Hc E. unfold cache_pos. cbn. unfold get_depth.
  destruct (a_parent (o_row n)).
  - destruct (o_depth n) as [z|] eqn:Ez.
    + intros Hc E. injection E as <- E. rewrite <- Ez in *. destruct n; cbn in *. injection E as <-. subst; auto.
    + destruct (count_depth t (o_row n)) as [z|]; cbn [bind]; [|discriminate]. intros _ E. injection E as -> <-. auto.
  - intros Hc E. destruct n as [r dd]; cbn in *. injection E as _ <-. auto.
Qed.

(** A sorted move changes one row. *)
Lemma move_others t n q p t' n' : is_sorted o = true -> move o t n q p = Ok (t', n') ->
  forall x, In x t -> a_pk x <> a_pk (o_row n) -> In x t'.
Proof.
  intros So. unfold move. rewrite So. destruct (prepare_pos_move true p) as [P|] eqn:EP; cbn [bind]; [|discriminate].
  apply prepare_move_sorted in EP.
  destruct (move_target o t (o_row n) q P) as [[[[tg par] P'] so]|] eqn:Em; cbn [bind]; [|discriminate].
  assert (HP : P' = SortedSibling).
  { unfold move_target in Em. destruct EP as [-> | ->].
    - injection Em as _ _ <- _. auto.
    - destruct (a_pk (o_row n) =? a_pk q); [discriminate|]. destruct (is_leaf o t q); cbn [negb] in Em.
      + injection Em as _ _ <- _. auto.
      + destruct (get_last_child o t q); [|discriminate]. injection Em as _ _ <- _. auto. }
  subst P'. destruct (is_descendant_of o t tg n) as [[]|]; cbn [bind]; try discriminate.
  destruct (get_depth t n false) as [[d c]|] eqn:Ed; cbn [bind]; [|discriminate].
  assert (Ec : o_row c = o_row n).
  { clear -Ed. unfold get_depth in Ed. destruct (a_parent (o_row n)); [|congruence]. destruct (o_depth n) eqn:E.
    - congruence.
    - destruct (count_depth t (o_row n)); cbn [bind] in Ed; [|discriminate]. injection Ed as _ <-. auto. }
  destruct (move_is_noop o t (o_row c) tg SortedSibling); intros H; injection H as <- <-; intros x Hx N; auto.
  apply save_other; auto. cbn. rewrite Ec. auto.
Qed.

Lemma al_step_ok st s c : al_srel st s -> al_ok st s c ->
  same al_sess al_srel (fun _ => False) (al_step o st c) (sp_step o (al_after o) s c).
Proof.
  intros (St & Nm & C & H) [Ca Nw].
  assert (Ln : length (s_names s) = length (al_objs st)) by (rewrite <- Nm, map_length; auto).
  assert (Wf : wf_ids (s_tree s)) by (apply St).
  assert (Als : forall t, (forall r, In r (al_now st) -> In r t) -> forall u c, nth_error (al_objs st) u = Some c ->
            current (also (s_stat s) (length (s_names s)) Held u) = true -> In (o_row c) t).
  { intros t Ht u c' Eu Cu. apply Ht. apply (H u); auto. revert Cu. unfold also. rewrite Ln.
    assert (u < length (al_objs st)) by (apply nth_error_Some; congruence).
    destruct (Nat.eqb_spec u (length (al_objs st))); [lia|auto]. }
  assert (Cons : forall x r, ~ In (nid x) (ids (s_tree s)) -> a_pk r = nid x -> forall y, In y (al_now st) -> In y (save_row (al_now st) r)).
  { intros x r Hx Er y Hy. apply save_other; auto. rewrite Er. intros Ey. apply Hx. rewrite <- Ey. apply (stores_pks _ _ _ St). apply in_map. auto. }
  destruct c as [k|x|u x|u p x|u w p|u]; cbn [al_step sp_step call_of careful new_node] in *.
  - (* fetch *)
    assert (St' := St). destruct St' as (_ & _ & so & Fit & _).
    destruct (get_cases so _ _ Wf Fit k) as [(E & Hk)|(r & E & Hr & Er & Hk)]; rewrite E, Hk; cbn [bind same]; auto.
    eexists. split; [reflexivity|]. apply srel_new; auto. apply Als. auto.
  - (* root *)
    destruct Nw as [Fr V]. destruct (add_root_ok o (al_now st) (s_tree s) x St Fr V) as (t' & r & E & S' & Hr & Er & Ed).
    assert (Et : t' = save_row (al_now st) (o_row r)) by (unfold add_root in E; injection E as <- <-; auto).
    rewrite E. cbn [bind same sp_exec sp_call]. eexists. split; [reflexivity|]. cbn [new_ids].
    apply srel_new; auto.
    + rewrite <- Er. auto.
    + unfold cache_pos. rewrite Ed. lia.
    + apply Als. rewrite Et. apply (Cons x); auto. rewrite <- Er. auto.
  - (* child *)
    destruct Ca as (Hi & Hu & _). destruct Nw as [Fr V]. rewrite Ln in Hu.
    destruct (obj_ok _ _ Hu) as (q & Eq & Eo). rewrite Eo. cbn [bind].
    destruct (nth_names (fun c => a_pk (o_row c)) _ _ _ _ Nm Eq) as (En & Ew & _). unfold who in *. rewrite Ew in *. rewrite En. cbn [option_map sp_exec].
    rewrite (proj2 (has_spec _ _) Hi). cbn [sp_call].
    destruct (add_child_ok o (al_now st) (s_tree s) q x St Hi Fr V) as (t' & r & E & S' & Hr & Er & Ed).
    assert (Et : t' = save_row (al_now st) (o_row r)) by (unfold add_child in E; injection E as <- <-; auto).
    rewrite E. cbn [bind same]. eexists. split; [reflexivity|]. cbn [new_ids].
    apply srel_new; auto.
    + rewrite <- Er. auto.
    + unfold cache_pos. rewrite Ed. rewrite Forall_forall in C. assert (Cq := C q (nth_error_In _ _ Eq)). unfold cache_pos in Cq.
      destruct (o_depth q); cbn; auto. lia.
    + apply Als. rewrite Et. apply (Cons x); auto. rewrite <- Er. auto.
  - (* sibling *)
    destruct Ca as (Hu & Cu). destruct Nw as [Fr V]. rewrite Ln in Hu.
    destruct (obj_ok _ _ Hu) as (q & Eq & Eo). rewrite Eo. cbn [bind].
    destruct (nth_names (fun c => a_pk (o_row c)) _ _ _ _ Nm Eq) as (En & Ew & _). rewrite En. cbn [option_map sp_exec].
    assert (Hq := H u q Eq Cu).
    assert (Hi : In (a_pk (o_row q)) (ids (s_tree s))) by (apply (stores_pks _ _ _ St); apply in_map; auto).
    rewrite (proj2 (has_spec _ _) Hi). cbn [sp_call]. change (sorts o) with (is_sorted o).
    destruct (prepare_pos_add (is_sorted o) p) as [P|e] eqn:EP; cbn [bind].
    2:{ unfold add_sibling. rewrite EP. cbn [bind same]. auto. }
    destruct (add_sibling_ok o (al_now st) (s_tree s) (o_row q) p P x St Hq Fr V EP) as (t' & r & E & S' & Hr & Er & Ed).
    rewrite E. cbn [bind same]. eexists. split; [reflexivity|]. cbn [new_ids al_after].
    apply srel_new; auto.
    + rewrite <- Er. auto.
    + unfold cache_pos. rewrite Ed. auto.
    + change (sorts o) with (is_sorted o). destruct (is_sorted o) eqn:So.
      * apply Als. assert (Et : t' = save_row (al_now st) (o_row r)).
        { revert E. unfold add_sibling. rewrite So, EP. cbn [bind]. intros E. injection E as <- <-. auto. }
        rewrite Et. apply (Cons x); auto. rewrite <- Er. auto.
      * intros v y Ey Cy. apply only_current in Cy. destruct Cy as (z & [Cy|[]] & Cz). injection Cy as <- _. rewrite Ln in Ey.
        assert (length (al_objs st) < length (al_objs st)) by (apply nth_error_Some; congruence). lia.
  - (* move *)
    destruct Ca as (Hu & Hw & Cu & Cw). rewrite Ln in Hu, Hw.
    destruct (obj_ok _ _ Hu) as (n & En & Eo). rewrite Eo. cbn [bind].
    destruct (obj_ok _ _ Hw) as (t & Et & Eo'). rewrite Eo'. cbn [bind].
    destruct (nth_names (fun c => a_pk (o_row c)) _ _ _ _ Nm En) as (Enn & Ewn & _).
    destruct (nth_names (fun c => a_pk (o_row c)) _ _ _ _ Nm Et) as (Ent & Ewt & _). rewrite Enn, Ent.
    assert (Hn := H u n En Cu). assert (Ht := H w t Et Cw).
    assert (Cn : cache_pos n) by (rewrite Forall_forall in C; apply C; eapply nth_error_In; eauto).
    assert (In1 : In (a_pk (o_row n)) (ids (s_tree s))) by (apply (stores_pks _ _ _ St); apply in_map; auto).
    assert (In2 : In (a_pk (o_row t)) (ids (s_tree s))) by (apply (stores_pks _ _ _ St); apply in_map; auto).
    cbn [sp_exec]. rewrite (proj2 (has_spec _ _) In1), (proj2 (has_spec _ _) In2). cbn [andb sp_call]. change (sorts o) with (is_sorted o).
    destruct (prepare_pos_move (is_sorted o) p) as [P|e] eqn:EP; cbn [bind].
    2:{ unfold move. rewrite EP. cbn [bind same]. auto. }
    destruct (move_ok o (al_now st) (s_tree s) n (o_row t) p P St Hn Cn Ht EP) as [[Hi E]|[Hi (t' & n' & E & S' & Hn' & (En' & Ed' & d & c & Eg & Edp))]];
      rewrite E.
    { rewrite (proj2 (insideb_spec _ _ _ _) Hi). cbn [bind same]. auto. }
    rewrite (proj2 (insideb_false _ _ _ _) Hi). cbn [bind same]. eexists. split; [reflexivity|]. cbn [new_ids]. rewrite app_nil_r.
    assert (Sd : data_of (a_pk (o_row n)) (s_tree s) = a_data (o_row n)).
    { destruct St as (_ & _ & so & Fit & _). destruct (fits_pk so _ _ Wf Fit _ Hn) as (_ & _ & Hk & _).
      apply (data_of_spec (a_pk (o_row n)) (s_tree s) (row_node (o_row n))); auto. eapply kl_pre; eauto. }
    split; [cbn [al_now s_tree]; rewrite Sd; auto|]. split; [|split]; cbn [al_now al_objs s_tree s_names s_stat al_after].
    + rewrite <- Nm. apply (put_map (fun c => a_pk (o_row c)) _ u n' n En En').
    + assert (Cn' : cache_pos n'). { assert (X := depth_pos _ _ _ _ _ St Hn Cn Eg). unfold cache_pos in *. rewrite Edp. auto. }
      apply Forall_forall. intros y Hy. apply In_nth_error in Hy. destruct Hy as (v & Hv). rewrite put_nth in Hv.
      destruct ((v =? u) && (v <? length (al_objs st))); [congruence|]. rewrite Forall_forall in C. apply C. eapply nth_error_In; eauto.
    + intros v y Ey Cy. rewrite put_nth in Ey. destruct (Nat.eqb_spec v u) as [->|Nv].
      { rewrite (proj2 (Nat.ltb_lt _ _) Hu) in Ey. cbn in Ey. injection Ey as <-. auto. }
      cbn [andb] in Ey. change (sorts o) with (is_sorted o) in Cy. destruct (is_sorted o) eqn:So.
      * destruct (Nat.eqb_spec v u); [congruence|].
        destruct (nth_names (fun c => a_pk (o_row c)) _ _ _ _ Nm Ey) as (_ & Ewy & _). unfold who in Cy. rewrite Ewy, Ewn in Cy.
        destruct (Nat.eqb_spec (a_pk (o_row y)) (a_pk (o_row n))); [discriminate|].
        apply (move_others _ _ _ _ _ _ So E); eauto.
      * apply only_current in Cy. destruct Cy as (z & [Cy|[]] & _). congruence.
  - (* remove *)
    assert (Hu := Ca). rewrite Ln in Hu. destruct (obj_ok _ _ Hu) as (q & Eq & Eo). rewrite Eo. cbn [bind].
    destruct (nth_names (fun c => a_pk (o_row c)) _ _ _ _ Nm Eq) as (En & Ew & _). rewrite En. cbn [option_map].
    assert (G := al_call_ok o (al_now st) (s_tree s) (CDelete [a_pk (o_row q)]) St (fun i (Hi : In i []) => match Hi with end) (fun _ => Logic.I)).
    cbn [al_exec sp_exec agree] in G. cbn [sp_exec bind same]. eexists. split; [reflexivity|].
    assert (Eqd : delete_queryset (al_now st) (fun r => a_pk r =? a_pk (o_row q)) =
                 delete_queryset (al_now st) (fun r => existsb (Nat.eqb (a_pk r)) [a_pk (o_row q)])).
    { unfold delete_queryset. rewrite (filter_ext (fun r => existsb (Nat.eqb (a_pk r)) [a_pk (o_row q)]) (fun r => a_pk r =? a_pk (o_row q))); auto.
      intros a. cbn. apply orb_false_r. }
    split; [|split; [|split]]; cbn [al_now al_objs s_tree s_names s_stat al_after]; auto.
    + rewrite Eqd. apply G.
    + cbn. rewrite app_nil_r. auto.
    + intros v y Ey Cy. destruct (nth_names (fun c => a_pk (o_row c)) _ _ _ _ Nm Ey) as (_ & Ewy & _). unfold who in Cy. rewrite Ewy, Ew in Cy.
      destruct (has (a_pk (o_row y)) (sp_call o (s_tree s) (CDelete [a_pk (o_row q)]))) eqn:Eh; [|discriminate].
      apply has_spec in Eh. rewrite Eqd.
      destruct G as (WG & _ & so & Fit & _). destruct (fits_ex so _ _ WG Fit _ Eh) as (z & Hz & Ez).
      assert (Hz' : In z (al_now st)) by (unfold delete_queryset in Hz; apply filter_In in Hz; tauto).
      assert (Hy := H v y Ey Cy). destruct St as (_ & _ & so' & Fit' & _).
      replace (o_row y) with z; auto. apply (pk_same so' _ _ Wf Fit'); auto.
Qed.

(** A careful program has the outcome of the specification. *)
Theorem al_session_ok cs st s : al_srel st s -> all_ok al_sess (al_step o) o (al_after o) al_ok st s cs ->
  match play (al_step o) st cs with
  | Ok st' => exists s', play (sp_step o (al_after o)) s cs = Ok s' /\ al_srel st' s'
  | Err e => play (sp_step o (al_after o)) s cs = Err e
  end.
Proof.
  intros R A. assert (P := play_ok _ _ _ _ _ al_srel (fun _ => False) al_step_ok cs st s R A).
  destruct (play (al_step o) st cs); auto. tauto.
Qed.
End AL.
