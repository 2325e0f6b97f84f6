(** The specification machine keeps forests well formed (and sorted). *)
From Coq Require Import List Arith Lia Bool Permutation Sorted.
From Verif Require Import Prelude Forest SpecFacts SpecSane CommonModel Order History.
Import ListNotations.

Lemma ids_ins_perm w t l : Permutation (ids (ins w t l)) (ids t ++ ids l).
Proof.
  assert (B : forall P m, Permutation (ids (ins_before P t m)) (ids t ++ ids m)).
  { intros P m. induction m as [|a k _ r IH]; cbn [ins_before].
    - rewrite app_nil_r. auto.
    - destruct (P a); [rewrite ids_fapp; auto|]. rewrite !ids_cons.
      rewrite IH. rewrite <- Permutation_middle. constructor.
      rewrite Permutation_app_comm, <- app_assoc. apply Permutation_app_head, Permutation_app_comm. }
  assert (Af : forall P m, Permutation (ids (ins_after P t m)) (ids t ++ ids m)).
  { intros P m. induction m as [|a k _ r IH]; cbn [ins_after].
    - rewrite app_nil_r. auto.
    - destruct (P a); rewrite !ids_cons, ?ids_fapp; rewrite <- Permutation_middle; constructor; [|rewrite IH];
      rewrite Permutation_app_comm, <- app_assoc; apply Permutation_app_head, Permutation_app_comm. }
  destruct w; cbn [ins]; auto; rewrite ids_fapp; auto. apply Permutation_app_comm.
Qed.

Lemma kids_of_ctx up F l : wf_ids F -> kids_of up F = Some l -> forall l', exists F', Ctx up l l' F F'.
Proof.
  intros W E l'. destruct up as [p|]; cbn [kids_of] in E.
  - destruct (kids_ctx _ _ (children_in _ _ _ E)) as (x & Hx). destruct (Hx l') as (F' & C).
    assert (X := Ctx_kids_of C W). cbn [kids_of] in X. rewrite E in X. injection X as <-. eauto.
  - injection E as ->. exists l'. apply Ctx_top.
Qed.

Lemma ids_at_perm up w t F l : wf_ids F -> kids_of up F = Some l ->
  Permutation (ids (at_kids up (ins w t) F)) (ids t ++ ids F).
Proof.
  intros W E. destruct (kids_of_ctx up F l W E (ins w t l)) as (F' & C).
  rewrite (Ctx_at_kids (ins w t) C W eq_refl). destruct (Ctx_ids C) as (R & P1 & P2).
  rewrite P2, P1, ids_ins_perm, !app_assoc. apply Permutation_app_tail, Permutation_app_comm.
Qed.

Lemma ids_remove_perm n F : wf_ids F -> Permutation (ids (subtree n F) ++ ids (remove n F)) (ids F).
Proof.
  intros W. destruct (in_dec Nat.eq_dec n (ids F)) as [Hn|Hn].
  - destruct (node_ctx _ _ Hn) as (up & l & Hl & C). destruct (root_split n l Hl) as (l1 & a & k & l2 & <- & ->).
    destruct (C (fapp l1 l2)) as (F' & Cx).
    rewrite (Ctx_subtree _ _ _ _ Cx W), (Ctx_remove _ _ _ _ Cx W).
    destruct (Ctx_ids Cx) as (R & P1 & P2). rewrite P1, P2, ids_tree, !ids_fapp, ids_cons.
    rewrite (Permutation_app_comm _ (R ++ _)), <- !app_assoc. apply Permutation_app_head, Permutation_app_head.
    rewrite Permutation_app_comm. auto.
  - rewrite subtree_notin, remove_notin; auto.
Qed.

Lemma resolve_kids t P gt F up w : wf_ids F -> In t (ids F) -> resolve t P gt F = (up, w) -> exists l, kids_of up F = Some l.
Proof.
  intros W Ht E. unfold resolve in E. destruct (parent_kids t F W Ht) as (u & l & Ep & El & _). rewrite Ep in E.
  destruct (children_some t F Ht) as (x & Ex).
  destruct P; injection E as <- <-; eauto.
Qed.

Lemma perm_wf (A B : list nat) (G : forest node) : Permutation (ids G) (A ++ B) -> NoDup A -> NoDup B ->
  (forall i, In i A -> ~ In i B) -> wf_ids G.
Proof.
  intros P HA HB D. unfold wf_ids. rewrite P. apply NoDup_app_iff. repeat split; eauto.
Qed.

(** A successful call keeps the ids unique and adds exactly the new one; a move
    keeps all nodes; a deletion keeps some. *)
Theorem sp_exec_ids o F c F' : wf_ids F -> fresh_call F c -> sp_exec o F c = Ok F' ->
  wf_ids F' /\ match c with
               | CDelete _ => incl (ids F') (ids F)
               | _ => Permutation (ids F') (new_ids c ++ ids F)
               end.
Proof.
  intros W Fr E. assert (E' := E). apply sp_exec_ok in E'. subst F'.
  destruct c as [x|p x|t p x|n t p|l]; cbn [sp_call new_ids] in *; unfold fresh_call in Fr; cbn [new_ids] in Fr.
  - assert (P := ids_at_perm None (match gt_opt o (ndata x) with None => PLast | Some g => PSorted g end) (leaf x) F F W eq_refl).
    split; [|exact P]. apply (perm_wf [nid x] (ids F)); auto; apply NoDup_cons; [intros []|apply NoDup_nil].
  - cbn [sp_exec] in E. destruct (has p F) eqn:Hp; [|discriminate]. apply has_spec in Hp.
    destruct (children_some p F Hp) as (k & Ek).
    assert (P := ids_at_perm (Some p) (match gt_opt o (ndata x) with None => PLast | Some g => PSorted g end) (leaf x) F k W Ek).
    split; [|exact P]. apply (perm_wf [nid x] (ids F)); auto; apply NoDup_cons; [intros []|apply NoDup_nil].
  - cbn [sp_exec] in E. destruct (has t F) eqn:Ht; [|discriminate]. apply has_spec in Ht.
    destruct (prepare_pos_add (sorts o) p) as [P|e]; [|discriminate].
    unfold sp_add_sibling. destruct (resolve t P _ F) as (up, w) eqn:Er.
    destruct (resolve_kids _ _ _ _ _ _ W Ht Er) as (l & El).
    assert (Q := ids_at_perm up w (leaf x) F l W El).
    split; [|exact Q]. apply (perm_wf [nid x] (ids F)); auto; apply NoDup_cons; [intros []|apply NoDup_nil].
  - cbn [sp_exec] in E. destruct (has n F && has t F) eqn:Hnt; [|discriminate]. apply andb_true_iff in Hnt.
    destruct Hnt as (Hn & Ht). apply has_spec in Hn, Ht.
    destruct (prepare_pos_move (sorts o) p) as [P|e]; [|discriminate]. cbn [bind] in E.
    destruct (insideb F n t P) eqn:Ei; [discriminate|]. apply insideb_false in Ei. clear E.
    set (gt := gt_of o (data_of n F)).
    destruct (move_sane n t P gt F W Hn Ht Ei) as [(-> & _ & ->)|(up & a & L1 & L2 & _ & Ea & M & _)]; auto.
    unfold sp_move in *. destruct (resolve t P gt F) as (up', w) eqn:Er.
    destruct (place_is_self n w); auto.
    assert (Wr : wf_ids (remove n F)) by (rewrite <- (remove_all_one n W); apply remove_all_wf; auto).
    assert (Kr : exists l, kids_of up' (remove n F) = Some l).
    { destruct up' as [q|]; [|cbn; eauto]. cbn [kids_of]. apply children_some.
      assert (Hq : q <> n /\ (forall c, children_of n F = Some c -> ~ In q (ids c)) /\ In q (ids F)).
      { assert (G : (is_child_pos P = true /\ q = t) \/ parent_of t F = Some (Some q)).
        { unfold resolve in Er. destruct (parent_kids t F W Ht) as (u & l & Ep & _). rewrite Ep in *.
          destruct P; injection Er; intros; subst; auto. }
        destruct G as [(EP & ->)|Ep].
        - repeat split; auto.
          + intros ->. apply Ei. right. auto.
          + intros c Ec H. apply Ei. left. exists c. auto.
        - destruct (parent_kids t F W Ht) as (u & l & Ep' & El & Hl). rewrite Ep in Ep'. injection Ep' as <-. cbn [kids_of] in El.
          repeat split.
          + intros ->. apply Ei. left. exists l. split; auto. apply roots_ids; auto.
          + intros c Ec H. apply Ei. left. exists c. split; auto. rewrite (children_sub n F c q W Ec H) in El.
            apply (kids_in (Some q) c l t); auto. apply roots_ids; auto.
          + eapply children_in; eauto. }
      destruct Hq as (H1 & H2 & H3).
      apply (Permutation_in q (Permutation_sym (ids_remove_perm n F W))) in H3. apply in_app_iff in H3. destruct H3; auto.
      exfalso. assert (S := subtree_children n F). destruct (children_some n F Hn) as (c & Ec). rewrite Ec in S.
      destruct S as (b & Eb & _ & S). rewrite S, ids_tree in H. cbn in H. destruct H as [H|H]; [congruence|].
      apply (H2 c); auto. }
    destruct Kr as (l & El). assert (Q := ids_at_perm up' w (subtree n F) (remove n F) l Wr El).
    rewrite (ids_remove_perm n F W) in Q. split; auto. unfold wf_ids. rewrite Q. exact W.
  - split; [apply remove_all_wf; auto|]. intros i Hi. eapply remove_all_incl; eauto.
Qed.

Lemma run_wf o cs : forall F, wf_ids F -> ordered o F -> NoDup (flat_map new_ids cs) ->
  (forall i, In i (flat_map new_ids cs) -> ~ In i (ids F)) -> (o <> [] -> Forall (call_values o) cs) ->
  wf_ids (fst (run (sp_exec o) F cs)) /\ ordered o (fst (run (sp_exec o) F cs)).
Proof.
  induction cs as [|c cs IH]; intros F W O ND Fr V; [auto|].
  cbn [flat_map] in ND, Fr. apply NoDup_app_iff in ND. destruct ND as (N1 & N2 & N3). cbn [run].
  assert (V' : o <> [] -> call_values o c /\ Forall (call_values o) cs).
  { intros H. specialize (V H). inversion V; auto. }
  assert (Fc : fresh_call F c) by (intros i Hi; apply Fr, in_app_iff; auto).
  destruct (sp_exec o F c) as [F1|e] eqn:E.
  - destruct (sp_exec_ids o F c F1 W Fc E) as (W1 & I1).
    assert (O1 : ordered o F1). { rewrite (sp_exec_ok o F c F1 E). apply sp_call_ordered; auto. intros H. apply (V' H). }
    destruct (run (sp_exec o) F1 cs) as (F2, d) eqn:R. cbn [fst].
    assert (X := IH F1). rewrite R in X. apply X; auto.
    + intros i Hi Hin. apply sp_exec_ok in E. subst F1. apply sp_call_ids in Hin. destruct Hin as [Hin|Hin].
      * apply (Fr i); auto. apply in_app_iff; auto.
      * apply (N3 i); auto.
    + intros H. apply (V' H).
  - apply IH; auto.
    + intros i Hi. apply Fr, in_app_iff. auto.
    + intros H. apply (V' H).
Qed.
