(** A forest that grows: nodes are added, nothing else changes. *)
From Coq Require Import String List Arith Lia Bool ZArith Permutation.
From Verif Require Import Prelude Forest SpecFacts SpecSane SpecKids CommonModel Order History SpecRun.
Import ListNotations.

Lemma anc_has i F A : ancestors_of i F = Some A -> In i (ids F).
Proof.
  revert A. induction F as [|a k IHk r IHr]; intros A E; [discriminate|]. rewrite ids_cons. cbn [ancestors_of] in E.
  destruct (Nat.eqb_spec (nid a) i); [left; auto|right]. apply in_app_iff. destruct (ancestors_of i k); eauto.
Qed.

Lemma anc_irr i F A : wf_ids F -> ancestors_of i F = Some A -> forall x, In x A -> nid x <> i.
Proof.
  revert A. induction F as [|a k IHk r IHr]; intros A W E x Hx; [discriminate|].
  apply wf_cons_inv in W. destruct W as (_ & _ & Wk & Wr & _). cbn [ancestors_of] in E.
  destruct (Nat.eqb_spec (nid a) i) as [|Ne]; [injection E as <-; destruct Hx|].
  destruct (ancestors_of i k) as [l|]; [|eauto]. injection E as <-. destruct Hx as [<-|Hx]; eauto.
Qed.

Lemma parent_has i F p : parent_of i F = Some p -> In i (ids F).
Proof.
  unfold parent_of. generalize (@None nat). induction F as [|a k IHk r IHr]; intros up E; [discriminate|].
  rewrite ids_cons. cbn [parent_from] in E. destruct (Nat.eqb_spec (nid a) i); [left; auto|right].
  apply in_app_iff. destruct (parent_from (Some (nid a)) i k) eqn:Ek; [left|right]; eauto. apply (IHk (Some (nid a))). congruence.
Qed.

(** [G] is [F] with some more nodes: the nodes of [F] keep their values, parents, and order. *)
Inductive grows : forest node -> forest node -> Prop :=
| grows_nil G : grows Nil G
| grows_cons a k k' r r' : grows k k' -> grows r r' -> grows (Cons a k r) (Cons a k' r')
| grows_skip F b kb r : grows F r -> grows F (Cons b kb r).

Lemma grows_refl F : grows F F.
Proof. induction F; constructor; auto. Qed.

Lemma grows_trans F G H : grows F G -> grows G H -> grows F H.
Proof.
  intros HF HG. revert F HF. induction HG as [G|a k k' r r' Hk IHk Hr IHr|G b kb r Hr IHr]; intros F HF.
  - inversion HF; subst. constructor.
  - inversion HF; subst; constructor; auto.
  - apply grows_skip. auto.
Qed.

Lemma grows_in F G x : grows F G -> In x (preorder F) -> In x (preorder G).
Proof.
  induction 1 as [G|a k k' r r' _ IHk _ IHr|F b kb r _ IH]; intros Hx; [destruct Hx| |].
  - cbn [preorder] in *. destruct Hx as [->|Hx]; [left; auto|right]. apply in_app_iff in Hx. apply in_app_iff. tauto.
  - right. apply in_app_iff. auto.
Qed.

Lemma grows_ids F G : grows F G -> incl (ids F) (ids G).
Proof. intros H i Hi. apply in_map_iff in Hi. destruct Hi as (x & <- & Hx). apply in_map. eapply grows_in; eauto. Qed.

Lemma grows_wf F G : grows F G -> wf_ids G -> wf_ids F.
Proof.
  induction 1 as [G|a k k' r r' Hk IHk Hr IHr|F b kb r _ IH]; intros W.
  - constructor.
  - apply wf_cons_inv in W. destruct W as (A & B & C & D & E). unfold wf_ids. rewrite ids_cons.
    assert (Ik := grows_ids _ _ Hk). assert (Ir := grows_ids _ _ Hr). constructor.
    + rewrite in_app_iff. intros [H|H]; auto.
    + apply NoDup_app_iff. split; [apply IHk; auto|]. split; [apply IHr; auto|]. intros x Hx Hy. apply (E x); auto.
  - apply IH. apply wf_cons_inv in W. tauto.
Qed.

Lemma grows_kids F G i k : grows F G -> wf_ids G -> children_of i F = Some k -> exists k', children_of i G = Some k' /\ grows k k'.
Proof.
  induction 1 as [G|a k0 k' r r' Hk IHk Hr IHr|F b kb r Hr IH]; intros W E; [discriminate| |].
  - apply wf_cons_inv in W. destruct W as (_ & _ & Wk & Wr & D). cbn [children_of] in *.
    destruct (nid a =? i); [injection E as <-; eauto|].
    destruct (children_of i k0) as [c|] eqn:Ec.
    + injection E as ->. destruct (IHk Wk eq_refl) as (c' & -> & H). eauto.
    + destruct (IHr Wr E) as (c' & E' & H). rewrite (children_of_notin i k'); eauto.
      intros Hi. apply (D i Hi). destruct (in_dec Nat.eq_dec i (ids r')) as [X|X]; auto. rewrite children_of_notin in E' by auto. discriminate.
  - assert (W' := W). apply wf_cons_inv in W. destruct W as (_ & B & _ & Wr & D). destruct (IH Wr E) as (c & Ec & H). exists c. split; auto.
    assert (Hi : In i (ids r)) by (destruct (in_dec Nat.eq_dec i (ids r)) as [X|X]; auto; rewrite children_of_notin in Ec by auto; discriminate).
    cbn [children_of]. destruct (Nat.eqb_spec (nid b) i) as [Eb|_]; [subst i; tauto|]. rewrite (children_of_notin i kb); auto. intros X. apply (D i X Hi).
Qed.

Lemma grows_ancestors F G i A : grows F G -> wf_ids G -> ancestors_of i F = Some A -> ancestors_of i G = Some A.
Proof.
  assert (An : forall i f, ~ In i (ids f) -> ancestors_of i f = None).
  { clear. intros i. induction f as [|a k IHk r IHr]; auto. rewrite ids_cons. cbn [ancestors_of]. intros H.
    destruct (Nat.eqb_spec (nid a) i) as [Eb|_]; [destruct H; left; auto|].
    rewrite IHk, IHr; auto; intros X; apply H; right; apply in_app_iff; auto. }
  intros H. revert A. induction H as [G|a k0 k' r r' Hk IHk Hr IHr|F b kb r Hr IH]; intros A W E; [discriminate| |].
  - apply wf_cons_inv in W. destruct W as (_ & _ & Wk & Wr & D). cbn [ancestors_of] in *.
    destruct (nid a =? i); auto. destruct (ancestors_of i k0) as [c|] eqn:Ec.
    + rewrite (IHk c Wk eq_refl). auto.
    + assert (E' := IHr A Wr E). rewrite (An i k'); auto.
      intros Hi. apply (D i Hi). destruct (in_dec Nat.eq_dec i (ids r')) as [X|X]; auto. rewrite An in E' by auto. discriminate.
  - assert (W' := W). apply wf_cons_inv in W. destruct W as (_ & B & _ & Wr & D). assert (Ec := IH A Wr E).
    assert (Hi : In i (ids r)) by (destruct (in_dec Nat.eq_dec i (ids r)) as [X|X]; auto; rewrite An in Ec by auto; discriminate).
    cbn [ancestors_of]. destruct (Nat.eqb_spec (nid b) i) as [Eb|_]; [subst i; tauto|]. rewrite (An i kb); auto. intros X. apply (D i X Hi).
Qed.

(** ** Adding is growing *)
Lemma grows_fapp_l F G : grows F (fapp G F).
Proof. induction G as [|a k _ r IH]; [apply grows_refl|]. apply grows_skip. auto. Qed.
Lemma grows_fapp_r F G : grows F (fapp F G).
Proof. induction F as [|a k _ r IH]; constructor; auto using grows_refl. Qed.

Lemma grows_ins w x l : grows l (ins w (leaf x) l).
Proof.
  destruct w; cbn [ins]; [apply grows_fapp_l|apply grows_fapp_r| | |].
  - induction l as [|a k _ r IH]; [constructor|]. cbn [ins_before]. destruct (_ =? _); [apply (grows_fapp_l (Cons a k r) (leaf x))|].
    constructor; auto using grows_refl.
  - induction l as [|a k _ r IH]; [constructor|]. cbn [ins_after].
    destruct (_ =? _); constructor; auto using grows_refl. apply (grows_fapp_l r (leaf x)).
  - induction l as [|a k _ r IH]; [constructor|]. cbn [ins_before]. destruct (gt a); [apply (grows_fapp_l (Cons a k r) (leaf x))|].
    constructor; auto using grows_refl.
Qed.

Lemma grows_at_kids p h F : (forall l, grows l (h l)) -> grows F (at_kids p h F).
Proof.
  intros H. destruct p as [p|]; cbn [at_kids]; auto. induction F as [|a k IHk r IHr]; cbn [at_node]; [constructor|].
  destruct (_ =? _); constructor; auto using grows_refl.
Qed.

(** The calls that add a node. *)
Definition adds (c : call) : Prop := match c with CAddRoot _ | CAddChild _ _ | CAddSibling _ _ _ => True | _ => False end.

Lemma adds_grow o F G c : adds c -> sp_exec o F c = Ok G -> grows F G.
Proof.
  intros A E. destruct c; try destruct A; cbn [sp_exec] in E.
  - injection E as <-. cbn [sp_call sp_add_root]. apply grows_ins.
  - destruct (has _ F); [|discriminate]. injection E as <-. cbn [sp_call]. apply (grows_at_kids (Some _)). intros l. apply grows_ins.
  - destruct (has _ F); [|discriminate]. destruct (prepare_pos_add _ _) as [P|]; [|discriminate]. cbn [bind] in E. injection E as <-.
    cbn [sp_call]. match goal with |- context [match ?x with _ => _ end] => destruct x eqn:? end; try apply grows_refl.
    unfold sp_add_sibling. destruct (resolve _ _ _ _) as [up w]. apply grows_at_kids. intros l. apply grows_ins.
Qed.

Lemma remove_grows S F : grows (remove_all S F) F.
Proof. induction F as [|a k IHk r IHr]; cbn [remove_all]; [constructor|]. destruct (S (nid a)); constructor; auto. Qed.

Lemma grows_parent F G i p q : grows F G -> wf_ids G -> parent_of i F = Some p -> parent_of i G = Some q -> p = q.
Proof.
  intros H W Ep Eq.
  destruct (anc_parent i F (grows_wf _ _ H W) (parent_has _ _ _ Ep)) as (A & EA & HA).
  destruct (anc_parent i G W (parent_has _ _ _ Eq)) as (B & EB & HB).
  rewrite (grows_ancestors _ _ _ _ H W EA) in EB. injection EB as <-. rewrite Ep in HA. rewrite Eq in HB.
  destruct HA as [(HA & ->)|(a & A' & HA & _ & _ & ->)], HB as [(HB & HB')|(b & B' & HB & _ & _ & HB')]; try congruence.
  - destruct B'; discriminate.
  - destruct A'; discriminate.
  - apply app_inj_tail in HB'. destruct HB' as (_ & ->). congruence.
Qed.

(** ** Histories *)
Lemma run_ids o cs : forall G i, In i (ids (fst (run (sp_exec o) G cs))) -> In i (ids G) \/ In i (flat_map new_ids cs).
Proof.
  induction cs as [|c cs IH]; intros G i H; [auto|]. cbn [run] in H. cbn [flat_map]. rewrite in_app_iff.
  destruct (sp_exec o G c) as [G'|] eqn:E.
  - destruct (run (sp_exec o) G' cs) as [G2 d] eqn:Er. cbn [fst] in H. specialize (IH G' i). rewrite Er in IH. destruct (IH H) as [X|X]; auto.
    apply sp_exec_ok in E. subst G'. apply sp_call_ids in X. tauto.
  - specialize (IH G i). destruct (run (sp_exec o) G cs). destruct (IH H); auto.
Qed.

Lemma run_adds o cs : Forall adds cs -> forall G, grows G (fst (run (sp_exec o) G cs)).
Proof.
  induction 1 as [|c cs Hc _ IH]; intros G; [apply grows_refl|]. cbn [run]. destruct (sp_exec o G c) as [G'|] eqn:E.
  - specialize (IH G'). destruct (run (sp_exec o) G' cs). eapply grows_trans; [eapply adds_grow; eauto|exact IH].
  - specialize (IH G). destruct (run (sp_exec o) G cs). exact IH.
Qed.

(** The calls that add or delete nodes. *)
Definition no_move (c : call) : Prop := match c with CMove _ _ _ => False | _ => True end.

Lemma run_stays o cs : Forall no_move cs -> forall G, wf_ids G -> NoDup (flat_map new_ids cs) ->
  (forall i, In i (flat_map new_ids cs) -> ~ In i (ids G)) -> forall i p q,
  parent_of i G = Some p -> parent_of i (fst (run (sp_exec o) G cs)) = Some q -> p = q.
Proof.
  induction 1 as [|c cs Hc _ IH]; intros G W N Fr i p q Ep Eq; [cbn [run fst] in Eq; congruence|]. cbn [run] in Eq.
  cbn [flat_map] in *. apply NoDup_app_iff in N. destruct N as (N1 & N2 & N3).
  destruct (sp_exec o G c) as [G'|] eqn:E.
  - assert (Fc : fresh_call G c) by (intros x Hx; apply Fr; apply in_app_iff; auto).
    destruct (sp_exec_ids o G c G' W Fc E) as (W' & _).
    assert (Q : parent_of i (fst (run (sp_exec o) G' cs)) = Some q) by (destruct (run (sp_exec o) G' cs); auto). clear Eq.
    assert (Fr' : forall x, In x (flat_map new_ids cs) -> ~ In x (ids G')).
    { intros x Hx Hi. assert (E2 := sp_exec_ok _ _ _ _ E). subst G'. apply sp_call_ids in Hi. destruct Hi as [Hi|Hi]; [apply (Fr x); auto; apply in_app_iff; auto|eapply N3; eauto]. }
    destruct (in_dec Nat.eq_dec i (ids G')) as [Hi|Hi].
    + destruct (anc_parent i G' W' Hi) as (A & _ & HA). assert (exists p', parent_of i G' = Some p') as (p' & E').
      { destruct HA as [(X & _)|(b & A' & X & _)]; eauto. }
      assert (p' = q) by (apply (IH G' W' N2 Fr' i); auto). subst q.
      destruct (match c with CDelete _ => true | _ => false end) eqn:D.
      * destruct c; try discriminate. cbn [sp_exec sp_call] in E. injection E as <-. symmetry. eapply (grows_parent _ G i); [apply remove_grows|exact W|exact E'|exact Ep].
      * apply (grows_parent G G' i); auto. eapply adds_grow; eauto. destruct c; try discriminate; try exact I. destruct Hc.
    + exfalso. destruct (run_ids o cs G' i (parent_has _ _ _ Q)) as [X|X]; auto. apply (Fr i); [apply in_app_iff; auto|]. eapply parent_has; eauto.
  - assert (Q : parent_of i (fst (run (sp_exec o) G cs)) = Some q) by (destruct (run (sp_exec o) G cs); auto).
    apply (IH G W N2) with i; auto. intros x Hx. apply Fr. apply in_app_iff. auto.
Qed.
