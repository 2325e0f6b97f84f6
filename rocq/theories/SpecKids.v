(** More about lists of children: every node is in exactly one of them, and the
    ancestors are found by following parents. *)
From Coq Require Import List Arith Lia Bool Permutation.
From Verif Require Import Prelude Forest SpecFacts SpecSane CommonModel Order History SpecRun.
Import ListNotations.

Definition kl (q : option nat) (F : forest node) : list node :=
  match kid_list q F with Some L => L | None => [] end.

Lemma kl_some q F l : kids_of q F = Some l -> kl q F = roots l.
Proof. intros E. unfold kl, kid_list. rewrite E. auto. Qed.

Lemma kl_kid_list q F L : kid_list q F = Some L -> kl q F = L.
Proof. intros E. unfold kl. rewrite E. auto. Qed.

Lemma kl_inv q F a : In a (kl q F) -> exists l, kids_of q F = Some l /\ In a (roots l) /\ kl q F = roots l.
Proof.
  unfold kl, kid_list. destruct (kids_of q F) as [l|]; cbn; [|intros []]. intros H. exists l. auto.
Qed.

Lemma kl_notin q F : ~ In q (ids F) -> kl (Some q) F = [].
Proof. intros H. unfold kl, kid_list. cbn [kids_of]. rewrite children_of_notin; auto. Qed.

Lemma kl_up q F a : In a (kl q F) -> match q with Some p => In p (ids F) | None => True end.
Proof.
  intros H. destruct (kl_inv _ _ _ H) as (l & E & _). destruct q; auto. apply (children_in _ _ _ E).
Qed.

Lemma kl_parent q F a : wf_ids F -> In a (kl q F) -> parent_of (nid a) F = Some q.
Proof.
  intros W H. destruct (kl_inv _ _ _ H) as (l & E & Ha & _).
  destruct (kids_of_ctx q F l W E l) as (F' & C). apply (Ctx_parent_of (nid a) C W). apply in_map. auto.
Qed.

Lemma kl_in q F a : In a (kl q F) -> In (nid a) (ids F).
Proof.
  intros H. destruct (kl_inv _ _ _ H) as (l & E & Ha & _). apply (kids_in q F l); auto.
  apply roots_ids, in_map. auto.
Qed.

Lemma kl_pre q F a : In a (kl q F) -> In a (preorder F).
Proof.
  intros H. destruct (kl_inv _ _ _ H) as (l & E & Ha & _). clear H.
  destruct q as [q|]; cbn [kids_of] in E; [|injection E as <-; apply roots_preorder; auto].
  revert l E Ha. induction F as [|b k IHk r IHr]; intros l E Ha; [discriminate|].
  cbn [children_of] in E. cbn [preorder In]. rewrite in_app_iff.
  destruct (nid b =? q); [injection E as ->; apply roots_preorder in Ha; auto|].
  destruct (children_of q k); [injection E as ->|]; eauto.
Qed.

Lemma wf_roots F : wf_ids F -> NoDup (map nid (roots F)).
Proof.
  induction F as [|a k _ r IH]; intros W; [constructor|].
  assert (Wl := wf_cons_inv W). destruct Wl as (W1 & W2 & W3 & W4 & W5). cbn. constructor; auto.
  intros H. apply roots_ids in H. auto.
Qed.

Lemma wf_kids q F l : wf_ids F -> kids_of q F = Some l -> wf_ids l.
Proof. intros W E. destruct (kids_of_ctx q F l W E l) as (F' & C). apply (Ctx_wf_l C W). Qed.

Lemma kl_nodup q F : wf_ids F -> NoDup (map nid (kl q F)).
Proof.
  intros W. unfold kl, kid_list. destruct (kids_of q F) as [l|] eqn:E; cbn; [|constructor].
  apply wf_roots. eapply wf_kids; eauto.
Qed.

Lemma node_eq F a b : wf_ids F -> In a (preorder F) -> In b (preorder F) -> nid a = nid b -> a = b.
Proof. intros W Ha Hb E. eapply NoDup_map_inj; eauto. Qed.

Lemma kl_unique q q' F a b : wf_ids F -> In a (kl q F) -> In b (kl q' F) -> nid a = nid b -> q = q' /\ a = b.
Proof.
  intros W Ha Hb E. split.
  - assert (X := kl_parent _ _ _ W Ha). assert (Y := kl_parent _ _ _ W Hb). rewrite E in X. congruence.
  - eapply node_eq; eauto using kl_pre.
Qed.

Lemma kl_ex F i : wf_ids F -> In i (ids F) -> exists q a, In a (kl q F) /\ nid a = i /\ parent_of i F = Some q.
Proof.
  intros W H. destruct (parent_kids i F W H) as (up & l & E & El & Hi).
  apply in_map_iff in Hi. destruct Hi as (a & Ea & Ha). exists up, a. rewrite (kl_some _ _ _ El). auto.
Qed.

Lemma siblings_kl s F q : parent_of s F = Some q -> siblings_of s F = kl q F.
Proof.
  intros E. unfold siblings_of. rewrite E. unfold kl, kid_list. destruct (kids_of q F); auto.
Qed.

(** Ancestors by following parents. *)
Lemma anc_from s F : wf_ids F -> In s (ids F) -> forall up, exists A, ancestors_of s F = Some A /\
  ((parent_from up s F = Some up /\ A = []) \/
   exists q A', parent_from up s F = Some (Some (nid q)) /\ In q (preorder F) /\
     ancestors_of (nid q) F = Some A' /\ A = A' ++ [q]).
Proof.
  induction F as [|a k IHk r IHr]; intros W H up; [destruct H|].
  assert (Wl := wf_cons_inv W). destruct Wl as (W1 & W2 & W3 & W4 & W5).
  rewrite ids_cons in H. cbn [In] in H. rewrite in_app_iff in H.
  cbn [ancestors_of parent_from preorder].
  destruct (Nat.eqb_spec (nid a) s) as [E|N]; [exists []; auto|].
  destruct H as [H|[H|H]]; [tauto| |].
  - destruct (IHk W3 H (Some (nid a))) as (A & -> & [(-> & ->)|(q & A' & -> & Hq & Eq & ->)]).
    + exists [a]. split; auto. right. exists a, []. rewrite Nat.eqb_refl. cbn. auto.
    + exists (a :: A' ++ [q]). split; auto. right. exists q, (a :: A').
      cbn [In]. rewrite in_app_iff. assert (Hi : In (nid q) (ids k)) by (apply in_map; auto).
      destruct (Nat.eqb_spec (nid a) (nid q)) as [E|_]; [rewrite E in W1; tauto|]. rewrite Eq. auto.
  - rewrite (parent_from_notin (Some (nid a)) s k) by (intros Hk; eauto).
    rewrite (ancestors_of_notin s k) by (intros Hk; eauto).
    destruct (IHr W4 H up) as (A & -> & [(-> & ->)|(q & A' & -> & Hq & Eq & ->)]).
    + exists []. auto.
    + exists (A' ++ [q]). split; auto. right. exists q, A'. cbn [In]. rewrite in_app_iff.
      assert (Hi : In (nid q) (ids r)) by (apply in_map; auto).
      destruct (Nat.eqb_spec (nid a) (nid q)) as [E|_]; [rewrite E in W2; tauto|].
      rewrite (ancestors_of_notin (nid q) k) by (intros Hk; eauto). auto.
Qed.

Lemma anc_parent s F : wf_ids F -> In s (ids F) -> exists A, ancestors_of s F = Some A /\
  ((parent_of s F = Some None /\ A = []) \/
   exists q A', parent_of s F = Some (Some (nid q)) /\ In q (preorder F) /\
     ancestors_of (nid q) F = Some A' /\ A = A' ++ [q]).
Proof. intros W H. apply (anc_from s F W H None). Qed.

Lemma anc_in s F A : ancestors_of s F = Some A -> forall x, In x A -> In x (preorder F).
Proof.
  revert A. induction F as [|a k IHk r IHr]; intros A E x Hx; [discriminate|].
  cbn [ancestors_of] in E. cbn [preorder In]. rewrite in_app_iff.
  destruct (nid a =? s); [injection E as <-; destruct Hx|].
  destruct (ancestors_of s k) as [l|].
  - injection E as <-. destruct Hx as [->|Hx]; auto. right; left. eapply IHk; eauto.
  - right; right. eapply IHr; eauto.
Qed.

Lemma anc_nodup s F A : wf_ids F -> ancestors_of s F = Some A -> NoDup (map nid A).
Proof.
  revert A. induction F as [|a k IHk r IHr]; intros A W E; [discriminate|].
  assert (Wl := wf_cons_inv W). destruct Wl as (W1 & W2 & W3 & W4 & W5).
  cbn [ancestors_of] in E. destruct (nid a =? s); [injection E as <-; constructor|].
  destruct (ancestors_of s k) as [l|] eqn:Ek; [|eauto].
  injection E as <-. cbn. constructor; [|eauto]. rewrite in_map_iff. intros (x & Ex & Hx). apply W1. rewrite <- Ex.
  apply in_map, (anc_in _ _ _ Ek). auto.
Qed.

Lemma anc_length s F A : wf_ids F -> ancestors_of s F = Some A -> length A <= size F.
Proof.
  intros W E. rewrite <- (map_length nid A), <- size_preorder, <- (map_length nid).
  apply NoDup_incl_length; [eapply anc_nodup; eauto|]. intros i Hi. apply in_map_iff in Hi.
  destruct Hi as (x & <- & Hx). apply in_map. eapply anc_in; eauto.
Qed.
