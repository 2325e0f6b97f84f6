(** Forests that differ only in the order of siblings, and the calls of the API on them. *)
From Coq Require Import String List Arith Lia Bool Permutation.
From Verif Require Import Prelude Forest SpecFacts SpecSane SpecRun SpecKids CommonModel Order History.
Import ListNotations.

(** The same nodes with the same children, in any order. *)
Definition same_kids (F G : forest node) : Prop := forall q,
  match kid_list q F, kid_list q G with
  | Some L, Some M => Permutation L M
  | None, None => True
  | _, _ => False
  end.

Lemma same_refl F : same_kids F F.
Proof. intros q. destruct (kid_list q F); auto. Qed.
Lemma same_sym F G : same_kids F G -> same_kids G F.
Proof. intros H q. specialize (H q). destruct (kid_list q F), (kid_list q G); auto. symmetry. auto. Qed.
Lemma same_trans F G H : same_kids F G -> same_kids G H -> same_kids F H.
Proof.
  intros A B q. specialize (A q). specialize (B q).
  destruct (kid_list q F), (kid_list q G), (kid_list q H); try tauto. etransitivity; eauto.
Qed.
Lemma same_eq F G : F = G -> same_kids F G.
Proof. intros ->. apply same_refl. Qed.

Lemma same_kl F G q : same_kids F G -> Permutation (kl q F) (kl q G).
Proof. intros H. unfold kl. specialize (H q). destruct (kid_list q F), (kid_list q G); try tauto; auto. Qed.

Lemma kid_list_in q F : In q (ids F) <-> kid_list (Some q) F <> None.
Proof.
  unfold kid_list. cbn [kids_of]. split.
  - intros H. destruct (children_some q F H) as (l & ->). discriminate.
  - destruct (children_of q F) eqn:E; [intros _|intros H; exfalso; apply H; reflexivity]. apply (children_in _ _ _ E).
Qed.

Lemma same_ids F G : same_kids F G -> forall i, In i (ids F) <-> In i (ids G).
Proof.
  intros H i. rewrite !kid_list_in. specialize (H (Some i)).
  destruct (kid_list (Some i) F), (kid_list (Some i) G); try tauto; split; congruence.
Qed.

Lemma same_node F G a : wf_ids F -> same_kids F G -> In a (preorder F) -> In a (preorder G).
Proof.
  intros W H Ha. destruct (kl_ex F (nid a) W) as (q & b & Hb & E & _); [apply in_map; auto|].
  assert (a = b) by (eapply node_eq; eauto using kl_pre). subst b.
  apply (kl_pre q). eapply Permutation_in; [apply same_kl; eauto|auto].
Qed.

Lemma same_parent F G s : wf_ids F -> wf_ids G -> same_kids F G -> parent_of s F = parent_of s G.
Proof.
  intros WF WG H. destruct (in_dec Nat.eq_dec s (ids F)) as [Hi|Hi].
  - destruct (kl_ex F s WF Hi) as (q & a & Ha & E & ->). symmetry. rewrite <- E. apply kl_parent; auto.
    eapply Permutation_in; [apply same_kl; eauto|auto].
  - unfold parent_of. rewrite parent_from_notin by auto. rewrite parent_from_notin; auto. intros X. apply Hi. eapply same_ids; eauto.
Qed.

Lemma same_anc F G s : wf_ids F -> wf_ids G -> same_kids F G -> In s (ids F) -> ancestors_of s F = ancestors_of s G.
Proof.
  intros WF WG H. remember (size F) as m eqn:Em.
  assert (K : forall n s A, ancestors_of s F = Some A -> length A <= n -> In s (ids F) -> ancestors_of s G = Some A).
  { induction n as [n IH] using (well_founded_induction lt_wf). intros t A EA Hn Ht.
    destruct (anc_parent t F WF Ht) as (A1 & E1 & C1). rewrite EA in E1. injection E1 as <-.
    assert (Ht' : In t (ids G)) by (eapply same_ids; eauto using same_sym).
    destruct (anc_parent t G WG Ht') as (B & EB & CB). rewrite EB. f_equal.
    assert (EP := same_parent F G t WF WG H).
    destruct C1 as [(P1 & ->)|(q & A' & P1 & Hq & EA' & ->)], CB as [(P2 & ->)|(q2 & B' & P2 & Hq2 & EB' & ->)];
      try congruence.
    assert (q = q2).
    { assert (nid q = nid q2) by congruence. apply (node_eq G); auto. apply (same_node F G); auto. }
    subst q2. f_equal. rewrite app_length in Hn. cbn in Hn.
    assert (X : ancestors_of (nid q) G = Some A').
    { apply (IH (length A')); auto; try lia. apply in_map; auto. }
    congruence. }
  intros Hs. destruct (anc_parent s F WF Hs) as (A & EA & _). rewrite EA. symmetry.
  apply (K (length A)); auto.
Qed.

Lemma anc_descends F n t : wf_ids F -> In t (ids F) ->
  (descends F n t <-> exists A, ancestors_of t F = Some A /\ In n (map nid A)).
Proof.
  unfold descends. induction F as [|a k IHk r IHr]; intros W Ht; [destruct Ht|].
  assert (Wl := wf_cons_inv W). destruct Wl as (W3 & W4 & W1 & W2 & W5).
  rewrite ids_cons in Ht. cbn [In] in Ht. rewrite in_app_iff in Ht. cbn [children_of ancestors_of].
  assert (KI := kids_in (Some n)). cbn [kids_of] in KI.
  destruct (Nat.eqb_spec (nid a) t) as [Ea|Na].
  - split.
    + intros (l & E & Hl). exfalso. destruct (Nat.eqb_spec (nid a) n).
      * injection E as <-. congruence.
      * destruct (children_of n k) eqn:Ek; [injection E as <-; apply W3; rewrite Ea; eapply KI; eauto|].
        apply W4. rewrite Ea. eapply KI; eauto.
    + intros (A & E & Hn). injection E as <-. destruct Hn.
  - destruct Ht as [Ht|[Ht|Ht]]; [tauto| |].
    + destruct (anc_parent t k W1 Ht) as (A & EA & _). rewrite EA. specialize (IHk W1 Ht).
      split.
      * intros (l & E & Hl). exists (a :: A). split; auto. cbn [map In].
        destruct (Nat.eqb_spec (nid a) n); auto. right.
        destruct (children_of n k) as [l'|] eqn:Ek.
        -- injection E as <-. destruct IHk as [IH _]. destruct IH as (A' & EA' & Hn); [eauto|]. congruence.
        -- exfalso. apply (W5 t); auto. eapply KI; eauto.
      * intros (A' & E & Hn). injection E as <-. cbn [map In] in Hn. destruct (Nat.eqb_spec (nid a) n); [eauto|].
        destruct Hn as [Hn|Hn]; [tauto|]. destruct IHk as [_ IH]. destruct IH as (l & E & Hl); [eauto|].
        rewrite E. eauto.
    + rewrite (ancestors_of_notin t k) by (intros X; apply (W5 t); auto). specialize (IHr W2 Ht).
      rewrite <- IHr. destruct (Nat.eqb_spec (nid a) n) as [En|Nn].
      * split.
        -- intros (l & E & Hl). injection E as <-. exfalso. apply (W5 t); auto.
        -- intros (l & E & Hl). exfalso. apply W4. rewrite En. apply (children_in _ _ _ E).
      * destruct (children_of n k) as [l'|] eqn:Ek; [|reflexivity].
        split.
        -- intros (l & E & Hl). injection E as <-. exfalso. apply (W5 t); auto. eapply KI; eauto.
        -- intros (l & E & Hl). exfalso. apply (W5 n); [apply (children_in _ _ _ Ek)|apply (children_in _ _ _ E)].
Qed.

Lemma desc_in F n t : descends F n t -> In t (ids F).
Proof. intros (l & E & H). apply (kids_in (Some n) F l); auto. Qed.

Lemma same_descends F G n t : wf_ids F -> wf_ids G -> same_kids F G -> descends F n t -> descends G n t.
Proof.
  intros WF WG H D. assert (Ht := desc_in _ _ _ D). apply anc_descends in D; auto.
  apply anc_descends; auto; [eapply same_ids; eauto using same_sym|].
  rewrite <- (same_anc F G); auto.
Qed.

Lemma same_has F G n : same_kids F G -> has n F = has n G.
Proof.
  intros H. destruct (has n F) eqn:E, (has n G) eqn:E'; auto; exfalso.
  - apply has_spec in E. apply has_false in E'. apply E'. eapply same_ids; eauto using same_sym.
  - apply has_spec in E'. apply has_false in E. apply E. eapply same_ids; eauto.
Qed.

Lemma same_inside F G n t P : wf_ids F -> wf_ids G -> same_kids F G -> insideb F n t P = insideb G n t P.
Proof.
  intros WF WG H.
  assert (K : inside F n t P <-> inside G n t P).
  { unfold inside. split; intros [D|D]; auto; left; [apply (same_descends F G)|apply (same_descends G F)]; auto using same_sym. }
  rewrite <- !insideb_spec in K. destruct (insideb F n t P), (insideb G n t P); intuition congruence.
Qed.

Lemma perm_eq_opt (x y : option (list node)) :
  match x, y with Some L, Some M => Permutation L M | None, None => True | _, _ => False end ->
  forall g : list node -> list node, (forall L M, Permutation L M -> Permutation (g L) (g M)) ->
  match option_map g x, option_map g y with Some L, Some M => Permutation L M | None, None => True | _, _ => False end.
Proof. destruct x, y; cbn; auto. Qed.

Lemma perm_filter {A} (p : A -> bool) L M : Permutation L M -> Permutation (filter p L) (filter p M).
Proof.
  induction 1; cbn; auto.
  - destruct (p x); auto.
  - destruct (p x), (p y); auto; try apply perm_swap.
  - etransitivity; eauto.
Qed.

Lemma same_added F G F' G' up x L1 L2 M1 M2 : same_kids F G ->
  added F F' up x L1 L2 -> added G G' up x M1 M2 -> up <> Some (nid x) -> same_kids F' G'.
Proof.
  intros H [A1 A2 A3 A4] [B1 B2 B3 B4] Nu. intros q.
  destruct (opt_dec q up) as [->|Nq].
  - rewrite A2, B2. specialize (H up). rewrite A1, B1 in H.
    rewrite <- !Permutation_middle. constructor. auto.
  - destruct (opt_dec q (Some (nid x))) as [->|Nx].
    + rewrite A3, B3. auto.
    + rewrite A4, B4; auto. apply H.
Qed.

Lemma same_moved F G F' G' up a b L1 L2 M1 M2 : wf_ids F -> wf_ids G -> same_kids F G ->
  moved F F' up a L1 L2 -> moved G G' up b M1 M2 -> nid a = nid b -> same_kids F' G'.
Proof.
  intros WF WG H [A0 (L & A1 & A2) A3 A4] [B0 (M & B1 & B2) B3 B4] E q.
  assert (a = b) by (apply (node_eq G); auto; apply (same_node F G); auto). subst b.
  destruct (opt_dec q up) as [->|Nq].
  - rewrite A3, B3. rewrite <- !Permutation_middle. constructor. rewrite <- A2, <- B2.
    apply perm_filter. specialize (H up). rewrite A1, B1 in H. auto.
  - rewrite A4, B4; auto. apply perm_eq_opt; [apply H|]. intros. apply perm_filter. auto.
Qed.

(** Dropping a node from the list of siblings it is in and putting it back. *)
Lemma moved_same F G up a L1 L2 : wf_ids F -> moved F G up a L1 L2 -> parent_of (nid a) F = Some up -> same_kids F G.
Proof.
  intros W [A0 (L & A1 & A2) A3 A4] E q.
  destruct (kl_ex F (nid a) W) as (up' & b & Hb & Eb & E'); [apply in_map; auto|].
  assert (up' = up) by congruence. subst up'.
  assert (a = b) by (eapply node_eq; eauto using kl_pre). subst b.
  assert (NB := fun q => kl_nodup q F W).
  destruct (opt_dec q up) as [->|Nq].
  - rewrite A1, A3. unfold kl in Hb. rewrite A1 in Hb. rewrite <- Permutation_middle, <- A2.
    specialize (NB up). unfold kl in NB. rewrite A1 in NB.
    apply in_split in Hb. destruct Hb as (X & Y & ->). rewrite map_app in NB. cbn [map] in NB.
    apply NoDup_remove in NB. destruct NB as [_ NB]. rewrite in_app_iff in NB.
    rewrite drop_app, (drop_notin _ X) by tauto. unfold drop at 1. cbn [filter].
    rewrite Nat.eqb_refl. cbn [negb]. fold (drop (nid a) Y). rewrite (drop_notin _ Y) by tauto.
    rewrite Permutation_middle. auto.
  - rewrite A4 by auto. destruct (kid_list q F) as [M|] eqn:EM; cbn; auto.
    rewrite drop_notin; auto. intros X. apply in_map_iff in X. destruct X as (c & Ec & Hc).
    assert (Hc' : In c (kl q F)) by (unfold kl; rewrite EM; auto).
    destruct (kl_unique q up F c a W Hc' Hb Ec). congruence.
Qed.

(** ** The calls *)
Lemma same_add_root g g' x F G : wf_ids F -> wf_ids G -> same_kids F G -> ~ In (nid x) (ids F) ->
  same_kids (sp_add_root g x F) (sp_add_root g' x G).
Proof.
  intros WF WG H Hx. assert (Hx' : ~ In (nid x) (ids G)) by (intros X; apply Hx; eapply same_ids; eauto).
  destruct (add_root_sane g x F WF Hx) as (L1 & L2 & A & _). destruct (add_root_sane g' x G WG Hx') as (M1 & M2 & B & _).
  eapply same_added; eauto. discriminate.
Qed.

Lemma same_add_child g g' p x F G : wf_ids F -> wf_ids G -> same_kids F G -> In p (ids F) -> ~ In (nid x) (ids F) ->
  same_kids (sp_add_child g p x F) (sp_add_child g' p x G).
Proof.
  intros WF WG H Hp Hx. assert (Hx' : ~ In (nid x) (ids G)) by (intros X; apply Hx; eapply same_ids; eauto).
  assert (Hp' : In p (ids G)) by (eapply same_ids; eauto using same_sym).
  destruct (add_child_sane g p x F WF Hp Hx) as (L1 & L2 & A & _).
  destruct (add_child_sane g' p x G WG Hp' Hx') as (M1 & M2 & B & _).
  eapply same_added; eauto. intros E. injection E as ->. auto.
Qed.

Lemma same_add_sibling P P' g g' t x F G : wf_ids F -> wf_ids G -> same_kids F G -> In t (ids F) -> ~ In (nid x) (ids F) ->
  is_sib_pos P -> is_sib_pos P' -> same_kids (sp_add_sibling t P g x F) (sp_add_sibling t P' g' x G).
Proof.
  intros WF WG H Ht Hx HP HP'. assert (Hx' : ~ In (nid x) (ids G)) by (intros X; apply Hx; eapply same_ids; eauto).
  assert (Ht' : In t (ids G)) by (eapply same_ids; eauto using same_sym).
  destruct (add_sibling_sane t P g x F WF Ht Hx HP) as (up & L1 & L2 & E & A & _).
  destruct (add_sibling_sane t P' g' x G WG Ht' Hx' HP') as (up' & M1 & M2 & E' & B & _).
  rewrite <- (same_parent F G) in E' by auto. assert (up' = up) by congruence. subst up'.
  eapply same_added; eauto. intros ->. apply Hx.
  destruct A as [A1 _ _ _]. unfold kid_list in A1. cbn [kids_of] in A1.
  destruct (children_of (nid x) F) eqn:Ec; [|discriminate]. apply (children_in _ _ _ Ec).
Qed.

Lemma same_move P P' g g' n t F G : wf_ids F -> wf_ids G -> same_kids F G -> In n (ids F) -> In t (ids F) ->
  ~ inside F n t P -> is_child_pos P = is_child_pos P' ->
  same_kids (sp_move n t P g F) (sp_move n t P' g' G).
Proof.
  intros WF WG H Hn Ht Hi EP.
  assert (Hn' : In n (ids G)) by (eapply same_ids; eauto using same_sym).
  assert (Ht' : In t (ids G)) by (eapply same_ids; eauto using same_sym).
  assert (Hi' : ~ inside G n t P').
  { intros X. apply Hi. unfold inside in *. rewrite EP. destruct X as [X|X]; auto. left.
    eapply same_descends; [exact WG|exact WF|apply same_sym; exact H|auto]. }
  destruct (move_sane n t P g F WF Hn Ht Hi) as [(E1 & HP & ->)|(up & a & L1 & L2 & Eu & Ea & A & _)];
  destruct (move_sane n t P' g' G WG Hn' Ht' Hi') as [(E2 & HP' & ->)|(up' & b & M1 & M2 & Eu' & Eb & B & _)]; auto.
  - assert (Ec : is_child_pos P' = false) by (rewrite <- EP; destruct HP as [-> | ->]; reflexivity).
    rewrite Ec in Eu'. eapply same_trans; [exact H|]. eapply moved_same; eauto. congruence.
  - assert (Ec : is_child_pos P = false) by (rewrite EP; destruct HP' as [-> | ->]; reflexivity).
    rewrite Ec in Eu. eapply same_trans; [|exact H]. apply same_sym. eapply moved_same; eauto. congruence.
  - assert (up = up').
    { rewrite <- EP in Eu'. destruct (is_child_pos P); [congruence|].
      rewrite <- (same_parent F G) in Eu' by auto. congruence. }
    subst up'. apply (same_moved F G _ _ up a b L1 L2 M1 M2); auto. congruence.
Qed.

Lemma same_remove_all S F G : wf_ids F -> wf_ids G -> same_kids F G -> same_kids (remove_all S F) (remove_all S G).
Proof.
  intros WF WG H q. destruct q as [q|].
  - destruct (in_dec Nat.eq_dec q (ids F)) as [Hq|Hq].
    + destruct (anc_parent q F WF Hq) as (A & EA & _).
      rewrite (remove_all_sane S F q A), (remove_all_sane S G q A); auto; [|rewrite <- (same_anc F G); auto].
      destruct (S q || existsb (fun a => S (nid a)) A); auto.
      apply perm_eq_opt; [apply H|]. intros. apply perm_filter. auto.
    + assert (Hq' : ~ In q (ids G)) by (intros X; apply Hq; eapply same_ids; eauto).
      assert (K : forall F, ~ In q (ids F) -> kid_list (Some q) (remove_all S F) = None).
      { intros F0 H0. unfold kid_list. cbn [kids_of]. rewrite children_of_notin; auto.
        intros X. apply remove_all_incl in X. auto. }
      rewrite !K; auto.
  - rewrite (SpecSane.remove_all_roots S F), (SpecSane.remove_all_roots S G). apply perm_eq_opt; [apply H|]. intros. apply perm_filter. auto.
Qed.

Lemma Ctx_roots p l l' F F' : Ctx (Some p) l l' F F' -> roots F = roots F'.
Proof. intros C. remember (Some p) as up eqn:E. revert E. induction C; intros E; cbn [roots]; auto; try discriminate. f_equal. auto. Qed.

Lemma Ctx_same up l l' F F' : Ctx up l l' F F' -> wf_ids F -> wf_ids F' -> Permutation (roots l) (roots l') ->
  (forall q, option_map (@roots node) (children_of q l) = option_map (@roots node) (children_of q l')) -> same_kids F F'.
Proof.
  intros C W W' P H q. destruct (opt_dec q up) as [->|Nq].
  - unfold kid_list. rewrite (Ctx_kids_of C W).
    destruct (Ctx_chain _ _ _ _ _ C l') as (f2 & C1 & C2).
    rewrite (Ctx_kids_of C1 W'). cbn. auto.
  - destruct q as [q|].
    + assert (E : kid_list (Some q) F = kid_list (Some q) F').
      { unfold kid_list. cbn [kids_of]. clear W W'.
        revert Nq. induction C; intros Nq; cbn [children_of] in *; auto.
        - destruct (Nat.eqb_spec (nid a) q) as [E|E]; [exfalso; congruence|].
          specialize (H q). destruct (children_of q l), (children_of q l'); cbn [option_map] in *; auto; congruence.
        - destruct (nid a =? q); [cbn [option_map]; f_equal; eapply Ctx_roots; eauto|]. specialize (IHC P H Nq).
          destruct (children_of q k), (children_of q k'); cbn [option_map] in *; auto; congruence.
        - destruct (nid a =? q); auto. specialize (IHC P H Nq).
          destruct (children_of q k); auto. }
      rewrite E. destruct (kid_list (Some q) F'); auto.
    + assert (E : kid_list None F = kid_list None F').
      { unfold kid_list. cbn [kids_of option_map]. f_equal. revert Nq.
        induction C; intros Nq; cbn [roots]; auto; try congruence.
        f_equal. apply IHC; auto; [apply wf_cons_inv in W|apply wf_cons_inv in W']; tauto. }
      rewrite E. destruct (kid_list None F'); auto.
Qed.
