(** The dictionaries of dump_bulk, for any listing with parents before children and siblings
    in order. *)
From Coq Require Import List Arith Lia Bool ZArith Permutation Sorted.
From Verif Require Import Prelude Forest SpecFacts SpecSane CommonModel History SpecRun SpecKids BulkModel BulkFacts AnnFacts.
Import ListNotations.

(** A listing of [B] in which every node comes after its parent and its earlier siblings. *)
Definition unfolds (B : forest node) (L : list node) : Prop :=
  Permutation L (preorder B) /\
  forall P x Q, L = P ++ x :: Q -> exists up A C, parent_of (nid x) B = Some up /\ kl up B = A ++ x :: C /\
    incl A P /\ (forall p, up = Some p -> In p (map nid P)).

Lemma nd_split {A B} (g : A -> B) x : forall l l' m m', l ++ x :: m = l' ++ x :: m' ->
  NoDup (map g (l ++ x :: m)) -> l = l'.
Proof.
  induction l as [|a l IH]; intros [|b l'] m m' E ND; auto.
  - cbn [app] in E. injection E as <- E. exfalso. cbn [app map] in ND. inversion ND as [|y l0 H1 H2 E2]; subst.
    apply H1. rewrite map_app. apply in_app_iff. simpl. auto.
  - cbn [app] in E. injection E as -> E. exfalso. cbn [app map] in ND. inversion ND as [|y l0 H1 H2 E2]; subst.
    apply H1. rewrite map_app. apply in_app_iff. simpl. auto.
  - cbn [app] in E. injection E as -> E. cbn [app map] in ND. inversion ND. f_equal. eauto.
Qed.

(** ** The nodes listed so far *)
Definition inb (S : list nat) (i : nat) : bool := existsb (Nat.eqb i) S.
Definition keep (S : list nat) (B : forest node) : forest node := remove_all (fun i => negb (inb S i)) B.

Lemma inb_spec S i : inb S i = true <-> In i S.
Proof.
  unfold inb. rewrite existsb_exists. split.
  - intros (x & H & E). apply Nat.eqb_eq in E. subst. auto.
  - intros H. exists i. rewrite Nat.eqb_refl. auto.
Qed.

Lemma inb_false S i : inb S i = false <-> ~ In i S.
Proof. rewrite <- inb_spec. destruct (inb S i); split; congruence. Qed.

Lemma keep_cons S a k r : keep S (Cons a k r) =
  if inb S (nid a) then Cons a (keep S k) (keep S r) else keep S r.
Proof. unfold keep. cbn [remove_all]. destruct (inb S (nid a)); auto. Qed.

Lemma keep_ext S S' B : (forall i, In i (ids B) -> (In i S <-> In i S')) -> keep S B = keep S' B.
Proof.
  intros H. apply remove_all_ext. intros i Hi. f_equal.
  destruct (inb S i) eqn:E, (inb S' i) eqn:E'; auto; rewrite ?inb_spec, ?inb_false in *; firstorder.
Qed.

Lemma keep_all S B : (forall i, In i (ids B) -> In i S) -> keep S B = B.
Proof. intros H. apply remove_all_none. intros i Hi. rewrite (proj2 (inb_spec S i)); auto. Qed.

Lemma keep_nil S f : (forall y, In y (roots f) -> ~ In (nid y) S) -> keep S f = Nil.
Proof.
  induction f as [|a k _ r IH]; intros H; auto. rewrite keep_cons. rewrite (proj2 (inb_false _ _)) by (apply H; simpl; auto).
  apply IH. intros y Hy. apply H. simpl. auto.
Qed.

Lemma keep_notin x S f : ~ In x (ids f) -> keep (x :: S) f = keep S f.
Proof. intros H. apply keep_ext. intros i Hi. simpl. split; auto. intros [->|]; tauto. Qed.

Lemma grow_roots S x : forall B A C, wf_ids B -> roots B = A ++ x :: C ->
  (forall a, In a A -> In (nid a) S) -> (forall c, In c C -> ~ In (nid c) S) -> ~ In (nid x) S ->
  (forall k y, children_of (nid x) B = Some k -> In y (roots k) -> ~ In (nid y) S) ->
  keep (nid x :: S) B = fapp (keep S B) (leaf x).
Proof.
  induction B as [|a k _ r IH]; intros [|a' A] C W E HA HC Hx Hk; try discriminate; cbn [roots app] in E; injection E as -> E.
  - destruct (wf_cons_inv W) as (W1 & W2 & _). rewrite !keep_cons. cbn [inb existsb]. rewrite Nat.eqb_refl. cbn [orb].
    rewrite (proj2 (inb_false S (nid x)) Hx). rewrite !keep_notin by auto.
    rewrite (keep_nil S k). rewrite (keep_nil S r); auto.
    + intros y Hy. apply HC. rewrite <- E. auto.
    + intros y Hy. apply (Hk k); auto. cbn [children_of]. rewrite Nat.eqb_refl. auto.
  - destruct (wf_cons_inv W) as (W1 & W2 & W3 & W4 & W5). rewrite !keep_cons.
    assert (Ha : In (nid a') S) by (apply HA; simpl; auto).
    rewrite (proj2 (inb_spec S _) Ha), (proj2 (inb_spec (nid x :: S) _)) by (simpl; auto).
    assert (Hr : In (nid x) (ids r)) by (apply roots_ids; rewrite E, map_app, in_app_iff; simpl; auto).
    rewrite (keep_notin _ S k) by (intros Hin; eauto).
    cbn [fapp]. f_equal. apply (IH A C); auto.
    + intros; apply HA; simpl; auto.
    + intros k' y Ek. apply Hk. cbn [children_of]. destruct (Nat.eqb_spec (nid a') (nid x)) as [E'|_]; [rewrite E' in W2; tauto|].
      rewrite (children_of_notin (nid x) k) by (intros Hin; eauto). auto.
Qed.

(** Parents of listed nodes are listed. *)
Fixpoint cl (S : list nat) (f : forest node) : Prop :=
  match f with
  | Nil => True
  | Cons a k r => (forall b, In b (roots k) -> In (nid b) S -> In (nid a) S) /\ cl S k /\ cl S r
  end.

Lemma cl_none S f : cl S f -> (forall b, In b (roots f) -> ~ In (nid b) S) -> forall i, In i (ids f) -> ~ In i S.
Proof.
  induction f as [|a k IHk r IHr]; intros Hc Hr i; [intros []|]. destruct Hc as (H1 & H2 & H3).
  rewrite ids_cons. cbn [In]. rewrite in_app_iff. intros [<-|[Hi|Hi]].
  - apply Hr. simpl. auto.
  - apply IHk; auto. intros b Hb Hs. apply (Hr a); simpl; eauto.
  - apply IHr; auto. intros b Hb. apply Hr. simpl. auto.
Qed.

Lemma cl_from S : forall B up, wf_ids B ->
  (forall i q, In i S -> parent_from up i B = Some (Some q) -> up <> Some q -> In q S) -> 
  match up with Some q => ~ In q (ids B) | None => True end -> cl S B.
Proof.
  induction B as [|a k IHk r IHr]; intros up W H U; cbn [cl]; auto.
  destruct (wf_cons_inv W) as (W1 & W2 & W3 & W4 & W5).
  assert (Na : up <> Some (nid a)) by (intros ->; apply U; rewrite ids_cons; simpl; auto).
  split; [|split].
  - intros b Hb Hs. apply (H (nid b)); auto. cbn [parent_from].
    assert (Hi : In (nid b) (ids k)) by (apply roots_ids, in_map; auto).
    destruct (Nat.eqb_spec (nid a) (nid b)) as [E|_]; [rewrite E in W1; tauto|].
    rewrite parent_from_top; auto. apply in_map. auto.
  - apply (IHk (Some (nid a))); auto. intros i q Hi Ep Nq. apply (H i q Hi).
    + cbn [parent_from]. destruct (in_dec Nat.eq_dec i (ids k)) as [Hk|Hk].
      * destruct (Nat.eqb_spec (nid a) i) as [E|_]; [rewrite E in *; tauto|]. rewrite Ep. auto.
      * rewrite parent_from_notin in Ep by auto. discriminate.
    + intros ->. (* q is a node of k *)
      apply U. rewrite ids_cons. simpl. rewrite in_app_iff. right. left.
      destruct (in_dec Nat.eq_dec i (ids k)) as [Hk|Hk]; [|rewrite parent_from_notin in Ep by auto; discriminate].
      destruct (anc_from i k W3 Hk (Some (nid a))) as (A & _ & [(E & _)|(y & A' & E & Hy & _)]); [congruence|].
      rewrite E in Ep. injection Ep as Eq. rewrite <- Eq. apply in_map. auto.
  - apply (IHr up); auto.
    + intros i q Hi Ep Nq. apply (H i q Hi); auto. cbn [parent_from].
      destruct (in_dec Nat.eq_dec i (ids r)) as [Hr|Hr]; [|rewrite parent_from_notin in Ep by auto; discriminate].
      destruct (Nat.eqb_spec (nid a) i) as [E|_]; [rewrite E in *; tauto|].
      rewrite (parent_from_notin (Some (nid a)) i k) by (intros Hk; eauto). auto.
    + destruct up; auto. intros Hin. apply U. rewrite ids_cons. simpl. rewrite in_app_iff. auto.
Qed.

Lemma keep_incl S B i : In i (ids (keep S B)) -> In i (ids B).
Proof. apply remove_all_incl. Qed.

Lemma keep_in S B p : cl S B -> In p S -> In p (ids B) -> In p (ids (keep S B)).
Proof.
  induction B as [|a k IHk r IHr]; intros Hc Hp; [intros []|]. destruct Hc as (H1 & H2 & H3).
  rewrite keep_cons, ids_cons. cbn [In]. rewrite in_app_iff. destruct (inb S (nid a)) eqn:E.
  - rewrite ids_cons. cbn [In]. rewrite in_app_iff. intros [H|[H|H]]; auto.
  - apply inb_false in E. intros [<-|[H|H]]; [tauto| |auto].
    exfalso. apply (cl_none S k H2 (fun b Hb Hs => E (H1 b Hb Hs)) p H Hp).
Qed.

Lemma grow_at S x p : forall B k A C, wf_ids B -> cl S B -> In p S -> children_of p B = Some k -> roots k = A ++ x :: C ->
  (forall a, In a A -> In (nid a) S) -> (forall c, In c C -> ~ In (nid c) S) -> ~ In (nid x) S ->
  (forall k y, children_of (nid x) B = Some k -> In y (roots k) -> ~ In (nid y) S) ->
  keep (nid x :: S) B = append (Some p) (leaf x) (keep S B).
Proof.
  unfold append. cbn [at_kids].
  induction B as [|a k0 IHk r IHr]; intros k A C W Hc Hp Ek E HA HC Hx Hy; [discriminate|].
  destruct (wf_cons_inv W) as (W1 & W2 & W3 & W4 & W5). destruct Hc as (C1 & C2 & C3). cbn [children_of] in *.
  destruct (Nat.eqb_spec (nid a) p) as [Ea|Na].
  - injection Ek as ->. subst p.
    assert (Xk : In (nid x) (ids k)) by (apply roots_ids; rewrite E, map_app, in_app_iff; simpl; auto).
    rewrite !keep_cons. rewrite (proj2 (inb_spec S _) Hp), (proj2 (inb_spec (nid x :: S) _)) by (simpl; auto).
    cbn [at_node]. rewrite Nat.eqb_refl. f_equal; [|apply keep_notin; intros Hin; eauto].
    apply (grow_roots S x k A C); auto. intros k' y Ek'. apply Hy.
    destruct (Nat.eqb_spec (nid a) (nid x)) as [E'|_]; [rewrite E' in W1; tauto|]. rewrite Ek'. auto.
  - destruct (children_of p k0) as [k1|] eqn:Ek0.
    + injection Ek as ->.
      assert (Pk : In p (ids k0)).
      { destruct (in_dec Nat.eq_dec p (ids k0)); auto. rewrite children_of_notin in Ek0 by auto. discriminate. }
      assert (Xk : In (nid x) (ids k0)).
      { apply (kl_in (Some p)). rewrite (kl_some (Some p) k0 k Ek0), E, in_app_iff. simpl. auto. }
      assert (Ha : In (nid a) S).
      { destruct (in_dec Nat.eq_dec (nid a) S); auto. exfalso.
        apply (cl_none S k0 C2 (fun b Hb Hs => n (C1 b Hb Hs)) p Pk Hp). }
      rewrite !keep_cons. rewrite (proj2 (inb_spec S _) Ha), (proj2 (inb_spec (nid x :: S) _)) by (simpl; auto).
      cbn [at_node]. destruct (Nat.eqb_spec (nid a) p); [tauto|].
      rewrite (keep_notin _ S r) by (intros Hin; eauto).
      rewrite (at_node_notin p _ (keep S r)) by (intros Hin; apply keep_incl in Hin; eauto). f_equal.
      apply (IHk k A C); auto. intros k' y Ek'. apply Hy.
      destruct (Nat.eqb_spec (nid a) (nid x)) as [E'|_]; [rewrite E' in W1; tauto|]. rewrite Ek'. auto.
    + assert (Pr : In p (ids r)).
      { destruct (in_dec Nat.eq_dec p (ids r)); auto. rewrite children_of_notin in Ek by auto. discriminate. }
      assert (Xr : In (nid x) (ids r)).
      { apply (kl_in (Some p)). rewrite (kl_some (Some p) r k Ek), E, in_app_iff. simpl. auto. }
      assert (Ea : inb (nid x :: S) (nid a) = inb S (nid a)).
      { cbn [inb existsb]. destruct (Nat.eqb_spec (nid a) (nid x)) as [E'|_]; [rewrite E' in W2; tauto|auto]. }
      assert (Ex : (nid a =? nid x) = false) by (apply Nat.eqb_neq; intros E'; rewrite E' in W2; tauto).
      assert (IH : keep (nid x :: S) r = at_node p (fun c => fapp c (leaf x)) (keep S r)).
      { apply (IHr k A C); auto. intros k' y Ek'. apply Hy. rewrite Ex.
        rewrite (children_of_notin (nid x) k0) by (intros Hin; eauto). auto. }
      rewrite !keep_cons, Ea, IH. destruct (inb S (nid a)); auto. cbn [at_node].
      destruct (Nat.eqb_spec (nid a) p); [tauto|]. rewrite (keep_notin _ S k0) by (intros Hin; eauto).
      rewrite (at_node_notin p _ (keep S k0)) by (intros Hin; apply keep_incl in Hin; eauto). auto.
Qed.

(** ** The loop *)
Section Loop.
Variable K : Type.
Variable keqb : K -> K -> bool.
Variable key : nat -> K.
Variable it : node -> item.

Definition tag (x : node) : K * item := (key (nid x), it x).
Definition entry_of (up : option nat) (x : node) : K * res (option K) * item :=
  (key (nid x), Ok (option_map key up), it x).

Lemma add_under_none p x F : (forall i, In i (ids F) -> keqb (key i) (key p) = false) ->
  add_under keqb (key p) x (fmap tag F) = None.
Proof.
  induction F as [|a k IHk r IHr]; intros H; auto. cbn [fmap add_under]. unfold tag at 1. cbn [fst].
  rewrite H by (rewrite ids_cons; simpl; auto).
  rewrite IHk, IHr; auto; intros; apply H; rewrite ids_cons; simpl; rewrite in_app_iff; auto.
Qed.

Lemma add_under_ok p x F : wf_ids F -> In p (ids F) ->
  (forall i, In i (ids F) -> keqb (key i) (key p) = (i =? p)) ->
  add_under keqb (key p) (tag x) (fmap tag F) = Some (fmap tag (append (Some p) (leaf x) F)).
Proof.
  unfold append. cbn [at_kids]. induction F as [|a k IHk r IHr]; intros W Hp H; [destruct Hp|].
  destruct (wf_cons_inv W) as (W1 & W2 & W3 & W4 & W5).
  cbn [fmap add_under at_node]. unfold tag at 1. cbn [fst]. rewrite H by (rewrite ids_cons; simpl; auto).
  rewrite ids_cons in Hp. cbn [In] in Hp. rewrite in_app_iff in Hp.
  assert (Hk : forall i, In i (ids k) -> keqb (key i) (key p) = (i =? p)) by (intros; apply H; rewrite ids_cons; simpl; rewrite in_app_iff; auto).
  assert (Hr : forall i, In i (ids r) -> keqb (key i) (key p) = (i =? p)) by (intros; apply H; rewrite ids_cons; simpl; rewrite in_app_iff; auto).
  destruct (Nat.eqb_spec (nid a) p) as [E|N].
  - cbn [fmap]. rewrite fmap_fapp. auto.
  - destruct (in_dec Nat.eq_dec p (ids k)) as [Pk|Pk].
    + rewrite IHk by auto. cbn [fmap]. rewrite (at_node_notin p _ r) by (intros Hin; eauto). auto.
    + rewrite add_under_none.
      * rewrite IHr by (tauto || auto). cbn [fmap]. rewrite (at_node_notin p _ k) by auto. auto.
      * intros i Hi. rewrite Hk by auto. apply Nat.eqb_neq. intros ->. auto.
Qed.

Theorem dump_unfolds B L : wf_ids B -> unfolds B L ->
  (forall i j, In i (ids B) -> In j (ids B) -> keqb (key i) (key j) = (i =? j)) ->
  dump keqb (map (fun x => entry_of (match parent_of (nid x) B with Some up => up | None => None end) x) L)
  = Ok (fmap it B).
Proof.
  intros W (Pm & U) Hk. unfold dump.
  assert (ND : NoDup (map nid L)) by (apply (Permutation_NoDup (Permutation_sym (Permutation_map nid Pm))); exact W).
  assert (In_B : forall x, In x L -> In (nid x) (ids B)) by (intros x Hx; apply in_map, (Permutation_in _ Pm), Hx).
  assert (G : forall Q P, L = P ++ Q -> dump_loop keqb (fmap tag (keep (map nid P) B))
    (map (fun x => entry_of (match parent_of (nid x) B with Some up => up | None => None end) x) Q) = Ok (fmap tag B)).
  { induction Q as [|x Q IH]; intros P E.
    - cbn [map dump_loop]. rewrite keep_all; auto. intros i Hi. rewrite app_nil_r in E. subst P.
      apply (Permutation_in _ (Permutation_sym (Permutation_map nid Pm)) Hi).
    - assert (E2 : L = (P ++ [x]) ++ Q) by (rewrite <- app_assoc; auto).
      specialize (IH _ E2). destruct (U P x Q E) as (up & A & C & Ep & Ek & IA & IP).
      cbn [map]. rewrite Ep. unfold entry_of at 1. cbn [dump_loop bind].
      set (S := map nid P).
      assert (Hx : ~ In (nid x) S).
      { intros Hin. rewrite E, map_app in ND. cbn [map] in ND. apply NoDup_remove_2 in ND. apply ND. apply in_app_iff. auto. }
      assert (Cl : cl S B).
      { apply (cl_from S B None W); auto. intros i q Hi Eq _. unfold S in Hi. apply in_map_iff in Hi. destruct Hi as (y & <- & Hy).
        apply in_split in Hy. destruct Hy as (P1 & P2 & EP). 
        destruct (U P1 y (P2 ++ x :: Q)) as (up' & A' & C' & Ep' & _ & _ & IP').
        { rewrite E, EP, <- app_assoc. auto. }
        unfold parent_of in Ep'. rewrite Ep' in Eq. injection Eq as ->. specialize (IP' q eq_refl).
        unfold S. rewrite EP, map_app, in_app_iff. auto. }
      assert (HA : forall a, In a A -> In (nid a) S) by (intros a Ha; apply in_map, IA, Ha).
      assert (HC : forall c, In c C -> ~ In (nid c) S).
      { intros c Hc Hs. unfold S in Hs. apply in_map_iff in Hs. destruct Hs as (y & Ey & Hy).
        assert (c = y).
        { apply (node_eq B); auto.
          - apply (kl_pre up). rewrite Ek. apply in_app_iff. simpl. auto.
          - apply (Permutation_in _ Pm). rewrite E. apply in_app_iff. auto. }
        subst y. apply in_split in Hy. destruct Hy as (P1 & P2 & EP).
        destruct (U P1 c (P2 ++ x :: Q)) as (up' & A' & C' & Ep' & Ek' & IA' & _).
        { rewrite E, EP, <- app_assoc. auto. }
        assert (up' = up).
        { assert (X : parent_of (nid c) B = Some up) by (apply kl_parent; auto; rewrite Ek; apply in_app_iff; simpl; auto). congruence. }
        subst up'. assert (NK := kl_nodup up B W). rewrite Ek in Ek'.
        assert (Hxa : In x A').
        { (* x comes before c in the list of children *)
          apply in_split in Hc. destruct Hc as (C1 & C2 & ->).
          rewrite Ek in NK. clear - Ek' NK.
          assert (X : A ++ x :: C1 = A').
          { apply (nd_split nid c (A ++ x :: C1) A' C2 C').
            - rewrite <- app_assoc. exact Ek'.
            - rewrite <- app_assoc. exact NK. }
          rewrite <- X. apply in_app_iff. simpl. auto. }
        apply Hx. unfold S. rewrite EP, map_app, in_app_iff. left. apply in_map. auto. }
      assert (HK : forall k y, children_of (nid x) B = Some k -> In y (roots k) -> ~ In (nid y) S).
      { intros k y Eck Hy Hs. unfold S in Hs. apply in_map_iff in Hs. destruct Hs as (z & Ez & Hz).
        apply in_split in Hz. destruct Hz as (P1 & P2 & EP).
        destruct (U P1 z (P2 ++ x :: Q)) as (up' & A' & C' & Ep' & _ & _ & IP').
        { rewrite E, EP, <- app_assoc. auto. }
        assert (X : parent_of (nid y) B = Some (Some (nid x))).
        { apply kl_parent; auto. rewrite (kl_some (Some (nid x)) B k Eck). auto. }
        rewrite Ez, X in Ep'. injection Ep' as <-. specialize (IP' _ eq_refl).
        apply Hx. unfold S. rewrite EP, map_app, in_app_iff. auto. }
      assert (EG : fmap tag (append up (leaf x) (keep S B)) = fmap tag (keep (map nid (P ++ [x])) B)).
      { f_equal. transitivity (keep (nid x :: S) B).
        - symmetry. destruct up as [p|].
          + destruct (kl_inv (Some p) B x) as (k & Eks & _ & Er); [rewrite Ek; apply in_app_iff; simpl; auto|].
            apply (grow_at S x p B k A C); auto. rewrite <- Er. auto.
          + apply (grow_roots S x B A C); auto. 
        - apply keep_ext. intros i _. rewrite map_app, in_app_iff. cbn. tauto. }
      destruct up as [p|]; cbn [option_map].
      + fold S. change (key (nid x), it x) with (tag x). rewrite (add_under_ok p x (keep S B)).
        * rewrite EG. exact IH.
        * apply remove_all_wf. auto.
        * apply keep_in; auto. apply (kl_up (Some p) B x). rewrite Ek. apply in_app_iff. simpl. auto.
        * intros i Hi. apply Hk; [apply keep_incl in Hi; auto|]. apply (kl_up (Some p) B x). rewrite Ek. apply in_app_iff. simpl. auto.
      + change (Cons (key (nid x), it x) Nil Nil) with (fmap tag (leaf x)). rewrite <- fmap_fapp.
        unfold append in EG. cbn [at_kids] in EG. rewrite EG. exact IH. }
  assert (E0 : keep [] B = Nil) by (apply keep_nil; auto).
  specialize (G L [] eq_refl). cbn [map] in G. rewrite E0 in G. cbn [fmap] in G. rewrite G. cbn [bind]. rewrite fmap_fmap. auto.
Qed.
End Loop.

(** ** Preorder is such a listing *)
Lemma app_mid {A} (l1 l2 : list A) : forall P x Q, l1 ++ l2 = P ++ x :: Q ->
  (exists Q1, l1 = P ++ x :: Q1) \/ (exists P2, P = l1 ++ P2 /\ l2 = P2 ++ x :: Q).
Proof.
  induction l1 as [|a l1 IH]; intros P x Q E; [right; exists P; auto|].
  destruct P as [|b P]; cbn [app] in E; injection E as -> E; [left; exists l1; auto|].
  destruct (IH P x Q E) as [(Q1 & ->)|(P2 & -> & E2)]; [left; exists Q1; auto|right; exists P2; auto].
Qed.

Lemma kl_left a k r p : wf_ids (Cons a k r) -> In p (ids k) -> kl (Some p) (Cons a k r) = kl (Some p) k.
Proof.
  intros W H. destruct (wf_cons_inv W) as (W1 & W2 & W3 & W4 & W5). unfold kl, kid_list. cbn [kids_of children_of].
  destruct (Nat.eqb_spec (nid a) p) as [E|_]; [rewrite E in W1; tauto|].
  destruct (children_some p k H) as (c & ->). auto.
Qed.

Lemma kl_right a k r p : wf_ids (Cons a k r) -> In p (ids r) -> kl (Some p) (Cons a k r) = kl (Some p) r.
Proof.
  intros W H. destruct (wf_cons_inv W) as (W1 & W2 & W3 & W4 & W5). unfold kl, kid_list. cbn [kids_of children_of].
  destruct (Nat.eqb_spec (nid a) p) as [E|_]; [rewrite E in W2; tauto|].
  rewrite (children_of_notin p k) by (intros Hin; eauto). auto.
Qed.

Lemma pre_from : forall B up0 P x Q, wf_ids B -> preorder B = P ++ x :: Q -> exists up A C,
  parent_from up0 (nid x) B = Some up /\ incl A P /\
  (up = up0 /\ roots B = A ++ x :: C \/ exists p, up = Some p /\ In p (map nid P) /\ kl (Some p) B = A ++ x :: C).
Proof.
  induction B as [|a k IHk r IHr]; intros up0 P x Q W E; [destruct P; discriminate|].
  destruct (wf_cons_inv W) as (W1 & W2 & W3 & W4 & W5). cbn [preorder] in E.
  destruct P as [|b P]; cbn [app] in E; injection E as <- E.
  { exists up0, [], (roots r). cbn [parent_from roots app]. rewrite Nat.eqb_refl. split; auto. split; [intros y []|auto]. }
  cbn [parent_from].
  destruct (app_mid _ _ _ _ _ E) as [(Q1 & E1)|(P2 & -> & E2)].
  - assert (Hx : In (nid x) (ids k)) by (unfold ids; rewrite E1, map_app, in_app_iff; simpl; auto).
    assert (HP : forall p, In p (map nid P) -> In p (ids k)) by (intros p Hp; unfold ids; rewrite E1, map_app, in_app_iff; auto).
    destruct (Nat.eqb_spec (nid a) (nid x)) as [E'|_]; [rewrite E' in W1; tauto|].
    destruct (IHk (Some (nid a)) P x Q1 W3 E1) as (up & A & C & Ep & IA & H). rewrite Ep.
    exists up, A, C. split; auto. split; [intros y Hy; right; auto|]. right.
    destruct H as [(-> & Er)|(p & -> & Hp & Ek)].
    + exists (nid a). split; auto. split; [simpl; auto|]. unfold kl, kid_list. cbn [kids_of children_of option_map].
      rewrite Nat.eqb_refl. auto.
    + exists p. split; auto. split; [simpl; auto|]. rewrite kl_left; auto.
  - assert (Hx : In (nid x) (ids r)) by (unfold ids; rewrite E2, map_app, in_app_iff; simpl; auto).
    assert (HP : forall p, In p (map nid P2) -> In p (ids r)) by (intros p Hp; unfold ids; rewrite E2, map_app, in_app_iff; auto).
    destruct (Nat.eqb_spec (nid a) (nid x)) as [E'|_]; [rewrite E' in W2; tauto|].
    rewrite (parent_from_notin (Some (nid a)) (nid x) k) by (intros Hin; eauto).
    destruct (IHr up0 P2 x Q W4 E2) as (up & A & C & Ep & IA & [(-> & Er)|(p & -> & Hp & Ek)]).
    + exists up0, (a :: A), C. split; auto. split.
      * intros y [<-|Hy]; [left; auto|right; apply in_app_iff; right; auto].
      * left. split; auto. cbn [roots app]. rewrite Er. auto.
    + exists (Some p), A, C. split; auto. split; [intros y Hy; right; apply in_app_iff; right; auto|].
      right. exists p. split; auto. split; [right; rewrite map_app; apply in_app_iff; auto|]. rewrite kl_right; auto.
Qed.

Theorem pre_unfolds B : wf_ids B -> unfolds B (preorder B).
Proof.
  intros W. split; auto. intros P x Q E. destruct (pre_from B None P x Q W E) as (up & A & C & Ep & IA & H).
  exists up, A, C. split; auto. destruct H as [(-> & Er)|(p & -> & Hp & Ek)].
  - split; auto. split; auto. discriminate.
  - split; auto. split; auto. intros q Eq. injection Eq as <-. auto.
Qed.

(** ** Branches *)
Lemma children_in p k F : children_of p F = Some k -> In p (ids F) /\ incl (ids k) (ids F).
Proof.
  induction F as [|a k0 IHk r IHr]; cbn [children_of]; [discriminate|]. rewrite ids_cons.
  destruct (Nat.eqb_spec (nid a) p) as [E|N].
  - intros Eq. injection Eq as ->. split; [left; auto|]. intros x Hx. right. apply in_app_iff. auto.
  - destruct (children_of p k0) as [c|].
    + intros Eq. injection Eq as ->. destruct (IHk eq_refl) as (H1 & H2). split; [right; apply in_app_iff; auto|].
      intros x Hx. right. apply in_app_iff. auto.
    + intros Eq. destruct (IHr Eq) as (H1 & H2). split; [right; apply in_app_iff; auto|].
      intros x Hx. right. apply in_app_iff. auto.
Qed.

Lemma children_notin p k F : wf_ids F -> children_of p F = Some k -> ~ In p (ids k).
Proof.
  induction F as [|a k0 IHk r IHr]; cbn [children_of]; [discriminate|]. intros W.
  destruct (wf_cons_inv W) as (W1 & W2 & W3 & W4 & W5). destruct (Nat.eqb_spec (nid a) p) as [E|N].
  - intros Eq. injection Eq as ->. subst. auto.
  - destruct (children_of p k0) as [c|]; auto.
Qed.

Lemma branch_wf p F : wf_ids F -> wf_ids (branch p F).
Proof.
  intros W. destruct p as [p|]; auto. cbn [branch]. assert (X := subtree_children p F).
  destruct (children_of p F) as [c|] eqn:E; [|rewrite X; constructor].
  destruct X as (a & Ea & Ha & ->). assert (Wc := wf_kids (Some p) F c W E).
  unfold wf_ids. rewrite ids_cons, app_nil_r. constructor; auto.
  rewrite Ea. apply (children_notin p c F); auto.
Qed.

Lemma parent_below p k x : forall F up, wf_ids F -> children_of p F = Some k -> In x (ids k) ->
  parent_from up x F = parent_from (Some p) x k.
Proof.
  induction F as [|a k0 IHk r IHr]; intros up W E Hx; [discriminate|].
  assert (Wk := wf_kids (Some p) (Cons a k0 r) k W E).
  assert (Px := children_notin p k _ W E).
  destruct (wf_cons_inv W) as (W1 & W2 & W3 & W4 & W5). cbn [children_of] in E. cbn [parent_from].
  assert (S : exists u, parent_from (Some p) x k = Some u).
  { destruct (anc_from x k Wk Hx (Some p)) as (_ & _ & [(-> & _)|(q & A' & -> & _)]); eauto. }
  destruct S as (u & Eu).
  destruct (Nat.eqb_spec (nid a) p) as [Ea|N].
  - injection E as ->. subst p. destruct (Nat.eqb_spec (nid a) x) as [E'|_]; [rewrite E' in W1; tauto|].
    rewrite Eu. auto.
  - destruct (children_of p k0) as [c|] eqn:Ec.
    + injection E as ->. assert (Hi := proj2 (children_in _ _ _ Ec) x Hx).
      destruct (Nat.eqb_spec (nid a) x) as [E'|_]; [rewrite E' in W1; tauto|].
      rewrite (IHk (Some (nid a)) W3 eq_refl Hx), Eu. auto.
    + assert (Hi := proj2 (children_in _ _ _ E) x Hx).
      destruct (Nat.eqb_spec (nid a) x) as [E'|_]; [rewrite E' in W2; tauto|].
      rewrite (parent_from_notin (Some (nid a)) x k0) by (intros Hin; eauto). apply IHr; auto.
Qed.

Lemma branch_in p F i : In i (ids (branch p F)) -> In i (ids F).
Proof. destruct p as [p|]; auto. apply subtree_ids. Qed.

(** The parent within the branch. *)
Definition is_top (p : option nat) (i : nat) (up : option nat) : bool :=
  match p with
  | Some q => i =? q
  | None => match up with None => true | Some _ => false end
  end.

Lemma branch_parent p F i up : wf_ids F -> In i (ids (branch p F)) -> parent_of i F = Some up ->
  parent_of i (branch p F) = Some (if is_top p i up then None else up).
Proof.
  intros W Hi Ep. destruct p as [p|]; cbn [branch is_top] in *; [|destruct up; auto].
  assert (X := subtree_children p F). destruct (children_of p F) as [c|] eqn:E; [|rewrite X in Hi; destruct Hi].
  destruct X as (a & Ea & Ha & Es). rewrite Es in *. rewrite ids_cons, app_nil_r in Hi.
  unfold parent_of. cbn [parent_from]. rewrite Ea, Nat.eqb_sym. destruct (Nat.eqb_spec i p) as [->|N]; auto.
  destruct Hi as [Hi|Hi]; [congruence|]. rewrite <- (parent_below p c i F None W E Hi). unfold parent_of in Ep. rewrite Ep. auto.
Qed.

Theorem dump_branch {A K} (keqb : K -> K -> bool) (key : nat -> K) (it : node -> item) (g : A -> node) (rows : list A)
  (keyA : A -> K) (place : A -> res (option K)) F p : wf_ids F ->
  unfolds (branch p F) (map g rows) ->
  (forall i j, In i (ids F) -> In j (ids F) -> keqb (key i) (key j) = (i =? j)) ->
  (forall r, In r rows -> keyA r = key (nid (g r)) /\
     forall up, parent_of (nid (g r)) F = Some up -> place r = Ok (if is_top p (nid (g r)) up then None else option_map key up)) ->
  dump keqb (map (fun r => (keyA r, place r, it (g r))) rows) = Ok (fmap it (branch p F)).
Proof.
  intros W U Hk Hr. assert (WB := branch_wf p F W).
  rewrite <- (dump_unfolds K keqb key it (branch p F) (map g rows) WB U).
  2:{ intros i j Hi Hj. apply Hk; apply (branch_in p); auto. }
  f_equal. rewrite map_map. apply map_ext_in. intros r Hin. destruct (Hr r Hin) as (Ekey & Hp).
  assert (Hi : In (nid (g r)) (ids (branch p F))).
  { apply in_map. apply (Permutation_in _ (proj1 U)). apply in_map. auto. }
  destruct (anc_parent _ F W (branch_in p F _ Hi)) as (A0 & _ & Cases).
  assert (S : exists up, parent_of (nid (g r)) F = Some up) by (destruct Cases as [(-> & _)|(q & A' & -> & _)]; eauto).
  destruct S as (up & Ep). rewrite (Hp up Ep), (branch_parent p F _ up W Hi Ep). unfold entry_of. rewrite Ekey.
  destruct (is_top p (nid (g r)) up); auto.
Qed.

Lemma children_below p k q : forall F, wf_ids F -> children_of p F = Some k -> In q (ids k) ->
  children_of q F = children_of q k.
Proof.
  induction F as [|a k0 IHk r IHr]; intros W E Hq; [discriminate|].
  destruct (children_some q k Hq) as (c & Eq).
  destruct (wf_cons_inv W) as (W1 & W2 & W3 & W4 & W5). cbn [children_of] in *.
  destruct (Nat.eqb_spec (nid a) p) as [Ea|N].
  - injection E as ->. destruct (Nat.eqb_spec (nid a) q) as [E'|_]; [rewrite E' in W1; tauto|].
    rewrite Eq. auto.
  - destruct (children_of p k0) as [c'|] eqn:Ec.
    + injection E as ->. assert (Hi := proj2 (children_in _ _ _ Ec) q Hq).
      destruct (Nat.eqb_spec (nid a) q) as [E'|_]; [rewrite E' in W1; tauto|].
      rewrite (IHk W3 eq_refl Hq), Eq. auto.
    + assert (Hi := proj2 (children_in _ _ _ E) q Hq).
      destruct (Nat.eqb_spec (nid a) q) as [E'|_]; [rewrite E' in W2; tauto|].
      rewrite (children_of_notin q k0) by (intros Hin; eauto). apply IHr; auto.
Qed.

Lemma branch_kl p F q : wf_ids F -> In q (ids (branch p F)) -> kl (Some q) (branch p F) = kl (Some q) F.
Proof.
  intros W H. destruct p as [p|]; auto. cbn [branch] in *.
  assert (X := subtree_children p F). destruct (children_of p F) as [c|] eqn:E; [|rewrite X in H; destruct H].
  destruct X as (a & Ea & Ha & Es). rewrite Es in *. rewrite ids_cons, app_nil_r in H.
  unfold kl, kid_list. cbn [kids_of children_of]. rewrite Ea.
  destruct (Nat.eqb_spec p q) as [->|N]; [rewrite E; auto|]. destruct H as [H|H]; [congruence|].
  rewrite (children_below p c q F W E H). destruct (children_of q c); auto.
Qed.

(** The top of a branch by its level. *)
Lemma level_ge {A} (f : forest A) : forall d e x, In (e, x) (preorder_d d f) -> d <= e.
Proof.
  induction f as [|a k IHk r IHr]; intros d e x; [intros []|]. cbn [preorder_d In]. rewrite in_app_iff.
  intros [E|[H|H]]; [injection E as -> _; auto|apply IHk in H; lia|apply IHr in H; lia].
Qed.

Lemma top_by_level p F i up A : wf_ids F -> In i (ids (branch p F)) -> parent_of i F = Some up ->
  ancestors_of i F = Some A -> is_top p i up = (S (length A) =? top_level p F).
Proof.
  intros W Hi Ep EA. destruct p as [p|]; cbn [is_top].
  - cbn [branch] in Hi. assert (X := subtree_children p F).
    destruct (children_of p F) as [c|] eqn:E; [|rewrite X in Hi; destruct Hi].
    destruct X as (a & Ea & Ha & Es). rewrite Es in *. rewrite ids_cons, app_nil_r in Hi.
    assert (Hp : In p (ids F)) by exact (proj1 (children_in p c F E)).
    destruct (branch_levels F (Some p) W) as (T1 & T2); [intros q Eq; injection Eq as <-; auto|].
    cbn [branch] in T2. rewrite Es in T2. set (d := top_level (Some p) F) in *.
    destruct (Nat.eqb_spec i p) as [->|N].
    + symmetry. apply Nat.eqb_eq. unfold d. cbn [top_level]. rewrite EA. auto.
    + symmetry. apply Nat.eqb_neq. destruct Hi as [Hi|Hi]; [congruence|].
      unfold ids in Hi. rewrite <- (preorder_d_snd (S d) c), map_map in Hi. apply in_map_iff in Hi.
      destruct Hi as ((e & x) & Ei & Hx). cbn [snd] in Ei.
      assert (Ge := level_ge _ _ _ _ Hx).
      destruct (level_anc F 1 e x W) as (A' & EA' & Ee).
      { apply T2. cbn [preorder_d In]. rewrite in_app_iff. auto. }
      rewrite Ei, EA in EA'. injection EA' as <-. lia.
  - destruct (anc_parent i F W Hi) as (A' & EA' & [(Ep' & ->)|(q & A2 & Ep' & _ & _ & ->)]);
      rewrite Ep in Ep'; injection Ep' as ->; rewrite EA in EA'; injection EA' as ->; cbn [top_level]; auto.
    rewrite app_length. cbn [length]. symmetry. apply Nat.eqb_neq. lia.
Qed.

(** Sorted listings *)
Lemma sorted_unfolds {A} (g : A -> node) (le : A -> A -> Prop) (rows : list A) F p : wf_ids F ->
  Permutation (map g rows) (preorder (branch p F)) -> StronglySorted le rows ->
  (forall r s, In r rows -> In s rows -> parent_of (nid (g s)) F = Some (Some (nid (g r))) -> ~ le s r) ->
  (forall q A s C r, kl q F = A ++ g s :: C -> In r rows -> In s rows -> In (g r) A -> ~ le s r) ->
  unfolds (branch p F) (map g rows).
Proof.
  intros W Pm S Hp Hs. assert (WB := branch_wf p F W). split; auto. intros P x Q E.
  apply map_app_split in E. destruct E as (R1 & R2 & -> & <- & E2).
  destruct R2 as [|s R2]; [discriminate|]. cbn [map] in E2. injection E2 as <- <-.
  assert (Hin : forall y, In y (preorder (branch p F)) -> exists r, In r (R1 ++ s :: R2) /\ g r = y).
  { intros y Hy. apply (Permutation_in _ (Permutation_sym Pm)) in Hy. apply in_map_iff in Hy. destruct Hy as (r & <- & Hr). eauto. }
  assert (Hsx : In s (R1 ++ s :: R2)) by (apply in_app_iff; simpl; auto).
  assert (Hsb : In (g s) (preorder (branch p F))) by (apply (Permutation_in _ Pm), in_map; auto).
  assert (Early : forall r, In r (R1 ++ s :: R2) -> r <> s -> ~ le s r -> In r R1).
  { intros r Hr Nr Nl. apply in_app_iff in Hr. destruct Hr as [Hr|[Hr|Hr]]; [auto|congruence|]. exfalso. apply Nl.
    clear - S Hr. induction R1 as [|a R1 IH]; cbn [app] in S; inversion S; subst; auto.
    rewrite Forall_forall in H2. auto. }
  destruct (kl_ex (branch p F) (nid (g s)) WB) as (up & y & Hy & Ey & Ep); [apply in_map; auto|].
  assert (y = g s) by (apply (node_eq (branch p F)); auto; apply (kl_pre up); auto). subst y.
  apply in_split in Hy. destruct Hy as (A0 & C0 & Ek). exists up, A0, C0. split; auto. split; auto.
  assert (NK := kl_nodup up (branch p F) WB).
  split.
  - intros a Ha. destruct (Hin a) as (r & Hr & <-); [apply (kl_pre up); rewrite Ek; apply in_app_iff; auto|].
    apply in_map. apply Early; auto.
    + intros ->. rewrite Ek, map_app in NK. cbn [map] in NK. apply NoDup_remove_2 in NK. apply NK. apply in_app_iff. left. apply in_map. auto.
    + destruct up as [q|].
      * assert (Hq := kl_up (Some q) (branch p F) (g s)). cbn iota in Hq. rewrite branch_kl in Ek; auto.
        -- apply (Hs (Some q) A0 s C0 r); auto.
        -- apply Hq. rewrite Ek. apply in_app_iff. simpl. auto.
      * destruct p as [p|].
        -- exfalso. cbn [branch] in Ek. assert (X := subtree_children p F). unfold kl, kid_list in Ek. cbn [kids_of option_map] in Ek.
           destruct (children_of p F); [destruct X as (b & _ & _ & X)|]; rewrite X in Ek; cbn [roots] in Ek.
           ++ destruct A0 as [|a1 A0]; [destruct Ha|]. cbn [app] in Ek. injection Ek as _ Ek. destruct A0; discriminate.
           ++ destruct A0; discriminate.
        -- apply (Hs None A0 s C0 r); auto.
  - intros q ->. assert (Hq := kl_up (Some q) (branch p F) (g s)). cbn iota in Hq.
    assert (Hqi : In q (ids (branch p F))) by (apply Hq; rewrite Ek; apply in_app_iff; simpl; auto).
    unfold ids in Hqi. apply in_map_iff in Hqi. destruct Hqi as (b & <- & Hb).
    destruct (Hin b Hb) as (r & Hr & <-). do 2 apply in_map.
    assert (EpF : parent_of (nid (g s)) F = Some (Some (nid (g r)))).
    { destruct (anc_parent (nid (g s)) F W (branch_in p F _ (in_map nid _ _ Hsb))) as (A1 & _ & Cs).
      assert (X : exists up, parent_of (nid (g s)) F = Some up) by (destruct Cs as [(-> & _)|(q & A' & -> & _)]; eauto).
      destruct X as (up & X). rewrite (branch_parent p F _ up W (in_map nid _ _ Hsb) X) in Ep.
      destruct (is_top p (nid (g s)) up); congruence. }
    apply Early; auto. intros ->.
    destruct (anc_parent (nid (g s)) F W (branch_in p F _ (in_map nid _ _ Hsb))) as (A1 & EA & [(Q1 & _)|(b & A2 & Q1 & _ & EA2 & ->)]);
      rewrite EpF in Q1; [discriminate|]. injection Q1 as Q1. rewrite <- Q1, EA in EA2. injection EA2 as EA2.
      apply (f_equal (@length _)) in EA2. rewrite app_length in EA2. cbn in EA2. lia.
Qed.
