(** Instances of adjacency list nodes with cached parent objects: which of them answer from
    the present table. *)
From Coq Require Import String List Arith Lia Bool ZArith.
From Verif Require Import Prelude Forest SpecFacts SpecKids SpecPerm CommonModel Order History ALModel SpecSane ALInv ALUpd ALReads ALOk ALCacheModel.
Import ListNotations.
Local Open Scope nat_scope.

(** The row of this primary key has this parent. *)
Definition same_place (t : al_table) (r : alrow) : Prop := exists q, In q t /\ a_pk q = a_pk r /\ a_parent q = a_parent r.

(** The instance [a] and the cached parent objects above it have the parents that the table has. *)
Inductive current (t : al_table) (h : heap) : nat -> Prop :=
| cur a i : nth_error h a = Some i -> same_place t (i_row i) ->
    (forall b, i_up i = Some b -> exists j, nth_error h b = Some j /\ a_parent (i_row i) = Some (a_pk (i_row j))) ->
    (forall b, i_up i = Some b -> current t h b) -> current t h a.

Lemma nth_put h a i x : a < length h -> nth_error (put h a i) x = if x =? a then Some i else nth_error h x.
Proof.
  intros L. unfold put. destruct (Nat.eqb_spec x a) as [->|N].
  - rewrite nth_error_app2; rewrite firstn_length_le by lia; [|lia]. rewrite Nat.sub_diag. auto.
  - destruct (Nat.lt_ge_cases x a) as [H|H].
    + rewrite nth_error_app1 by (rewrite firstn_length_le; lia). revert x H N. clear L. revert a.
      induction h as [|y h IH]; intros [|a] [|x] H N; auto; try lia. cbn. apply IH; lia.
    + rewrite nth_error_app2 by (rewrite firstn_length_le; lia). rewrite firstn_length_le by lia.
      replace (x - a) with (S (x - S a)) by lia. cbn [nth_error].
      assert (E : forall (l : heap) k n, nth_error (skipn k l) n = nth_error l (k + n)).
      { clear. induction l as [|y l IH]; intros [|k] n; auto; cbn; [destruct n; auto|auto]. }
      rewrite E. f_equal. lia.
Qed.

Lemma nth_lt {A} (l : list A) a x : nth_error l a = Some x -> a < length l.
Proof. intros H. apply nth_error_Some. congruence. Qed.

Lemma put_length h a i : a < length h -> length (put h a i) = length h.
Proof. intros L. unfold put. rewrite app_length, firstn_length_le by lia. cbn [length]. rewrite skipn_length. lia. Qed.

Lemma forall2_length {A B} (R : A -> B -> Prop) l m : Forall2 R l m -> length l = length m.
Proof. induction 1; cbn; auto. Qed.

(** The heap [h'] has the instances of [h] and more; parents of instances whose primary key
    satisfies [Q] may have been cached meanwhile. *)
Definition grows (Q : nat -> Prop) (t : al_table) (h h' : heap) : Prop := forall x i, nth_error h x = Some i ->
  exists i', nth_error h' x = Some i' /\ i_row i' = i_row i /\
    (i_up i' = i_up i \/
     (i_up i = None /\ Q (a_pk (i_row i)) /\ forall b, i_up i' = Some b -> current t h' b /\
        exists j, nth_error h' b = Some j /\ a_parent (i_row i) = Some (a_pk (i_row j)))).

Lemma grows_refl Q t h : grows Q t h h.
Proof. intros x i E. exists i. auto. Qed.

Lemma grows_weak (Q Q' : nat -> Prop) t h h' : (forall p, Q p -> Q' p) -> grows Q t h h' -> grows Q' t h h'.
Proof.
  intros H G x i E. destruct (G x i E) as (i' & E' & R & [U|(U & q & X)]); exists i'; split; auto; split; auto.
Qed.

Lemma grows_current Q t h h' x : grows Q t h h' -> current t h x -> current t h' x.
Proof.
  intros G C. induction C as [a i E S L C IH]. destruct (G a i E) as (i' & E' & R & U).
  apply (cur t h' a i'); auto; [rewrite R; auto| |].
  - intros b Eb. rewrite R. destruct U as [U|(_ & _ & U)]; [|apply U; auto]. rewrite U in Eb. destruct (L b Eb) as (j & Ej & P).
    destruct (G b j Ej) as (j' & Ej' & Rj & _). exists j'. rewrite Rj. auto.
  - intros b Eb. destruct U as [U|(_ & _ & U)]; [apply IH; congruence|apply U; auto].
Qed.

Lemma grows_trans Q t h1 h2 h3 : grows Q t h1 h2 -> grows Q t h2 h3 -> grows Q t h1 h3.
Proof.
  intros G1 G2 x i E. destruct (G1 x i E) as (i2 & E2 & R2 & U2). destruct (G2 x i2 E2) as (i3 & E3 & R3 & U3).
  exists i3. split; auto. split; [congruence|]. destruct U2 as [U2|(N2 & q & U2)].
  - destruct U3 as [U3|(N3 & q & U3)]; [left; congruence|right]. split; [congruence|]. rewrite <- R2. auto.
  - right. split; auto. split; auto. intros b Eb. destruct U3 as [U3|(N3 & q3 & U3)].
    + rewrite U3 in Eb. destruct (U2 b Eb) as (C & j & Ej & P). split; [eapply grows_current; eauto|].
      destruct (G2 b j Ej) as (j' & Ej' & Rj & _). exists j'. rewrite Rj. auto.
    + rewrite <- R2. auto.
Qed.

Lemma grows_alloc Q t h l : grows Q t h (h ++ l).
Proof. intros x i E. exists i. split; auto. rewrite nth_error_app1; auto. eapply nth_lt; eauto. Qed.

Lemma current_inst t h a : current t h a -> exists i, nth_error h a = Some i /\ same_place t (i_row i).
Proof. intros [b i E S _ _]. eauto. Qed.

Lemma anc_shorter F : wf_ids F -> forall A k j, ancestors_of k F = Some A -> In k (ids F) -> In j (map nid A) ->
  exists A', ancestors_of j F = Some A' /\ length A' < length A.
Proof.
  intros W. intros A. remember (length A) as n eqn:En. revert A En. induction n as [n IH] using lt_wf_ind.
  intros A En k j E Hk Hj. destruct (anc_parent k F W Hk) as (A0 & E0 & H). rewrite E in E0. injection E0 as <-.
  destruct H as [(_ & ->)|(q & A' & _ & Hq & EA & ->)]; [destruct Hj|]. rewrite app_length in En. cbn in En.
  rewrite map_app, in_app_iff in Hj. destruct Hj as [Hj|[<-|[]]].
  - destruct (IH (length A') ltac:(lia) A' eq_refl (nid q) j EA (in_map _ _ _ Hq) Hj) as (A2 & E2 & L2). exists A2. split; auto. lia.
  - exists A'. split; auto. lia.
Qed.

Section AL.
Variable o : ordering.
Variables (t : al_table) (F : forest node).
Hypothesis St : stores o t F.

Lemma get_pk_ok k : In k (ids F) -> exists r, get_by_pk t k = Ok r /\ In r t /\ a_pk r = k.
Proof.
  intros Hk. destruct St as (W & _ & so & Fit & _). destruct (fits_ex so t F W Fit k Hk) as (r & Hr & <-).
  exists r. split; auto. apply (get_in so t F W Fit). auto.
Qed.

Lemma place_pk r : same_place t r -> In (a_pk r) (ids F) /\ parent_of (a_pk r) F = Some (a_parent r).
Proof.
  intros (q & Hq & <- & <-). destruct St as (W & _ & so & Fit & _). destruct (fits_pk so t F W Fit q Hq) as (H1 & H2 & _). auto.
Qed.

Lemma place_up r p : same_place t r -> a_parent r = Some p -> In p (ids F).
Proof.
  intros S E. destruct (place_pk r S) as (Hi & P). destruct St as (W & _). rewrite E in P.
  destruct (anc_parent _ F W Hi) as (A & _ & [(P' & _)|(q & A' & P' & Hq & _)]); [congruence|].
  rewrite P in P'. injection P' as ->. apply in_map. auto.
Qed.

Lemma load_ok h k : In k (ids F) -> exists h' b j, load t h k = Ok (h', b) /\ (forall Q, grows Q t h h') /\ current t h' b /\
  nth_error h' b = Some j /\ a_pk (i_row j) = k /\ In (i_row j) t /\ length h' = S (length h) /\ nth_error h b = None.
Proof.
  intros Hk. destruct (get_pk_ok k Hk) as (r & E & Hr & Er). unfold load. rewrite E. cbn [bind]. unfold alloc.
  exists (h ++ [mkInst (fresh r) None]), (length h), (mkInst (fresh r) None). split; auto. split; [intros Q; apply grows_alloc|].
  assert (En : nth_error (h ++ [mkInst (fresh r) None]) (length h) = Some (mkInst (fresh r) None)).
  { rewrite nth_error_app2, Nat.sub_diag by lia. auto. }
  split; [|split; auto; split; auto; split; auto; split; [rewrite app_length; cbn; lia|apply nth_error_None; lia]].
  eapply cur; [exact En| |discriminate|discriminate]. exists r. auto.
Qed.

Lemma follow_ok h a i : current t h a -> nth_error h a = Some i -> exists h' b, follow t h a = Ok (h', b) /\ grows (eq (a_pk (i_row i))) t h h' /\
  match a_parent (i_row i), b with
  | None, None => h' = h
  | Some p, Some b => current t h' b /\ exists j, nth_error h' b = Some j /\ a_pk (i_row j) = p
  | _, _ => False
  end.
Proof.
  intros C E. destruct C as [a i' E' S L C]. rewrite E in E'. injection E' as <-. unfold follow, look. rewrite E. cbn [bind].
  destruct (a_parent (i_row i)) as [p|] eqn:Ep; [|exists h, None; split; auto; split; auto; apply grows_refl].
  destruct (i_up i) as [b|] eqn:Eu.
  - exists h, (Some b). split; auto. split; [apply grows_refl|]. split; auto. destruct (L b eq_refl) as (j & Ej & P). exists j. split; auto. congruence.
  - destruct (load_ok h p (place_up _ _ S Ep)) as (h1 & b & j & El & G & Cb & Ej & Pj & _ & _ & Nb). rewrite El. cbn [bind].
    specialize (G (fun _ => False)). assert (La : a < length h1) by (destruct (G a i E) as (i1 & E1 & _); eapply nth_lt; eauto).
    assert (Nab : b <> a) by (intros ->; congruence).
    exists (put h1 a (mkInst (i_obj i) (Some b))), (Some b). split; auto.
    assert (Ebj : nth_error (put h1 a (mkInst (i_obj i) (Some b))) b = Some j).
    { rewrite nth_put by auto. destruct (Nat.eqb_spec b a); congruence. }
    assert (Cj : current t (put h1 a (mkInst (i_obj i) (Some b))) b).
    { revert El. unfold load. destruct (get_by_pk t p) as [r|] eqn:Eg; cbn [bind]; [|discriminate]. unfold alloc. intros X.
      injection X as <- <-. rewrite nth_error_app2, Nat.sub_diag in Ej by lia. cbn in Ej. injection Ej as <-.
      apply current_inst in Cb. destruct Cb as (j0 & Ej0 & Sj).
      rewrite nth_error_app2, Nat.sub_diag in Ej0 by lia. cbn in Ej0. injection Ej0 as <-.
      eapply cur; [exact Ebj|exact Sj|discriminate|discriminate]. }
    split; [|split; eauto]. intros x k Ek. destruct (G x k Ek) as (k1 & Ek1 & R & U). rewrite nth_put by auto.
    destruct (Nat.eqb_spec x a) as [->|Nx].
    + rewrite E in Ek. injection Ek as <-. eexists. split; [reflexivity|]. split; auto. right. split; auto. split; auto. cbn [i_up].
      intros c Ec. injection Ec as <-. split; auto. exists j. split; auto. congruence.
    + exists k1. split; auto. split; auto. left. destruct U as [U|(N & q & U)]; auto.
      revert El Ek1. unfold load. destruct (get_by_pk t p); cbn [bind]; [|discriminate]. unfold alloc. intros X. injection X as <- _.
      rewrite nth_error_app1 by (eapply nth_lt; eauto). congruence.
Qed.

Lemma climb_ok : forall fuel h a i A, current t h a -> nth_error h a = Some i ->
  ancestors_of (a_pk (i_row i)) F = Some A -> length A < fuel ->
  exists h' l, climb fuel t h a = Ok (h', l) /\ grows (fun p => p = a_pk (i_row i) \/ In p (map nid A)) t h h' /\
    Forall2 (fun b n => current t h' b /\ exists j, nth_error h' b = Some j /\ a_pk (i_row j) = nid n) l A.
Proof.
  induction fuel as [|fuel IH]; intros h a i A C E EA L; [lia|]. cbn [climb].
  destruct (current_inst _ _ _ C) as (i' & E' & Sp). rewrite E in E'. injection E' as <-.
  destruct (place_pk _ Sp) as (Hi & P). assert (W := proj1 St).
  destruct (follow_ok h a i C E) as (h1 & b & -> & G & H). cbn [bind].
  destruct (anc_parent _ F W Hi) as (A0 & E0 & Ha). rewrite EA in E0. injection E0 as <-.
  destruct Ha as [(P' & ->)|(q & A' & P' & Hq & Eq & ->)]; rewrite P in P'; injection P' as P'; rewrite P' in H.
  - destruct b as [b|]; [destruct H|]. subst h1. exists h, []. split; auto. split; auto. apply grows_refl.
  - destruct b as [b|]; [|destruct H]. destruct H as (Cb & j & Ej & Pj).
    rewrite app_length in L. cbn in L. rewrite <- Pj in Eq. destruct (IH h1 b j A' Cb Ej Eq) as (h2 & l & -> & G2 & Fa); [lia|].
    cbn [bind]. exists h2, (l ++ [b]). split; auto. split.
    { eapply grows_trans; [eapply grows_weak; [|exact G]; auto|eapply grows_weak; [|exact G2]]. intros y. cbn beta. rewrite map_app, in_app_iff. cbn [map In].
      rewrite Pj. intuition. }
    apply Forall2_app; auto.
    constructor; auto. split; [eapply grows_current; eauto|]. destruct (G2 b j Ej) as (j2 & Ej2 & R2 & _). exists j2. rewrite R2. auto.
Qed.

Lemma ancestors_ok h a i : current t h a -> nth_error h a = Some i -> exists A h' l,
  ancestors_of (a_pk (i_row i)) F = Some A /\ h_get_ancestors t h a = Ok (h', l) /\ grows (fun p => p = a_pk (i_row i) \/ In p (map nid A)) t h h' /\
    Forall2 (fun b n => current t h' b /\ exists j, nth_error h' b = Some j /\ a_pk (i_row j) = nid n) l A.
Proof.
  intros C E. destruct (current_inst _ _ _ C) as (i' & E' & Sp). rewrite E in E'. injection E' as <-.
  destruct (place_pk _ Sp) as (Hi & P). assert (St' := St). destruct St' as (W & _ & so & Fit & _).
  destruct (anc_parent _ F W Hi) as (A & EA & _).
  destruct (climb_ok (S (length t + length h)) h a i A C E EA) as (h' & l & H).
  - rewrite (fits_length so t F W Fit). assert (X := anc_length _ _ _ W EA). lia.
  - exists A, h', l. split; auto.
Qed.

Lemma put_depth_grows Q h a i c : nth_error h a = Some i -> grows Q t h (put h a (mkInst (mkAObj (i_row i) c) (i_up i))).
Proof.
  intros E x k Ek. rewrite nth_put by (eapply nth_lt; eauto). destruct (Nat.eqb_spec x a) as [->|N].
  - rewrite E in Ek. injection Ek as <-. eexists. split; [reflexivity|]. split; auto.
  - exists k. auto.
Qed.

Lemma depth_ok h a i update : current t h a -> nth_error h a = Some i -> exists A h' d i',
  ancestors_of (a_pk (i_row i)) F = Some A /\ h_get_depth t h a update = Ok (h', d) /\
  grows (fun p => p = a_pk (i_row i) \/ In p (map nid A)) t h h' /\
  nth_error h' a = Some i' /\ (a_parent (i_row i) = None \/ o_depth (i_obj i') <> None) /\
  (cache_pos (i_obj i) -> cache_pos (i_obj i')) /\
  (update = true \/ o_depth (i_obj i) = None -> d = Z.of_nat (S (length A))).
Proof.
  intros C E. destruct (ancestors_ok h a i C E) as (A & h' & l & EA & Eh & G & Fa). exists A.
  destruct (current_inst _ _ _ C) as (i0 & E' & Sp). rewrite E in E'. injection E' as <-.
  destruct (place_pk _ Sp) as (Hi & P). assert (W := proj1 St). unfold h_get_depth, look. rewrite E. cbn [bind].
  destruct (a_parent (i_row i)) as [p|] eqn:Ep.
  - assert (X : exists h2 d i2, h_count_depth t h a = Ok (h2, d) /\ grows (fun p => p = a_pk (i_row i) \/ In p (map nid A)) t h h2 /\
      nth_error h2 a = Some i2 /\ o_depth (i_obj i2) <> None /\ cache_pos (i_obj i2) /\ d = Z.of_nat (S (length A))).
    { unfold h_count_depth. rewrite Eh. cbn [bind]. destruct (G a i E) as (i1 & E1 & R1 & _). unfold look. rewrite E1. cbn [bind]. eexists _, _, _. split; [reflexivity|].
      split; [eapply grows_trans; [exact G|apply put_depth_grows; auto]|]. split; [rewrite nth_put, Nat.eqb_refl by (eapply nth_lt; eauto); auto|].
      split; [discriminate|]. split; [unfold cache_pos; cbn [i_obj o_depth]; lia|]. rewrite (forall2_length _ _ _ Fa). lia. }
    destruct X as (h2 & d & i2 & X & G2 & E2 & N2 & C2 & D2).
    destruct update; [|destruct (o_depth (i_obj i)) as [d0|] eqn:Ed].
    + exists h2, d, i2. rewrite X. repeat split; auto.
    + exists h, d0, i. split; auto. split; auto. split; [apply grows_refl|]. split; auto. split; [right; congruence|]. split; auto.
      intros [?|?]; discriminate.
    + exists h2, d, i2. rewrite X. repeat split; auto.
  - exists h, 1%Z, i. split; auto. split; auto. split; [apply grows_refl|]. split; auto. split; auto. split; auto. intros _.
    destruct (anc_parent _ F W Hi) as (A0 & E0 & [(_ & ->)|(q & A' & P' & _)]); [|congruence].
    rewrite EA in E0. injection E0 as ->. auto.
Qed.

(** ** Writes *)

(** The instance [y] is [x] or a cached parent object above it. *)
Inductive above (h : heap) : nat -> nat -> Prop :=
| above_self x : above h x x
| above_up x i b y : nth_error h x = Some i -> i_up i = Some b -> above h b y -> above h x y.

Lemma above_pk h x i : current t h x -> nth_error h x = Some i -> forall y, above h x y -> exists j, nth_error h y = Some j /\
  same_place t (i_row j) /\
  (x = y \/ exists A, ancestors_of (a_pk (i_row i)) F = Some A /\ In (a_pk (i_row j)) (map nid A)).
Proof.
  intros C. revert i. induction C as [x k E Sp L C IH]. intros i Ei y Ay. rewrite E in Ei. injection Ei as <-.
  inversion Ay as [z|z i' b y' E1 E2 E3]; subst.
  - exists k. auto.
  - rewrite E in E1. injection E1 as <-. destruct (L b E2) as (j & Ej & P). destruct (IH b E2 j Ej y E3) as (w & Ew & Sw & Hw).
    exists w. split; auto. split; auto. right. assert (W := proj1 St). destruct (place_pk _ Sp) as (Hi & Hp). rewrite P in Hp.
    destruct (anc_parent _ F W Hi) as (A & EA & [(X & _)|(q & A' & X & Hq & EA' & ->)]); [congruence|]. rewrite X in Hp.
    injection Hp as Hp. exists (A' ++ [q]). split; auto. rewrite map_app, in_app_iff. destruct Hw as [<-|(A0 & E0 & H0)].
    + right. rewrite Ej in Ew. injection Ew as <-. left. auto.
    + left. rewrite <- Hp in E0. congruence.
Qed.

(** Another table, and another state of the instance [a] *)
Lemma current_next t' h a i i' x : current t h x -> nth_error h a = Some i -> a_pk (i_row i') = a_pk (i_row i) ->
  (forall y j, above h x y -> nth_error h y = Some j ->
     (y = a /\ current t' (put h a i') a) \/ (y <> a /\ same_place t' (i_row j))) ->
  current t' (put h a i') x.
Proof.
  intros C Ea R. assert (La := nth_lt _ _ _ Ea). induction C as [x k E Sp L C IH]. intros H.
  destruct (H x k (above_self h x) E) as [(-> & X)|(N & S')]; auto.
  assert (E2 : nth_error (put h a i') x = Some k) by (rewrite nth_put by auto; destruct (Nat.eqb_spec x a); congruence).
  apply (cur t' _ x k); auto.
  - intros b Eb. destruct (L b Eb) as (j & Ej & P). rewrite nth_put by auto. destruct (Nat.eqb_spec b a) as [->|Nb]; eauto.
    exists i'. split; auto. rewrite R. congruence.
  - intros b Eb. apply (IH b Eb). intros y j Ay Ej. apply H; auto. eapply above_up; eauto.
Qed.

Lemma same_table t' h x : current t h x -> (forall r, same_place t r -> same_place t' r) -> current t' h x.
Proof. intros C H. induction C as [x k E Sp L C IH]. apply (cur t' h x k); auto. Qed.

End AL.

(** A move changes the parent of the node and of no other node. *)
Lemma move_parents n g P gt F : wf_ids F -> In n (ids F) -> In g (ids F) -> ~ inside F n g P -> wf_ids (sp_move n g P gt F) ->
  (if is_child_pos P then parent_of n (sp_move n g P gt F) = Some (Some g) else parent_of n (sp_move n g P gt F) = parent_of g F) /\
  forall j, j <> n -> In j (ids F) -> In j (ids (sp_move n g P gt F)) /\ parent_of j (sp_move n g P gt F) = parent_of j F.
Proof.
  intros W Hn Hg NI WG. destruct (move_sane n g P gt F W Hn Hg NI) as [(<- & HP & ->)|(up & a & L1 & L2 & Eu & <- & M & _)].
  - split; [destruct HP as [->| ->]; reflexivity|auto].
  - destruct (moved_put _ _ _ _ _ _ M) as (D & K & R). set (G := sp_move _ _ _ _ _) in *. split.
    + assert (X : parent_of (nid a) G = Some up).
      { apply kl_parent; auto. rewrite K, in_app_iff. right. left. auto. }
      rewrite X. destruct (is_child_pos P); congruence.
    + intros j Nj Hj. destruct (kl_ex F j W Hj) as (q & b & Hb & <- & Pb). rewrite Pb. assert (Hb' : In b (kl q G)); [|split; [eapply kl_in; eauto|apply kl_parent; auto]].
      assert (Hd : In b (drop (nid a) (kl q F))).
      { unfold drop. rewrite filter_In. split; auto. destruct (Nat.eqb_spec (nid b) (nid a)); auto. }
      destruct (opt_dec q up) as [->|Nq]; [|rewrite R; auto]. rewrite D, in_app_iff in Hd. rewrite K, in_app_iff. cbn [In]. tauto.
Qed.

(** The place of a row of the next table *)
Lemma place_in o t F r : stores o t F -> In (a_pk r) (ids F) -> parent_of (a_pk r) F = Some (a_parent r) -> same_place t r.
Proof.
  intros (W & _ & so & Fit & _) Hi P. destruct (fits_ex so t F W Fit _ Hi) as (q & Hq & Eq). exists q. split; auto. split; auto.
  destruct (fits_pk so t F W Fit q Hq) as (_ & P' & _). congruence.
Qed.

(** The instance [a] of the node [k] has been put somewhere else. *)
Section Moved.
Variables (o : ordering) (t t' : al_table) (F G : forest node) (k : nat).
Hypothesis St : stores o t F.
Hypothesis St' : stores o t' G.
Hypothesis Hk : In k (ids F).
Hypothesis Par : forall j, j <> k -> In j (ids F) -> In j (ids G) /\ parent_of j G = parent_of j F.

Lemma place_next r : same_place t r -> a_pk r <> k -> same_place t' r.
Proof.
  intros Sp N. destruct (place_pk o t F St r Sp) as (Hi & P). destruct (Par _ N Hi) as (H1 & H2).
  apply (place_in o t' G); auto. congruence.
Qed.

Variables (h : heap) (a : nat) (i i' : inst).
Hypothesis Ea : nth_error h a = Some i.
Hypothesis Ek : a_pk (i_row i) = k.
Hypothesis Ek' : a_pk (i_row i') = k.

Definition clear (j : nat) : Prop := forall A, ancestors_of j F = Some A -> ~ In k (map nid A).

Lemma chain_next c j : current t h c -> nth_error h c = Some j -> clear (a_pk (i_row j)) ->
  a_pk (i_row j) <> k \/ (c <> a /\ same_place t' (i_row j)) -> current t' (put h a i') c.
Proof.
  intros C Ej Cl Hj. apply (current_next t t' h a i i' c C Ea); [congruence|]. intros y w Ay Ew. right.
  destruct (above_pk o t F St h c j C Ej y Ay) as (w' & Ew' & Sw & Hy). rewrite Ew in Ew'. injection Ew' as <-.
  destruct Hy as [<-|(A & EA & HA)].
  - rewrite Ej in Ew. injection Ew as <-. destruct Hj as [Hj|Hj]; auto. split; [|apply place_next; auto]. intros ->. congruence.
  - assert (N : a_pk (i_row w) <> k) by (intros X; rewrite X in HA; apply (Cl A EA HA)).
    split; [|apply place_next; auto]. intros ->. congruence.
Qed.

Lemma rest_next h0 Q : grows Q t h0 h -> (forall p, Q p -> p = k \/ clear p) -> current t' (put h a i') a ->
  forall x, current t h0 x -> (forall y j, above h0 x y -> nth_error h0 y = Some j -> a_pk (i_row j) = k -> y = a) ->
  current t' (put h a i') x.
Proof.
  intros Gr HQ Ca x C. assert (La := nth_lt _ _ _ Ea). induction C as [x w E Sp L C IH]. intros H.
  destruct (Nat.eq_dec x a) as [->|Nx]; auto.
  assert (Nk : a_pk (i_row w) <> k) by (intros X; apply Nx; eapply H; eauto using above_self).
  destruct (Gr x w E) as (w' & E' & R & U).
  apply (cur t' _ x w').
  - rewrite nth_put by auto. destruct (Nat.eqb_spec x a); congruence.
  - rewrite R. apply place_next; auto.
  - intros b Eb. assert (X : exists j, nth_error h b = Some j /\ a_parent (i_row w) = Some (a_pk (i_row j))).
    { destruct U as [U|(_ & _ & U)]; [|apply U; auto]. destruct (L b) as (j & Ej & P); [congruence|].
      destruct (Gr b j Ej) as (j' & Ej' & Rj & _). exists j'. rewrite Rj. auto. }
    destruct X as (j & Ej & P). rewrite R, nth_put by auto. destruct (Nat.eqb_spec b a) as [->|Nb]; eauto.
    exists i'. split; auto. congruence.
  - intros b Eb. destruct U as [U|(_ & q & U)].
    + apply IH; [congruence|]. intros y j Ay Ej. apply H; auto. eapply above_up; eauto. congruence.
    + destruct (U b Eb) as (Cb & j & Ej & P). apply (chain_next b j Cb Ej).
      * destruct (HQ _ q) as [X|X]; [congruence|]. intros A EA HA.
        destruct (place_pk o t F St _ Sp) as (Hi & Hp). rewrite P in Hp. destruct (anc_parent _ F (proj1 St) Hi) as (A2 & E2 & [(Y & _)|(q2 & A3 & Y & _ & E3 & ->)]); [congruence|].
        rewrite Y in Hp. injection Hp as Hp. rewrite Hp in E3. rewrite EA in E3. injection E3 as ->.
        apply (X _ E2). rewrite map_app, in_app_iff. auto.
      * left. intros Y. destruct (HQ _ q) as [X|X]; [congruence|].
        destruct (place_pk o t F St _ Sp) as (Hi & Hp). rewrite P in Hp. destruct (anc_parent _ F (proj1 St) Hi) as (A2 & E2 & [(Z & _)|(q2 & A3 & Z & _ & E3 & ->)]); [congruence|].
        rewrite Z in Hp. injection Hp as Hp. apply (X _ E2). rewrite map_app, in_app_iff. right. left. congruence.
Qed.
End Moved.

Lemma anc_clear F k : wf_ids F -> In k (ids F) -> clear F k k /\
  forall A, ancestors_of k F = Some A -> forall j, In j (map nid A) -> j <> k /\ clear F k j.
Proof.
  intros W Hk. destruct (anc_parent k F W Hk) as (A0 & E0 & _).
  assert (Self : clear F k k).
  { intros A E H. destruct (anc_shorter F W A k k E Hk H) as (A' & E' & L). rewrite E in E'. injection E' as <-. lia. }
  split; auto. intros A E j Hj. split; [intros ->; apply (Self A E Hj)|]. intros B EB HB.
  destruct (anc_shorter F W A k j E Hk Hj) as (A' & E' & L). rewrite EB in E'. injection E' as <-.
  assert (Hj' : In j (ids F)).
  { apply in_map_iff in Hj. destruct Hj as (x & <- & Hx). apply in_map. apply (anc_in _ _ _ E). auto. }
  destruct (anc_shorter F W B j k EB Hj' HB) as (A' & E' & L'). rewrite E in E'. injection E' as <-. lia.
Qed.

Theorem move_current o t F h a b i g p P : stores o t F -> current t h a -> current t h b ->
  nth_error h a = Some i -> nth_error h b = Some g -> In (i_row i) t -> In (i_row g) t -> cache_pos (i_obj i) ->
  prepare_pos_move (is_sorted o) p = Ok P ->
  (inside F (a_pk (i_row i)) (a_pk (i_row g)) P /\ h_move o t h a b p = Err InvalidMoveToDescendant) \/
  (~ inside F (a_pk (i_row i)) (a_pk (i_row g)) P /\ exists t' h', h_move o t h a b p = Ok (t', h') /\
     stores o t' (sp_move (a_pk (i_row i)) (a_pk (i_row g)) P (gt_of o (a_data (i_row i))) F) /\
     (exists i', nth_error h' a = Some i' /\ In (i_row i') t' /\ a_pk (i_row i') = a_pk (i_row i)) /\
     current t' h' a /\ current t' h' b /\
     forall x, current t h x ->
       (forall y j, above h x y -> nth_error h y = Some j -> a_pk (i_row j) = a_pk (i_row i) -> y = a) -> current t' h' x).
Proof.
  intros St Ca Cb Ea Eb Hi Hg Hc EP.
  destruct (depth_ok o t F St h a i false Ca Ea) as (A & h2 & d & i2 & EA & Ed & G & E2 & _ & Cp & _). specialize (Cp Hc).
  destruct (G a i Ea) as (i2' & E2' & R & _). rewrite E2 in E2'. injection E2' as <-.
  destruct (G b g Eb) as (g2 & Eg2 & Rg & _).
  assert (Mv := move_ok o t F (i_obj i2) (i_row g) p P St). unfold i_row in R. 
  change (o_row (i_obj i2)) with (i_row i2) in *. change (o_row (i_obj i)) with (i_row i) in *. rewrite R in Mv.
  specialize (Mv Hi Cp Hg EP).
  unfold h_move, look. rewrite Ea, Eb. cbn [bind]. rewrite EP. cbn [bind].
  destruct (move_target o t (i_row i) (i_row g) P) as [[[[tg parent] p'] s]|e] eqn:Mt; cbn [bind].
  2: { assert (X : move o t (i_obj i2) (i_row g) p = Err e).
       { unfold move. rewrite EP. cbn [bind]. change (o_row (i_obj i2)) with (i_row i2). rewrite R, Mt. auto. }
       rewrite X in Mv. destruct Mv as [(H1 & H2)|(_ & t' & n' & H & _)]; [left; split; congruence|discriminate]. }
  rewrite Ed. cbn [bind]. rewrite E2. cbn [bind].
  destruct Mv as [(H1 & ->)|(NI & t' & n' & Em & St' & Hn' & (Ek & _))]; [left; auto|]. right. split; auto. rewrite Em. cbn [bind].
  change (o_row (i_obj i2)) with (i_row i2) in Ek. rewrite R in Ek.
  set (k := a_pk (i_row i)) in *. set (H := sp_move k (a_pk (i_row g)) P (gt_of o (a_data (i_row i))) F) in *.
  destruct (place_pk o t F St (i_row i)) as (Hki & Hkp); [exists (i_row i); auto|]. fold k in Hki, Hkp.
  destruct (place_pk o t F St (i_row g)) as (Hgi & Hgp); [exists (i_row g); auto|].
  assert (W := proj1 St). destruct (anc_clear F k W Hki) as (Cl & ClA). specialize (ClA A EA).
  destruct (move_parents k (a_pk (i_row g)) P (gt_of o (a_data (i_row i))) F W Hki Hgi NI (proj1 St')) as (Pk & Par). fold H in Pk, Par.
  assert (Clg : clear F k (a_pk (i_row g))).
  { intros B EB HB. apply NI. left. apply (anc_descends F _ _ W Hgi). eauto. }
  rewrite R. destruct (move_is_noop o t (i_row i) tg p') eqn:No.
  { assert (t' = t).
    { revert Em. unfold move. rewrite EP. cbn [bind]. change (o_row (i_obj i2)) with (i_row i2). rewrite R, Mt. cbn [bind].
      destruct (is_descendant_of o t tg (i_obj i2)) as [[]|]; cbn [bind]; try discriminate.
      unfold get_depth. change (o_row (i_obj i2)) with (i_row i2).
      destruct (a_parent (i_row i2)); [destruct (o_depth (i_obj i2)) eqn:Eo; [|destruct (count_depth t (i_row i2))]|]; cbn [bind].
      all: cbn [o_row]; try (change (o_row (i_obj i2)) with (i_row i2)); rewrite ?R, ?No; congruence. }
    subst t'. exists t, h2. split; auto. split; auto. split; [exists i2; rewrite R; auto|].
    split; [eapply grows_current; eauto|]. split; [eapply grows_current; eauto|]. intros x Cx _. eapply grows_current; eauto. }
  (* the new parent *)
  destruct (place_pk o t' H St' (o_row n')) as (_ & Pn); [exists (o_row n'); auto|]. rewrite Ek in Pn.
  assert (En : a_parent (o_row n') = if is_child_pos P then Some (a_pk (i_row g)) else a_parent (i_row g)) by (destruct (is_child_pos P); congruence).
  set (Q := fun q => q = k \/ clear F k q).
  assert (GQ : grows Q t h h2).
  { eapply grows_weak; [|exact G]. intros q [Hq|Hq]; [left; auto|right; apply ClA; auto]. }
  assert (Up : exists h3 up, match parent with
      | Some _ => Ok (h2, Some b)
      | None => match P with
                | FirstChild | LastChild | SortedChild => do '(h, c) <- load t h2 (a_pk (i_row g)); Ok (h, Some c)
                | _ => follow t h2 b
                end
      end = Ok (h3, up) /\ grows Q t h2 h3 /\
      match a_parent (o_row n'), up with
      | None, None => True
      | Some q, Some c => current t h3 c /\ (exists j, nth_error h3 c = Some j /\ a_pk (i_row j) = q) /\ clear F k q /\ q <> k
      | _, _ => False
      end).
  { rewrite En. destruct (is_child_pos P) eqn:EC.
    - assert (Nk : a_pk (i_row g) <> k) by (intros X; apply NI; right; auto).
      destruct parent as [q|].
      + exists h2, (Some b). split; auto. split; [apply grows_refl|]. split; [eapply grows_current; eauto|]. split; auto. exists g2. split; auto. congruence.
      + destruct (load_ok o t F St h2 (a_pk (i_row g)) Hgi) as (h3 & c & j & El & Gl & Cc & Ej & Pj & _).
        exists h3, (Some c). rewrite El. cbn [bind]. split; [destruct P; auto; discriminate|]. split; auto. split; auto. split; eauto.
    - assert (parent = None /\ tg = i_row g) as (-> & ->).
      { destruct P; cbn in Mt; try discriminate; injection Mt as <- <- _ _; auto. }
      destruct (follow_ok o t F St h2 b g2 (grows_current _ _ _ _ _ GQ Cb) Eg2) as (h3 & up & Ef & Gf & Hf). rewrite Rg in Gf, Hf.
      exists h3, up. split; [destruct P; auto; discriminate|]. split; [eapply grows_weak; [|exact Gf]; intros q <-; right; auto|].
      destruct (a_parent (i_row g)) as [q|] eqn:Eq, up as [c|]; auto. destruct Hf as (Cc & Hj). split; auto. split; auto.
      destruct (anc_parent _ F W Hgi) as (B & EB & [(X & _)|(q2 & B' & X & _ & EB' & ->)]); [congruence|]. rewrite Hgp in X. injection X as ->.
      specialize (Clg _ EB). rewrite map_app, in_app_iff in Clg. split; [intros B2 E3; rewrite EB' in E3; injection E3 as <-; tauto|].
      intros X. apply Clg. right. left. auto. }
  destruct Up as (h3 & up & -> & G3 & Hup). cbn [bind].
  assert (GQ3 : grows Q t h h3) by (eapply grows_trans; eauto).
  destruct (GQ3 a i Ea) as (i3 & E3 & R3 & _). destruct (GQ3 b g Eb) as (g3 & Eg3 & Rg3 & _).
  assert (La := nth_lt _ _ _ E3).
  assert (Ra : nth_error (put h3 a (mkInst n' up)) a = Some (mkInst n' up)) by (rewrite nth_put, Nat.eqb_refl by auto; auto).
  assert (Chain := chain_next o t t' F H k St St' Par h3 a i3 (mkInst n' up) E3 ltac:(rewrite R3; auto) Ek).
  assert (Ca' : current t' (put h3 a (mkInst n' up)) a).
  { apply (cur t' _ a (mkInst n' up)); auto.
    - exists (o_row n'). auto.
    - cbn [i_up]. intros c ->. change (i_row (mkInst n' (Some c))) with (o_row n'). destruct (a_parent (o_row n')) as [q|]; [|destruct Hup].
      destruct Hup as (_ & (j & Ej & Pj) & _ & Nq). exists j. rewrite nth_put by auto.
      destruct (Nat.eqb_spec c a) as [->|_]; [|split; congruence]. rewrite E3 in Ej. injection Ej as <-. rewrite R3 in Pj. destruct (Nq (eq_sym Pj)).
    - cbn [i_up]. intros c ->. destruct (a_parent (o_row n')) as [q|]; [|destruct Hup].
      destruct Hup as (Cc & (j & Ej & Pj) & Cq & Nq). apply (Chain c j); auto; rewrite Pj; auto. }
  exists t', (put h3 a (mkInst n' up)). split; auto. split; auto. split; [exists (mkInst n' up); auto|]. split; auto. split.
  - destruct (Nat.eq_dec b a) as [->|Nb]; auto. apply (Chain b g3); auto; [eapply grows_current; eauto|rewrite Rg3; auto|rewrite Rg3].
    destruct (Nat.eq_dec (a_pk (i_row g)) k) as [X|X]; auto. right. split; auto.
    apply (place_in o t' H); auto; rewrite X.
    + destruct (place_pk o t' H St' (o_row n')) as (X1 & _); [exists (o_row n'); auto|]. congruence.
    + destruct (is_child_pos P) eqn:EC; [|congruence]. destruct NI. right. auto.
  - intros x Cx Hx. apply (rest_next o t t' F H k St St' Par h3 a i3 (mkInst n' up) E3 ltac:(rewrite R3; auto) Ek h Q); auto.
Qed.

(** ** Adding and reloading *)

Lemma add_parents F G up x L1 L2 : wf_ids F -> wf_ids G -> ~ In (nid x) (ids F) -> ALUpd.put F G up x L1 L2 ->
  parent_of (nid x) G = Some up /\ forall j, In j (ids F) -> In j (ids G) /\ parent_of j G = parent_of j F.
Proof.
  intros W WG Nx (D & K & R). split.
  - apply kl_parent; auto. rewrite K, in_app_iff. right. left. auto.
  - intros j Hj. destruct (kl_ex F j W Hj) as (q & b & Hb & <- & Pb). rewrite Pb.
    assert (Hb' : In b (kl q G)); [|split; [eapply kl_in; eauto|apply kl_parent; auto]].
    assert (Hd : In b (drop (nid x) (kl q F))).
    { unfold drop. rewrite filter_In. split; auto. destruct (Nat.eqb_spec (nid b) (nid x)) as [E|]; auto. congruence. }
    destruct (opt_dec q up) as [->|Nq]; [|rewrite R; auto]. rewrite D, in_app_iff in Hd. rewrite K, in_app_iff. cbn [In]. tauto.
Qed.

(** An instance appended after a write that gave no node another parent *)
Lemma added_current o t t' F G h obj up : stores o t F -> stores o t' G ->
  (forall j, In j (ids F) -> In j (ids G) /\ parent_of j G = parent_of j F) -> In (o_row obj) t' ->
  match up with
  | None => True
  | Some b => current t h b /\ exists g, nth_error h b = Some g /\ a_parent (o_row obj) = Some (a_pk (i_row g))
  end ->
  current t' (h ++ [mkInst obj up]) (length h) /\ forall y, current t h y -> current t' (h ++ [mkInst obj up]) y.
Proof.
  intros St St' Par Ho Hu.
  assert (Old : forall y, current t h y -> current t' (h ++ [mkInst obj up]) y).
  { intros y C. apply (grows_current (fun _ => True) t' h); [apply grows_alloc|]. apply (same_table t t'); auto.
    intros r Sp. destruct (place_pk o t F St r Sp) as (Hi & P). destruct (Par _ Hi) as (H1 & H2). apply (place_in o t' G); auto. congruence. }
  split; auto. apply (cur t' _ (length h) (mkInst obj up)).
  - rewrite nth_error_app2, Nat.sub_diag by lia. auto.
  - exists (o_row obj). auto.
  - cbn [i_up]. intros b ->. destruct Hu as (_ & g & Eg & Pg). exists g. split; auto. rewrite nth_error_app1; auto. eapply nth_lt; eauto.
  - cbn [i_up]. intros b ->. apply Old, Hu.
Qed.

Theorem add_root_current o t F h x : stores o t F -> ~ In (nid x) (ids F) -> (o <> [] -> has_values o (ndata x)) ->
  exists t' h' a, h_add_root o t h x = Ok (t', h', a) /\ stores o t' (sp_add_root (gt_opt o (ndata x)) x F) /\
    (exists i, nth_error h' a = Some i /\ row_node (i_row i) = x) /\ current t' h' a /\
    forall y, current t h y -> current t' h' y.
Proof.
  intros St Hx V. destruct (add_root_ok o t F x St Hx V) as (t' & obj & E & St' & Ho & Ex & _).
  unfold h_add_root. rewrite E. cbn [bind]. eexists _, _, _. split; [reflexivity|]. split; auto.
  split; [exists (mkInst obj None); rewrite nth_error_app2, Nat.sub_diag by lia; auto|].
  destruct (add_root_sane (gt_opt o (ndata x)) x F (proj1 St) Hx) as (L1 & L2 & A & _). apply added_put in A; auto.
  apply (added_current o t t' F _ h obj None St St'); auto. apply (add_parents F _ None x L1 L2); auto. apply St. apply St'.
Qed.

Theorem add_child_current o t F h b g x : stores o t F -> current t h b -> nth_error h b = Some g -> ~ In (nid x) (ids F) ->
  (o <> [] -> has_values o (ndata x)) ->
  exists t' h' a, h_add_child o t h b x = Ok (t', h', a) /\
    stores o t' (sp_add_child (gt_opt o (ndata x)) (a_pk (i_row g)) x F) /\
    (exists i, nth_error h' a = Some i /\ row_node (i_row i) = x) /\ current t' h' a /\
    forall y, current t h y -> current t' h' y.
Proof.
  intros St Cb Eb Hx V. destruct (current_inst _ _ _ Cb) as (g' & Eg' & Sp). rewrite Eb in Eg'. injection Eg' as <-.
  destruct (place_pk o t F St _ Sp) as (Hi & _).
  destruct (add_child_ok o t F (i_obj g) x St Hi Hx V) as (t' & obj & E & St' & Ho & Ex & _).
  unfold h_add_child, look. rewrite Eb. cbn [bind]. rewrite E. cbn [bind]. eexists _, _, _. split; [reflexivity|]. split; auto.
  split; [exists (mkInst obj (Some b)); rewrite nth_error_app2, Nat.sub_diag by lia; auto|].
  destruct (add_child_sane (gt_opt o (ndata x)) _ x F (proj1 St) Hi Hx) as (L1 & L2 & A & _). apply added_put in A; auto.
  apply (added_current o t t' F _ h obj (Some b) St St'); auto.
  - apply (add_parents F _ _ x L1 L2 (proj1 St) (proj1 St') Hx A).
  - split; auto. exists g. split; auto. unfold add_child in E. injection E as _ <-. auto.
Qed.

Theorem add_sibling_current o t F h b g p P x : stores o t F -> nth_error h b = Some g -> In (i_row g) t -> ~ In (nid x) (ids F) ->
  (o <> [] -> has_values o (ndata x)) -> prepare_pos_add (is_sorted o) p = Ok P ->
  exists t' h' a, h_add_sibling o t h b p x = Ok (t', h', a) /\
    stores o t' (sp_add_sibling (a_pk (i_row g)) P (gt_of o (ndata x)) x F) /\
    (exists i, nth_error h' a = Some i /\ row_node (i_row i) = x) /\ current t' h' a /\
    forall y, current t h y -> current t' h' y.
Proof.
  intros St Eb Hg Hx V EP. destruct (place_pk o t F St (i_row g)) as (Hi & _); [exists (i_row g); auto|].
  destruct (add_sibling_ok o t F (i_row g) p P x St Hg Hx V EP) as (t' & obj & E & St' & Ho & Ex & _).
  unfold h_add_sibling, look. rewrite Eb. cbn [bind]. rewrite E. cbn [bind]. eexists _, _, _. split; [reflexivity|]. split; auto.
  split; [exists (mkInst obj None); rewrite nth_error_app2, Nat.sub_diag by lia; auto|].
  destruct (add_sibling_sane (a_pk (i_row g)) P (gt_of o (ndata x)) x F (proj1 St) Hi Hx (prepare_add_sib _ _ _ EP)) as (up & L1 & L2 & _ & A & _).
  apply added_put in A; auto.
  apply (added_current o t t' F _ h obj None St St'); auto. apply (add_parents F _ up x L1 L2 (proj1 St) (proj1 St') Hx A).
Qed.

Theorem refresh_current o t F h a i : stores o t F -> nth_error h a = Some i -> In (a_pk (i_row i)) (ids F) ->
  exists h', refresh t h a = Ok h' /\ current t h' a /\ exists i', nth_error h' a = Some i' /\ In (i_row i') t /\
    a_pk (i_row i') = a_pk (i_row i) /\ o_depth (i_obj i') = None.
Proof.
  intros St Ea Hi. destruct (get_pk_ok o t F St _ Hi) as (r & Er & Hr & Pr). unfold refresh, look. rewrite Ea. cbn [bind]. rewrite Er. cbn [bind].
  eexists. split; [reflexivity|]. assert (E : nth_error (put h a (mkInst (fresh r) None)) a = Some (mkInst (fresh r) None)).
  { rewrite nth_put, Nat.eqb_refl by (eapply nth_lt; eauto). auto. }
  split; [|eauto]. eapply cur; [exact E| |discriminate|discriminate]. exists r. auto.
Qed.
