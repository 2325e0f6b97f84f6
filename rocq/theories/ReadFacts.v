(** Reads of adjacency lists while others change the table. *)
From Coq Require Import String List Arith ZArith Lia Bool Permutation Sorted.
From Verif Require Import Prelude Forest SpecFacts SpecSane CommonModel Order History SpecRun SpecKids ALModel ALInv ALReads ALAnswers PathTab ReadModel Grows.
Import ListNotations.

Section Loop.
Context {A B : Type}.
Variable f : A -> nat -> res (list B * nat).

Lemma loop_inv (R : nat -> list B -> Prop) l :
  (forall a k r k', In a l -> f a k = Ok (r, k') -> k <= k' /\ R k' r) ->
  (forall k k' r, k <= k' -> R k r -> R k' r) -> (forall k, R k []) -> (forall k r r', R k r -> R k r' -> R k (r ++ r')) ->
  forall k r k', collect_over f l k = Ok (r, k') -> k <= k' /\ R k' r.
Proof.
  intros H M N P. induction l as [|a l IH]; intros k r k' E; cbn [collect_over] in E.
  - injection E as <- <-. auto.
  - destruct (f a k) as [[ra k1]|] eqn:Ea; [|discriminate]. cbn [bind] in E.
    destruct (collect_over f l k1) as [[rl k2]|] eqn:El; [|discriminate]. cbn [bind] in E. injection E as <- <-.
    destruct (H a k ra k1 (or_introl eq_refl) Ea) as (K1 & R1).
    destruct (IH (fun b k r k' Hb => H b k r k' (or_intror Hb)) k1 rl k2 El) as (K2 & R2).
    split; [lia|]. apply P; auto. apply M with k1; auto.
Qed.

Lemma loop_in l : (forall a k r k', In a l -> f a k = Ok (r, k') -> k <= k') -> forall k r k' a,
  collect_over f l k = Ok (r, k') -> In a l -> exists k1 ra k2, k <= k1 /\ f a k1 = Ok (ra, k2) /\ k2 <= k' /\ incl ra r.
Proof.
  intros M. induction l as [|b l IH]; intros k r k' a E Ha; [destruct Ha|]. cbn [collect_over] in E.
  destruct (f b k) as [[rb k1]|] eqn:Eb; [|discriminate]. cbn [bind] in E.
  destruct (collect_over f l k1) as [[rl k2]|] eqn:El; [|discriminate]. cbn [bind] in E. injection E as <- <-.
  assert (K1 := M b k rb k1 (or_introl eq_refl) Eb).
  assert (K2 : k1 <= k2).
  { destruct (loop_inv (fun _ _ => True) l) with (k := k1) (r := rl) (k' := k2); auto. intros b0 k3 r k4 Hb Eb0. split; auto. apply (M b0 k3 r k4); auto. right; auto. }
  destruct Ha as [->|Ha].
  - exists k, rb, k1. repeat split; auto. apply incl_appl, incl_refl.
  - destruct (IH (fun b k r k' Hb => M b k r k' (or_intror Hb)) k1 rl k2 a El Ha) as (x & ra & y & H1 & H2 & H3 & H4).
    exists x, ra, y. repeat split; auto; [lia|]. apply incl_appr. auto.
Qed.

Lemma loop_ok l : (forall a k, In a l -> exists r, f a k = Ok r) -> forall k, exists r, collect_over f l k = Ok r.
Proof.
  induction l as [|a l IH]; intros H k; [eexists; reflexivity|]. cbn [collect_over].
  destruct (H a k (or_introl eq_refl)) as ((ra & k1) & ->). cbn [bind].
  destruct (IH (fun b k Hb => H b k (or_intror Hb)) k1) as ((rl & k2) & ->). eexists; reflexivity.
Qed.

Lemma loop_nodup (C : Type) (g : B -> C) (key : A -> nat) (T : A -> C -> Prop) l :
  (forall a k r k', In a l -> f a k = Ok (r, k') -> NoDup (map g r) /\ forall y, In y r -> T a (g y)) ->
  (forall a b i, In a l -> In b l -> T a i -> T b i -> key a = key b) -> NoDup (map key l) ->
  forall k r k', collect_over f l k = Ok (r, k') -> NoDup (map g r) /\ forall y, In y r -> exists a, In a l /\ T a (g y).
Proof.
  induction l as [|a l IH]; intros H D N k r k' E; cbn [collect_over] in E.
  - injection E as <- <-. split; [constructor|intros y []].
  - destruct (f a k) as [[ra k1]|] eqn:Ea; [|discriminate]. cbn [bind] in E.
    destruct (collect_over f l k1) as [[rl k2]|] eqn:El; [|discriminate]. cbn [bind] in E. injection E as <- <-.
    cbn [map] in N. inversion N as [|? ? N1 N2]; subst. destruct (H a k ra k1 (or_introl eq_refl) Ea) as (Na & Ta).
    destruct (IH (fun b k r k' Hb => H b k r k' (or_intror Hb)) (fun b c i Hb Hc => D b c i (or_intror Hb) (or_intror Hc)) N2 k1 rl k2 El) as (Nl & Tl).
    split.
    + rewrite map_app. apply NoDup_app_iff. split; auto. split; auto. intros x Hx Hy.
      apply in_map_iff in Hx. destruct Hx as (y & <- & Hx). apply in_map_iff in Hy. destruct Hy as (z & E & Hz).
      destruct (Tl z Hz) as (b & Hb & Tb). apply N1. rewrite E in Tb.
      rewrite (D a b (g y)); auto using or_introl, or_intror. apply in_map. auto. left; auto. right; auto.
    + intros y Hy. apply in_app_iff in Hy. destruct Hy as [Hy|Hy].
      * exists a. split; [left; auto|]. apply Ta. auto.
      * destruct (Tl y Hy) as (b & Hb & Tb). exists b. split; auto. right; auto.
Qed.
End Loop.

Lemma sorted_in o t p so F r : fits so t F -> In r (kids o t p) <-> In r t /\ a_parent r = p.
Proof.
  intros Fit. split.
  - intros H. apply (Permutation_in _ (perm_kids so t F Fit o p)) in H. apply in_map_iff in H.
    destruct H as (a & <- & Ha). split; auto. apply (fits_node so t F); auto.
  - intros (H & E). apply (Permutation_in _ (Permutation_sym (perm_kids so t F Fit o p))).
    apply (fits_in so t F) in H; auto. destruct H as (a & Ha & ->). cbn [a_parent arow] in *. rewrite E in *. apply in_map. auto.
Qed.

(** Whether the loop makes a query: al_tree.py:52-57 *)
Definition asks (parent : option nat) (nhc : bool) : bool := match parent with Some _ => nhc | None => true end.

Lemma tree_over_S o env fuel k parent nhc d m : tree_over o env (S fuel) k parent nhc d m =
  if too_deep m d then Ok ([], k)
  else if asks parent nhc then
    collect_over (fun n j => do '(sub, j) <- tree_over o env fuel j (Some (a_pk n)) (has_children (env k) (a_pk n)) (d + 1)%Z m;
                             Ok (mkAObj n (Some d) :: sub, j)) (kids o (env k) parent) (S k)
  else Ok ([], k).
Proof. cbn [tree_over]. destruct (too_deep m d), parent; cbn [asks]; auto; destruct nhc; auto. Qed.

(** ** Nobody changes the parent of a node *)
Section Stay.
Variables (o : ordering) (env : nat -> al_table) (F : nat -> forest node).
Hypothesis St : forall k, stores o (env k) (F k).
Hypothesis stay : forall j k i p q, parent_of i (F j) = Some p -> parent_of i (F k) = Some q -> p = q.

(** The node and its ancestors, from the node up. *)
Inductive line : nat -> list nat -> Prop :=
| line_root i j : parent_of i (F j) = Some None -> line i [i]
| line_kid i j p L : parent_of i (F j) = Some (Some p) -> line p L -> line i (i :: L).

Lemma line_det i L : line i L -> forall L', line i L' -> L = L'.
Proof.
  induction 1 as [i j P|i j p L P HL IH]; intros L' H'; inversion H'; subst; auto.
  - assert (X := stay _ _ _ _ _ P H). discriminate.
  - assert (X := stay _ _ _ _ _ P H). discriminate.
  - assert (X := stay _ _ _ _ _ P H). injection X as <-. f_equal. auto.
Qed.

Lemma line_in j i A : ancestors_of i (F j) = Some A -> line i (i :: rev (map nid A)).
Proof.
  destruct (St j) as (W & _). remember (length A) as n eqn:En. revert i A En. induction n as [|n IH]; intros i A En E.
  - destruct A; [|discriminate]. assert (Hi : In i (ids (F j))) by (eapply anc_has; eauto).
    destruct (anc_parent i (F j) W Hi) as (A0 & E0 & [(P & _)|(q & A' & _ & _ & _ & ->)]).
    + eapply line_root; eauto.
    + rewrite E in E0. destruct A'; discriminate.
  - assert (Hi : In i (ids (F j))) by (eapply anc_has; eauto).
    destruct (anc_parent i (F j) W Hi) as (A0 & E0 & [(_ & ->)|(q & A' & P & _ & Eq & ->)]).
    + rewrite E in E0. injection E0 as ->. discriminate.
    + rewrite E in E0. injection E0 as ->. rewrite map_app, rev_app_distr. cbn [map rev app].
      eapply line_kid; eauto. apply IH; auto. rewrite app_length in En. cbn in En. lia.
Qed.

Lemma line_at j i L : In i (ids (F j)) -> line i L -> exists A, ancestors_of i (F j) = Some A /\ L = i :: rev (map nid A).
Proof.
  intros Hi HL. destruct (St j) as (W & _). destruct (anc_parent i (F j) W Hi) as (A & E & _). exists A. split; auto.
  apply (line_det i); auto. eapply line_in; eauto.
Qed.

(** An ancestor is there whenever the node is. *)
Lemma line_has j i L q : In i (ids (F j)) -> line i L -> In q L -> In q (ids (F j)).
Proof.
  intros Hi HL Hq. destruct (line_at j i L Hi HL) as (A & E & ->). destruct Hq as [<-|Hq]; auto.
  apply in_rev in Hq. apply in_map_iff in Hq. destruct Hq as (x & <- & Hx). apply in_map. eapply anc_in; eauto.
Qed.

Lemma line_of_row j r : In r (env j) -> exists L, line (a_pk r) (a_pk r :: L) /\
  match a_parent r with None => L = [] | Some p => line p L end.
Proof.
  intros Hr. destruct (St j) as (W & _ & so & Fit & _). destruct (fits_pk so _ _ W Fit r Hr) as (Hi & P & _).
  destruct (anc_parent _ _ W Hi) as (A & E & [(Q & ->)|(q & A' & Q & _ & Eq & ->)]); rewrite P in Q; injection Q as ->.
  - exists []. split; auto. apply (line_in _ _ _ E).
  - exists (nid q :: rev (map nid A')). assert (X := line_in _ _ _ E). rewrite map_app, rev_app_distr in X. cbn [map rev app] in X.
    split; auto. apply (line_in _ _ _ Eq).
Qed.

(** An object below the line [L] of its ancestors, seen by one of the first [k] queries. *)
Definition sub (m : option Z) (L : list nat) (k : nat) (x : alobj) : Prop :=
  exists pre j, pre <> [] /\ line (a_pk (o_row x)) (pre ++ L) /\ o_depth x = Some (Z.of_nat (length (pre ++ L))) /\
    In (o_row x) (env j) /\ j < k /\ too_deep m (Z.of_nat (length (pre ++ L))) = false.

Definition anchored (parent : option nat) (L : list nat) : Prop := match parent with None => L = [] | Some p => line p L end.

Lemma anchored_row k parent L r : anchored parent L -> In r (kids o (env k) parent) -> line (a_pk r) (a_pk r :: L).
Proof.
  intros HA Hr. destruct (St k) as (W & _ & so & Fit & _). apply (sorted_in o _ _ so (F k)) in Hr; auto. destruct Hr as (Hr & E).
  destruct (line_of_row k r Hr) as (L' & H1 & H2). rewrite E in H2. destruct parent as [p|]; cbn [anchored] in *.
  - rewrite (line_det p L HA L' H2). auto.
  - subst. auto.
Qed.

Lemma over_sound : forall fuel k parent nhc L m l k', anchored parent L ->
  tree_over o env fuel k parent nhc (Z.of_nat (S (length L))) m = Ok (l, k') ->
  k <= k' /\ Forall (sub m L k') l /\ NoDup (map (fun x => a_pk (o_row x)) l).
Proof.
  induction fuel as [|fuel IH]; intros k parent nhc L m l k' HA E; [discriminate|]. rewrite tree_over_S in E.
  destruct (too_deep _ _) eqn:Td; [injection E as <- <-; repeat split; constructor|].
  destruct (asks parent nhc); [|injection E as <- <-; repeat split; constructor].
  set (f := fun n j => _) in E.
  assert (Hf : forall a j r j', In a (kids o (env k) parent) -> f a j = Ok (r, j') -> S k <= j ->
     exists r', r = mkAObj a (Some (Z.of_nat (S (length L)))) :: r' /\ j <= j' /\ Forall (sub m (a_pk a :: L) j') r' /\ NoDup (map (fun x => a_pk (o_row x)) r')).
  { intros a j r j' Ha Ef Hj. unfold f in Ef. replace (Z.of_nat (S (length L)) + 1)%Z with (Z.of_nat (S (length (a_pk a :: L)))) in Ef by (cbn [length]; lia).
    destruct (tree_over _ _ _ _ _ _ _ _) as [[s j1]|] eqn:Es; [|discriminate]. cbn [bind] in Ef. injection Ef as <- <-.
    exists s. split; auto. apply (IH _ (Some (a_pk a)) _ (a_pk a :: L) _ _ _ (anchored_row k parent L a HA Ha) Es). }
  assert (M : S k <= k' /\ Forall (sub m L k') l).
  { assert (X : forall qs, incl qs (kids o (env k) parent) -> forall j r j', S k <= j -> collect_over f qs j = Ok (r, j') -> j <= j' /\ Forall (sub m L j') r).
    { induction qs as [|a qs IHq]; intros Hq j r j' Hj Ec; cbn [collect_over] in Ec; [injection Ec as <- <-; auto|].
      destruct (f a j) as [[ra j1]|] eqn:Ea; [|discriminate]. cbn [bind] in Ec.
      destruct (collect_over f qs j1) as [[rl j2]|] eqn:El; [|discriminate]. cbn [bind] in Ec. injection Ec as <- <-.
      assert (Hai : In a (kids o (env k) parent)) by (apply Hq; left; auto).
      destruct (Hf a j ra j1 Hai Ea Hj) as (r' & -> & K1 & S1 & _).
      destruct (IHq (fun x Hx => Hq x (or_intror Hx)) j1 rl j2 ltac:(lia) El) as (K2 & S2). split; [lia|].
      apply Forall_app. split; auto. constructor.
      - exists [a_pk a], k. split; [discriminate|]. cbn [o_row o_depth app]. split; [eapply anchored_row; eauto|]. split; [auto|].
        split; [|split; [lia|exact Td]]. destruct (St k) as (W & _ & so & Fit & _). apply (sorted_in o _ _ so (F k)) in Hai; tauto.
      - eapply Forall_impl; [|exact S1]. intros x (pre & i & H1 & H2 & H3 & H4 & H5 & H6). exists (pre ++ [a_pk a]), i.
        rewrite <- app_assoc. cbn [app]. repeat split; auto; [destruct pre; discriminate|lia]. }
    apply (X _ (incl_refl _) (S k)); auto. }
  destruct M as (K & Sb). split; [lia|]. split; auto.
  destruct (loop_nodup (fun n j => if S k <=? j then f n j else Err OutOfFuel) nat (fun x => a_pk (o_row x)) a_pk
     (fun a i => exists pre, line i (pre ++ a_pk a :: L))
     (kids o (env k) parent)) with (k := S k) (r := l) (k' := k') as (N & _); auto.
  - intros a j r j' Ha Ef. destruct (S k <=? j) eqn:Hj; [|discriminate]. apply Nat.leb_le in Hj.
    destruct (Hf a j r j' Ha Ef Hj) as (r' & -> & K1 & S1 & N1). split.
    + cbn [map o_row]. constructor; auto. intros Hx. apply in_map_iff in Hx. destruct Hx as (y & Ey & Hy).
      rewrite Forall_forall in S1. destruct (S1 y Hy) as (pre & i & Np & HL & _). rewrite Ey in HL.
      assert (X := line_det _ _ (anchored_row k parent L a HA Ha) _ HL). apply (f_equal (@length nat)) in X. rewrite app_length in X.
      destruct pre; [congruence|cbn in X; lia].
    + intros y [<-|Hy]; [exists []; eapply anchored_row; eauto|]. rewrite Forall_forall in S1. destruct (S1 y Hy) as (pre & i & Np & HL & _). eauto.
  - intros a b i Ha Hb (pre & H1) (pre' & H2). assert (X := line_det _ _ H1 _ H2).
    assert (Y := f_equal (@length nat) X). rewrite !app_length in Y. cbn [length] in Y.
    apply app_eq_len in X; [|lia]. destruct X as (_ & X). injection X as ->. auto.
  - destruct (St k) as (W & _ & so & Fit & _). rewrite (Permutation_map a_pk (perm_kids so _ _ Fit o parent)), map_map. cbn. apply kl_nodup. auto.
  - rewrite <- E. clear - Hf. assert (X : forall qs, incl qs (kids o (env k) parent) -> forall j, S k <= j ->
      collect_over (fun n j => if S k <=? j then f n j else Err OutOfFuel) qs j = collect_over f qs j); [|apply X; auto; apply incl_refl].
    induction qs as [|a qs IHq]; intros Hq j Hj; auto. cbn [collect_over]. rewrite (proj2 (Nat.leb_le _ _) Hj).
    destruct (f a j) as [[ra j1]|] eqn:Ea; auto. cbn [bind]. destruct (Hf a j ra j1 (Hq a (or_introl eq_refl)) Ea Hj) as (r' & _ & K & _).
    rewrite IHq; auto. intros x Hx. apply Hq. right; auto. lia.
Qed.

Lemma over_mono fuel k parent nhc L m l k' : anchored parent L ->
  tree_over o env fuel k parent nhc (Z.of_nat (S (length L))) m = Ok (l, k') -> k <= k'.
Proof. intros HA E. apply (over_sound _ _ _ _ _ _ _ _ HA E). Qed.

Lemma deep_mono m d d' : (1 <= d)%Z -> (d <= d')%Z -> too_deep m d' = false -> too_deep m d = false.
Proof.
  destruct m as [m|]; auto. cbn [too_deep]. destruct (m =? 0)%Z; auto. cbn [negb andb]. rewrite !Z.ltb_ge. lia.
Qed.

Lemma over_complete : forall fuel k0 k parent L m l k' x pre, anchored parent L -> k0 <= k ->
  tree_over o env fuel k parent (match parent with Some p => has_children (env k0) p | None => true end) (Z.of_nat (S (length L))) m = Ok (l, k') ->
  (forall j, k0 <= j -> j < k' \/ j = k0 -> In x (ids (F j))) -> line x (pre ++ L) -> pre <> [] ->
  too_deep m (Z.of_nat (length (pre ++ L))) = false -> In x (map (fun y => a_pk (o_row y)) l).
Proof.
  induction fuel as [|fuel IH]; intros k0 k parent L m l k' x pre HA Hk E Hx HL Np Hd; [discriminate|].
  destruct (exists_last Np) as (pre' & c & ->). rewrite <- app_assoc in *. cbn [app] in *.
  rewrite tree_over_S in E.
  rewrite (deep_mono m (Z.of_nat (S (length L))) (Z.of_nat (length (pre' ++ c :: L)))) in E; [|lia|rewrite app_length; cbn [length]; lia|exact Hd].
  assert (Row : forall j, In x (ids (F j)) -> exists r, In r (env j) /\ a_pk r = c /\ a_parent r = parent).
  { intros j Hj. assert (Hc : In c (ids (F j))) by (eapply line_has; eauto; apply in_app_iff; right; left; auto).
    destruct (St j) as (W & _ & so & Fit & _). destruct (fits_ex so _ _ W Fit c Hc) as (r & Hr & Er). exists r. repeat split; auto.
    assert (Lc : line c (c :: L)).
    { clear - HL. remember (pre' ++ c :: L) as X eqn:EX. revert pre' EX. induction HL as [i j P|i j p M P HM IHM]; intros pre' EX.
      - destruct pre' as [|u [|]]; [|discriminate|discriminate]. injection EX as <- <-. eapply line_root; eauto.
      - destruct pre' as [|u pre']; cbn [app] in EX; injection EX as -> EX; [subst; eapply line_kid; eauto|]. eapply IHM; eauto. }
    destruct (line_of_row j r Hr) as (L' & H1 & H2). rewrite Er in H1. assert (X := line_det _ _ Lc _ H1). injection X as <-.
    destruct (a_parent r) as [q|], parent as [p|]; cbn [anchored] in HA; auto.
    - inversion HA; inversion H2; subst; congruence.
    - subst. inversion H2.
    - subst. inversion HA. }
  assert (Hk0 : In x (ids (F k0))) by (apply Hx; auto).
  assert (Hask : asks parent (match parent with Some p => has_children (env k0) p | None => true end) = true).
  { destruct parent as [p|]; auto. cbn [asks]. destruct (Row k0 Hk0) as (r & Hr & _ & Ep).
    unfold has_children. apply existsb_exists. exists r. split; auto. apply par_eqb_spec. auto. }
  rewrite Hask in E. set (f := fun n j => _) in E.
  assert (Mf : forall a j r j', In a (kids o (env k) parent) -> f a j = Ok (r, j') -> j <= j').
  { intros a j r j' Ha Ef. unfold f in Ef. replace (Z.of_nat (S (length L)) + 1)%Z with (Z.of_nat (S (length (a_pk a :: L)))) in Ef by (cbn [length]; lia).
    destruct (tree_over _ _ _ _ _ _ _ _) as [[s j1]|] eqn:Es; [|discriminate]. cbn [bind] in Ef. injection Ef as <- <-.
    eapply (over_mono _ _ (Some (a_pk a)) _ (a_pk a :: L)); eauto. cbn [anchored]. eapply anchored_row; eauto. }
  assert (Kk : S k <= k').
  { destruct (loop_inv f (fun _ _ => True) (kids o (env k) parent)) with (k := S k) (r := l) (k' := k'); auto.
    intros a j r j' Ha Ef. split; auto. eapply Mf; eauto. }
  assert (Hxk : In x (ids (F k))) by (apply Hx; lia).
  destruct (Row k Hxk) as (r & Hr & Er & Ep).
  assert (Hrk : In r (kids o (env k) parent)).
  { destruct (St k) as (W & _ & so & Fit & _). apply (sorted_in o _ _ so (F k)); auto. }
  destruct (loop_in f (kids o (env k) parent) Mf (S k) l k' r E Hrk) as (k1 & ra & k2 & K1 & Ef & K2 & Inc).
  unfold f in Ef. replace (Z.of_nat (S (length L)) + 1)%Z with (Z.of_nat (S (length (a_pk r :: L)))) in Ef by (cbn [length]; lia).
  destruct (tree_over _ _ _ _ _ _ _ _) as [[s j1]|] eqn:Es; [|discriminate]. cbn [bind] in Ef. injection Ef as <- <-.
  assert (Hs : In x (map (fun y => a_pk (o_row y)) (mkAObj r (Some (Z.of_nat (S (length L)))) :: s))).
  { destruct (list_eq_dec Nat.eq_dec pre' []) as [->|Np'].
    - left. cbn [o_row app] in *. inversion HL; subst; auto.
    - right. apply (IH k k1 (Some (a_pk r)) (a_pk r :: L) m s j1 x pre'); auto; try lia.
      + cbn [anchored]. eapply anchored_row; eauto.
      + intros j Hj [Hj'| ->]; [apply Hx; lia|auto].
      + rewrite Er. auto.
      + rewrite Er. auto. }
  apply in_map_iff in Hs. destruct Hs as (y & Ey & Hy). apply in_map_iff. exists y. auto.
Qed.

(** The loop ends if the tables never hold more than [N] rows. *)
Lemma line_size i L : line i L -> exists j, length L <= size (F j).
Proof.
  intros H. assert (X : exists j, In i (ids (F j))).
  { inversion H; subst; exists j; eapply parent_has; eauto. }
  destruct X as (j & Hj). destruct (line_at j i L Hj H) as (A & E & ->). exists j. destruct (St j) as (W & _).
  assert (Y := anc_nodup _ _ _ W E). rewrite <- size_preorder, <- (map_length nid).
  apply NoDup_incl_length.
  - constructor; [|apply NoDup_rev; auto]. intros Hi. apply in_rev in Hi. apply in_map_iff in Hi. destruct Hi as (x & Ex & Hx).
    eapply anc_irr; eauto.
  - intros x [<-|Hx]; auto. apply in_rev in Hx. apply in_map_iff in Hx. destruct Hx as (y & <- & Hy). apply in_map. eapply anc_in; eauto.
Qed.

Lemma over_ends N : (forall j, size (F j) <= N) -> forall fuel k parent nhc L d m, anchored parent L -> N < fuel + length L ->
  exists r, tree_over o env fuel k parent nhc d m = Ok r.
Proof.
  intros HN. induction fuel as [|fuel IH]; intros k parent nhc L d m HA Hl.
  - destruct parent as [p|]; cbn [anchored] in HA.
    + destruct (line_size p L HA) as (j & Hj). specialize (HN j). lia.
    + subst. cbn in Hl. lia.
  - rewrite tree_over_S. destruct (too_deep m d); [eexists; reflexivity|]. destruct (asks _ _); [|eexists; reflexivity].
    apply loop_ok. intros a j Ha.
    destruct (IH j (Some (a_pk a)) (has_children (env k) (a_pk a)) (a_pk a :: L) (d + 1)%Z m) as ((s & j') & ->).
    + cbn [anchored]. eapply anchored_row; eauto.
    + cbn [length]. lia.
    + eexists; reflexivity.
Qed.
End Stay.

(** ** Climbing *)
Section Climb.
Variables (o : ordering) (env : nat -> al_table) (F : nat -> forest node).
Hypothesis St : forall k, stores o (env k) (F k).
Hypothesis stay : forall j k i p q, parent_of i (F j) = Some p -> parent_of i (F k) = Some q -> p = q.

Lemma climb : forall fuel k r L, (exists j, In r (env j)) -> line F (a_pk r) (a_pk r :: L) -> length L < fuel ->
  (forall j q, k <= j -> j < k + length L -> In q L -> In q (ids (F j))) ->
  exists A, chain_over env fuel k r = Ok (A, k + length L) /\ map a_pk A = rev L /\
    (forall x, In x A -> exists j, k <= j /\ j < k + length L /\ In x (env j)).
Proof.
  induction fuel as [|fuel IH]; intros k r L (j0 & Hr) HL Hf Hp; [lia|]. cbn [chain_over].
  destruct (line_of_row o env F St j0 r Hr) as (L' & H1 & H2).
  assert (X := line_det F stay _ _ HL _ H1). injection X as <-. destruct (a_parent r) as [p|].
  - inversion H2 as [i j P|i j q M P HM]; subst.
    + assert (Hk : In p (ids (F k))) by (apply Hp; cbn; auto; lia).
      destruct (St k) as (W & _ & so & Fit & _). destruct (fits_ex so _ _ W Fit p Hk) as (x & Hx & <-).
      rewrite (get_in so _ _ W Fit x Hx). cbn [bind].
      destruct (IH (S k) x []) as (A & E & EA & HA); eauto; [cbn in *; lia|cbn; intros; lia|]. rewrite E. cbn [bind].
      exists (A ++ [x]). split; [do 2 f_equal; cbn; lia|]. split; [rewrite map_app, EA; auto|].
      intros y Hy. apply in_app_iff in Hy. destruct Hy as [Hy|[<-|[]]].
      * destruct (HA y Hy) as (j1 & ? & ? & ?). cbn in *. lia.
      * exists k. cbn. repeat split; auto; lia.
    + assert (Hk : In p (ids (F k))) by (apply Hp; cbn; auto; lia).
      destruct (St k) as (W & _ & so & Fit & _). destruct (fits_ex so _ _ W Fit p Hk) as (x & Hx & <-).
      rewrite (get_in so _ _ W Fit x Hx). cbn [bind].
      destruct (IH (S k) x M) as (A & E & EA & HA); eauto; [cbn in *; lia|intros j1 y Hj1 Hj2 Hy; apply Hp; cbn; auto; lia|].
      rewrite E. cbn [bind]. exists (A ++ [x]). split; [do 2 f_equal; cbn; lia|]. split; [rewrite map_app, EA; auto|].
      intros y Hy. apply in_app_iff in Hy. destruct Hy as [Hy|[<-|[]]].
      * destruct (HA y Hy) as (j1 & ? & ? & ?). exists j1. cbn. repeat split; auto; lia.
      * exists k. cbn. repeat split; auto; lia.
  - subst. exists []. cbn. rewrite Nat.add_0_r. split; auto. split; auto. intros x [].
Qed.
End Climb.

(** ** Others only add nodes *)
Section Grow.
Variables (o : ordering) (env : nat -> al_table) (F : nat -> forest node).
Hypothesis St : forall k, stores o (env k) (F k).
Hypothesis So : forall k, o = [] \/ strict o (F k).
Hypothesis Gr : forall k, grows (F k) (F (S k)).

Lemma gr_le j k : j <= k -> grows (F j) (F k).
Proof. induction 1; [apply grows_refl|]. eapply grows_trans; eauto. Qed.

Lemma gr_wf k : wf_ids (F k).
Proof. destruct (St k); auto. Qed.

Lemma gr_stay j k i p q : parent_of i (F j) = Some p -> parent_of i (F k) = Some q -> p = q.
Proof.
  intros Ep Eq. destruct (Nat.le_ge_cases j k) as [H|H].
  - apply (grows_parent (F j) (F k) i); auto using gr_le, gr_wf.
  - symmetry. apply (grows_parent (F k) (F j) i); auto using gr_le, gr_wf.
Qed.

Lemma gr_lists k : exists so, fits so (env k) (F k) /\ lists o so (env k) (F k).
Proof.
  destruct (St k) as (W & O & so & Fit & I). exists so. split; auto. destruct o as [|c o'] eqn:Eo.
  - apply unsorted_lists; auto.
  - destruct (So k) as [H|H]; [discriminate|]. destruct (O ltac:(discriminate)) as (_ & V). apply sorted_lists; auto. discriminate.
Qed.

(** [H] are the trees of [L], with the children of every root between those in [L] and those in [G]. *)
Inductive fill (G : forest node) : forest node -> forest node -> Prop :=
| fill_nil : fill G Nil Nil
| fill_cons a k h r r' c : grows k h -> children_of (nid a) G = Some c -> grows h c -> fill G r r' -> fill G (Cons a k r) (Cons a h r').

Lemma fill_lower G L H : fill G L H -> grows L H.
Proof. induction 1; constructor; auto. Qed.

Lemma fill_later G G' L H : grows G G' -> wf_ids G' -> fill G L H -> fill G' L H.
Proof.
  intros Hg W. induction 1 as [|a k h r r' c H1 H2 H3 H4 IH]; [constructor|].
  destruct (grows_kids _ _ _ _ Hg W H2) as (c' & E & Hc). apply (fill_cons _ a k h r r' c'); auto. eapply grows_trans; eauto.
Qed.

Lemma fill_upper G L H M : fill G L H -> grows L M -> wf_ids M -> (forall q, In q (ids M) -> children_of q G = children_of q M) -> grows H M.
Proof.
  intros Hf Hg. revert H Hf. induction Hg as [M|a k k' r r' Hk _ Hr IH|L b kb r Hr IH]; intros H Hf W Hc.
  - inversion Hf. constructor.
  - inversion Hf as [|? ? h ? s c X1 X2 X3 X4]; subst. rewrite Hc in X2 by (rewrite ids_cons; left; auto). cbn [children_of] in X2.
    rewrite Nat.eqb_refl in X2. injection X2 as <-. constructor; auto.
    assert (W' := wf_cons_inv W). destruct W' as (N1 & N2 & Wk & Wr & D). apply IH; auto. intros q Hq. rewrite Hc by (rewrite ids_cons; right; apply in_app_iff; auto).
    cbn [children_of]. destruct (Nat.eqb_spec (nid a) q) as [E|_]; [subst q; tauto|]. rewrite (children_of_notin q k'); auto. intros X. apply (D q X Hq).
  - assert (W' := wf_cons_inv W). destruct W' as (N1 & N2 & Wk & Wr & D). apply grows_skip. apply IH; auto. intros q Hq. rewrite Hc by (rewrite ids_cons; right; apply in_app_iff; auto).
    cbn [children_of]. destruct (Nat.eqb_spec (nid b) q) as [E|_]; [subst q; tauto|]. rewrite (children_of_notin q kb); auto. intros X. apply (D q X Hq).
Qed.

Lemma wl_cons a d l : map with_level (mkAObj a (Some (Z.of_nat d)) :: l) = at_level (d, row_node a) :: map with_level l.
Proof. reflexivity. Qed.

Lemma deep_maxd lv d : lv <> Some 0 -> too_deep (maxd lv (Z.of_nat d)) (Z.of_nat d + 1) = match lv with Some 1 => Nat.ltb 0 d | _ => false end.
Proof.
  intros Hl. destruct lv as [[|[|n]]|]; [congruence| | |reflexivity]; cbn [maxd too_deep].
  - destruct d; [reflexivity|]. cbn [Nat.ltb Nat.leb].
    replace (Z.of_nat (S d) - 1 + Z.of_nat 1 =? 0)%Z with false by (symmetry; apply Z.eqb_neq; lia).
    replace (Z.of_nat (S d) - 1 + Z.of_nat 1 <? Z.of_nat (S d) + 1)%Z with true by (symmetry; apply Z.ltb_lt; lia). auto.
  - apply andb_false_iff. right. apply Z.ltb_ge. lia.
Qed.

(** The loop over the rows of the roots of [L], seen by query [k0]. *)
Lemma grow_loop fuel k0 so d lv : d <> 0 -> lv <> Some 0 ->
  (forall k p c l k', k0 < k -> children_of p (F k0) = Some c ->
     tree_over o env fuel k (Some p) (has_children (env k0) p) (Z.of_nat d + 1) (maxd lv (Z.of_nat d)) = Ok (l, k') ->
     k <= k' /\ exists H c', grows c H /\ children_of p (F k') = Some c' /\ grows H c' /\
       map with_level l = map at_level (preorder_d (S d) (prune_opt (option_map pred lv) H))) ->
  forall L up, wf_ids L -> (forall q, In q (ids L) -> children_of q (F k0) = children_of q L) ->
  forall k l k', k0 < k ->
  collect_over (fun n j => do '(sub, j) <- tree_over o env fuel j (Some (a_pk n)) (has_children (env k0) (a_pk n)) (Z.of_nat d + 1) (maxd lv (Z.of_nat d));
                           Ok (mkAObj n (Some (Z.of_nat d)) :: sub, j)) (map (arow so up) (roots L)) k = Ok (l, k') ->
  k <= k' /\ exists H, fill (F k') L H /\ map with_level l = map at_level (preorder_d d (prune_opt lv H)).
Proof.
  intros Hd0 Hl IH. induction L as [|a kk _ r IHr]; intros up W Hc k l k' Hk E.
  - cbn in E. injection E as <- <-. split; auto. exists Nil. split; [constructor|]. destruct lv as [[|]|]; auto.
  - cbn [roots map collect_over] in E. cbn [a_pk arow] in E.
    destruct (tree_over _ _ _ _ _ _ _ _) as [[s k1]|] eqn:Es; [|discriminate]. cbn [bind] in E.
    destruct (collect_over _ _ k1) as [[rl k2]|] eqn:El; [|discriminate]. cbn [bind] in E. injection E as <- <-.
    assert (W' := wf_cons_inv W). destruct W' as (N1 & N2 & Wk & Wr & D).
    destruct (IH k (nid a) kk s k1 Hk) as (K1 & H & c' & G1 & G2 & G3 & G4); auto.
    { rewrite Hc by (rewrite ids_cons; left; auto). cbn [children_of]. rewrite Nat.eqb_refl. auto. }
    destruct (IHr up) with (k := k1) (l := rl) (k' := k2) as (K2 & R & F1 & F2); auto; [|lia|].
    { intros q Hq. rewrite Hc by (rewrite ids_cons; right; apply in_app_iff; auto). cbn [children_of].
      destruct (Nat.eqb_spec (nid a) q) as [X|_]; [subst q; tauto|]. rewrite (children_of_notin q kk); auto. intros X. apply (D q X Hq). }
    split; [lia|]. exists (Cons a H R). split.
    + destruct (grows_kids _ _ _ _ (gr_le k1 k2 K2) (gr_wf k2) G2) as (c2 & E2 & Gc). apply (fill_cons _ a kk H r R c2); auto. eapply grows_trans; eauto.
    + cbn [app]. rewrite wl_cons, map_app, row_node_arow, G4, F2.
      destruct lv as [[|n]|]; [congruence| |]; cbn [prune_opt option_map pred prune preorder_d map]; rewrite map_app; auto.
Qed.

Lemma grow_rec : forall fuel k0 k p c d lv l k', d <> 0 -> lv <> Some 0 -> k0 < k -> children_of p (F k0) = Some c ->
  tree_over o env fuel k (Some p) (has_children (env k0) p) (Z.of_nat d + 1) (maxd lv (Z.of_nat d)) = Ok (l, k') ->
  k <= k' /\ exists H c', grows c H /\ children_of p (F k') = Some c' /\ grows H c' /\
    map with_level l = map at_level (preorder_d (S d) (prune_opt (option_map pred lv) H)).
Proof.
  induction fuel as [|fuel IH]; intros k0 k p c d lv l k' Hd Hl Hk Hc E; [discriminate|].
  assert (Empty : forall H : forest node, (H = Nil \/ lv = Some 1) -> preorder_d (S d) (prune_opt (option_map pred lv) H) = []).
  { intros H [->| ->]; [destruct lv as [[|[|]]|]; reflexivity|destruct H; reflexivity]. }
  rewrite tree_over_S in E. rewrite deep_maxd in E by auto.
  assert (T : match lv with Some 1 => Nat.ltb 0 d | _ => false end = match lv with Some 1 => true | _ => false end).
  { destruct lv as [[|[|]]|]; auto. apply Nat.ltb_lt. lia. }
  rewrite T in E. destruct (match lv with Some 1 => true | _ => false end) eqn:Elv.
  - injection E as <- <-. split; auto. destruct (grows_kids _ _ _ _ (gr_le k0 k ltac:(lia)) (gr_wf k) Hc) as (c' & Ec & Gc).
    exists c, c'. split; [apply grows_refl|]. split; auto. split; auto. rewrite Empty; auto. right. destruct lv as [[|[|]]|]; auto; discriminate.
  - cbn [asks] in E. destruct (has_children (env k0) p) eqn:Eh.
    + destruct (gr_lists k) as (so & Fit & Ls). rewrite (Ls (Some p)) in E.
      destruct (grows_kids _ _ _ _ (gr_le k0 k ltac:(lia)) (gr_wf k) Hc) as (c1 & Ec & Gc).
      rewrite (kl_some _ _ c1) in E by auto.
      assert (Em : maxd lv (Z.of_nat d) = maxd (option_map pred lv) (Z.of_nat (S d))).
      { destruct lv as [[|n]|]; [congruence| |reflexivity]. cbn [maxd option_map pred]. f_equal. lia. }
      assert (Hl' : option_map pred lv <> Some 0) by (destruct lv as [[|[|]]|]; cbn; congruence).
      rewrite Em in E. replace (Z.of_nat d + 1)%Z with (Z.of_nat (S d)) in E by lia.
      destruct (grow_loop fuel k so (S d) (option_map pred lv)) with (L := c1) (up := Some p) (k := S k) (l := l) (k' := k') as (K & H & F1 & F2); auto.
      * intros k3 p3 c3 l3 k3' H1 H2 H3. apply (IH k k3 p3 c3 (S d) (option_map pred lv) l3 k3'); auto.
      * apply (wf_kids (Some p) (F k)); auto. apply gr_wf.
      * intros q Hq. apply (children_sub p); auto. apply gr_wf.
      * split; [lia|]. destruct (grows_kids _ _ _ _ (gr_le k k' ltac:(lia)) (gr_wf k') Ec) as (c' & Ec' & Gc'). exists H, c'.
        split; [eapply grows_trans; [exact Gc|]; eapply fill_lower; eauto|]. split; auto. split; auto.
        apply (fill_upper (F k') c1); auto.
        -- apply (wf_kids (Some p) (F k')); auto. apply gr_wf.
        -- intros q Hq. apply (children_sub p); auto. apply gr_wf.
    + injection E as <- <-. split; auto. destruct (grows_kids _ _ _ _ (gr_le k0 k ltac:(lia)) (gr_wf k) Hc) as (c' & Ec & Gc).
      assert (c = Nil).
      { destruct (gr_lists k0) as (so & Fit & Ls). assert (X := nhc_kids o (env k0) p). rewrite Eh in X. rewrite (Ls (Some p)), (kl_some _ _ c) in X by auto.
        destruct c; auto. discriminate. }
      subst c. exists Nil, c'. split; [constructor|]. split; auto. split; [constructor|]. rewrite Empty; auto.
Qed.
End Grow.

(** max_depth = 0 is no limit *)
Lemma loop_ext {A B} (f g : A -> nat -> res (list B * nat)) l : (forall x k, f x k = g x k) -> forall k, collect_over f l k = collect_over g l k.
Proof.
  intros H. induction l as [|a l IH]; intros k; auto. cbn [collect_over]. rewrite H. destruct (g a k) as [[r j]|]; auto. cbn [bind]. rewrite IH. auto.
Qed.

Lemma zero_over o env fuel : forall k p nhc d, tree_over o env fuel k p nhc d (Some 0%Z) = tree_over o env fuel k p nhc d None.
Proof.
  induction fuel as [|fuel IH]; intros k p nhc d; auto. rewrite !tree_over_S. cbn [too_deep Z.eqb negb andb].
  destruct (asks p nhc); auto. apply loop_ext. intros x j. rewrite IH. auto.
Qed.
