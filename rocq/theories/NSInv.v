(** Nested set layouts of forests.

    [stores t F]: the table [t] holds the forest [F] with gapless lft/rgt numbers in
    each tree and strictly increasing tree ids.  The proofs look at each tree as its
    list of opening and closing brackets: lft and rgt are positions in that list, and
    the updates of ns_tree.py insert, cut and paste pieces of it. *)
From Coq Require Import List Arith ZArith Lia Bool Permutation Sorted.
From Verif Require Import Prelude Forest SpecFacts CommonModel NSModel.
Import ListNotations.
Local Open Scope Z_scope.

(** The rows of a sibling list of tree [T] at depth [d] whose first lft is [l]. *)
Fixpoint number (T d l : Z) (f : forest node) : ns_table :=
  match f with
  | Nil => []
  | Cons a k r =>
      let s := Z.of_nat (size k) in
      mkNS (nid a) T l (l + 2 * s + 1) d (ndata a)
        :: number T (d + 1) (l + 1) k ++ number T d (l + 2 * s + 2) r
  end.

(** Every root starts its own tree; [ts] are the tree ids. *)
Fixpoint layout (ts : list Z) (F : forest node) : ns_table :=
  match F, ts with
  | Cons a k r, T :: ts => number T 1 1 (Cons a k Nil) ++ layout ts r
  | _, _ => []
  end.

Definition ids_ok (ts : list Z) (F : forest node) : Prop :=
  length ts = length (roots F) /\ StronglySorted Z.lt ts /\ Forall (Z.le 1) ts.

Definition stores (t : ns_table) (F : forest node) : Prop :=
  wf_ids F /\ exists ts, ids_ok ts F /\ Permutation t (layout ts F).

(** ** Brackets *)
Inductive tok := TO (a : node) | TC (i : nat).
Notation cell := (option tok).

Fixpoint toks (f : forest node) : list tok :=
  match f with Nil => [] | Cons a k r => TO a :: toks k ++ TC (nid a) :: toks r end.
Notation cells f := (map Some (toks f)).

Fixpoint bal (X : list cell) : Z :=
  match X with
  | [] => 0
  | Some (TO _) :: X => 1 + bal X
  | Some (TC _) :: X => bal X - 1
  | None :: X => bal X
  end.

(** The row [r] is where its brackets are in [X]. *)
Definition ok_row (X : list cell) (r : nsrow) : Prop :=
  exists i j : nat, n_lft r = Z.of_nat i + 1 /\ n_rgt r = Z.of_nat j + 1 /\ (i < j)%nat /\
    nth_error X i = Some (Some (TO (mkNode (n_pk r) (n_data r)))) /\
    nth_error X j = Some (Some (TC (n_pk r))) /\ n_depth r = 1 + bal (firstn i X).

Definition laid (t : ns_table) (Xs : Z -> list cell) : Prop :=
  forall r, In r t -> ok_row (Xs (n_tree r)) r.

(** The brackets of each tree. *)
Fixpoint spread (ts : list Z) (F : forest node) (T : Z) : list cell :=
  match F, ts with
  | Cons a k r, T0 :: ts => if T =? T0 then cells (Cons a k Nil) else spread ts r T
  | _, _ => []
  end.

Lemma node_eta a : mkNode (nid a) (ndata a) = a.
Proof. destruct a; auto. Qed.

Lemma toks_len f : length (toks f) = (2 * size f)%nat.
Proof.
  induction f as [|a k IHk r IHr]; cbn [toks size length]; auto.
  rewrite app_length. cbn [length]. lia.
Qed.

Lemma toks_fapp f g : toks (fapp f g) = toks f ++ toks g.
Proof.
  induction f as [|a k IHk r IHr]; cbn [toks fapp]; auto. rewrite IHr, <- app_comm_cons, <- app_assoc. auto.
Qed.

Lemma bal_app X Y : bal (X ++ Y) = bal X + bal Y.
Proof. induction X as [|[[a|i]|] X IH]; cbn [app bal]; lia. Qed.

Lemma bal_toks f : bal (cells f) = 0.
Proof.
  induction f as [|a k IHk r IHr]; cbn [toks map bal]; auto.
  rewrite map_app, bal_app. cbn [map bal]. lia.
Qed.

Lemma bal_holes g : bal (repeat None g) = 0.
Proof. induction g; auto. Qed.

Lemma toks_open f a : In (TO a) (toks f) <-> In a (preorder f).
Proof.
  induction f as [|b k IHk r IHr]; cbn [toks preorder]; [simpl; tauto|].
  cbn [In]. rewrite !in_app_iff. cbn [In]. rewrite IHk, IHr.
  split; [intros [E|[E|[E|E]]]|intros [E|[E|E]]]; auto; try discriminate.
  - left. congruence.
  - left. congruence.
Qed.

Lemma toks_close f i : In (TC i) (toks f) <-> In i (ids f).
Proof.
  induction f as [|b k IHk r IHr]; cbn [toks]; [simpl; tauto|]. rewrite ids_cons.
  cbn [In]. rewrite !in_app_iff. cbn [In]. rewrite IHk, IHr.
  split; [intros [E|[E|[E|E]]]|intros [E|[E|E]]]; subst; auto; try discriminate; try (injection E as ->; auto).
Qed.

Lemma in_ids f a : In a (preorder f) -> In (nid a) (ids f).
Proof. intros H. unfold ids. apply in_map. auto. Qed.

Lemma toks_NoDup f : wf_ids f -> NoDup (toks f).
Proof.
  induction f as [|a k IHk r IHr]; cbn [toks]; intros W; [constructor|].
  apply wf_cons_inv in W. destruct W as (W1 & W2 & W3 & W4 & W5). constructor.
  - rewrite in_app_iff. cbn [In]. rewrite !toks_open. intros [H|[H|H]]; [| discriminate|].
    + apply W1, in_ids; auto.
    + apply W2, in_ids; auto.
  - apply NoDup_app_iff. split; auto. split.
    + constructor; auto. rewrite toks_close. auto.
    + intros x H1 [<-|H2].
      * apply toks_close in H1. auto.
      * destruct x as [b|i].
        -- apply toks_open in H1, H2. apply (W5 (nid b)); apply in_ids; auto.
        -- apply toks_close in H1, H2. apply (W5 i); auto.
Qed.

Lemma number_ok f : forall A B T r,
  In r (number T (1 + bal A) (Z.of_nat (length A) + 1) f) ->
  ok_row (A ++ cells f ++ B) r /\ n_tree r = T.
Proof.
  induction f as [|a k IHk r0 IHr]; intros A B T r; cbn [number]; [intros []|].
  cbn [In]. rewrite in_app_iff. intros [E|[H|H]].
  - subst r. split; auto. cbn [n_tree].
    exists (length A), (length A + 1 + length (toks k))%nat.
    cbn [n_lft n_rgt n_pk n_data n_depth]. rewrite toks_len.
    split; [auto|]. split; [lia|]. split; [lia|]. rewrite node_eta. split.
    + rewrite nth_error_app2, Nat.sub_diag by lia. reflexivity.
    + split.
      * rewrite nth_error_app2 by lia.
        replace (length A + 1 + 2 * size k - length A)%nat with (S (length (cells k)))
          by (rewrite map_length, toks_len; lia).
        cbn [toks map app nth_error]. rewrite map_app, <- app_assoc, nth_error_app2, Nat.sub_diag by lia. auto.
      * rewrite firstn_app, Nat.sub_diag, firstn_all. simpl. rewrite app_nil_r. auto.
  - specialize (IHk (A ++ [Some (TO a)]) (Some (TC (nid a)) :: cells r0 ++ B) T r).
    rewrite bal_app, app_length in IHk. cbn [bal length] in IHk.
    replace (A ++ cells (Cons a k r0) ++ B) with ((A ++ [Some (TO a)]) ++ cells k ++ Some (TC (nid a)) :: cells r0 ++ B).
    + apply IHk. replace (1 + (bal A + (1 + 0))) with (1 + bal A + 1) by lia.
      replace (Z.of_nat (length A + 1) + 1) with (Z.of_nat (length A) + 1 + 1) by lia. auto.
    + cbn [toks map]. rewrite map_app. cbn [map]. rewrite <- !app_assoc. simpl. rewrite <- !app_assoc. auto.
  - specialize (IHr (A ++ Some (TO a) :: cells k ++ [Some (TC (nid a))]) B T r).
    rewrite bal_app, app_length in IHr. cbn [bal length] in IHr.
    rewrite bal_app, bal_toks, app_length, map_length, toks_len in IHr. cbn [bal length] in IHr.
    replace (A ++ cells (Cons a k r0) ++ B) with
      ((A ++ Some (TO a) :: cells k ++ [Some (TC (nid a))]) ++ cells r0 ++ B).
    + apply IHr. replace (1 + (bal A + (1 + (0 + (0 - 1))))) with (1 + bal A) by lia.
      replace (Z.of_nat (length A + S (2 * size k + 1)) + 1)
        with (Z.of_nat (length A) + 1 + 2 * Z.of_nat (size k) + 2) by lia. auto.
    + cbn [toks map]. rewrite map_app. cbn [map]. rewrite <- !app_assoc. simpl. rewrite <- !app_assoc. auto.
Qed.

Lemma number_pks T d l f : map n_pk (number T d l f) = ids f.
Proof.
  revert d l. induction f as [|a k IHk r IHr]; intros d l; cbn [number]; auto.
  rewrite ids_cons. cbn [map n_pk]. rewrite map_app, IHk, IHr. auto.
Qed.

Lemma number_tree T d l f r : In r (number T d l f) -> n_tree r = T.
Proof.
  revert d l. induction f as [|a k IHk s IHs]; intros d l; cbn [number]; [intros []|].
  cbn [In]. rewrite in_app_iff. intros [<-|[H|H]]; eauto.
Qed.

Lemma ids_one a k r : ids (Cons a k r) = ids (Cons a k Nil) ++ ids r.
Proof. rewrite !ids_cons. cbn [app]. change (ids Nil) with (@nil nat). rewrite app_nil_r. auto. Qed.

Lemma layout_pks ts F : length ts = length (roots F) -> map n_pk (layout ts F) = ids F.
Proof.
  revert ts. induction F as [|a k _ r IH]; intros [|T ts] E; try discriminate; auto.
  cbn [layout]. rewrite map_app, number_pks, IH, <- ids_one; auto.
Qed.

Lemma layout_tree ts F r : In r (layout ts F) -> In (n_tree r) ts.
Proof.
  revert ts. induction F as [|a k _ s IH]; intros [|T ts]; cbn [layout]; try (intros []; fail).
  rewrite in_app_iff. intros [H|H]; [left; symmetry; eapply number_tree; eauto|right; auto].
Qed.

Lemma layout_laid ts F : NoDup ts -> laid (layout ts F) (spread ts F).
Proof.
  revert ts. induction F as [|a k _ s IH]; intros [|T ts] ND r; cbn [layout]; try (intros []; fail).
  apply NoDup_cons_iff in ND. destruct ND as [N1 N2].
  rewrite in_app_iff. intros [H|H]; cbn [spread].
  - destruct (number_ok (Cons a k Nil) [] [] T r H) as [O E].
    rewrite E, Z.eqb_refl. rewrite app_nil_r in O. exact O.
  - assert (Ht := layout_tree _ _ _ H). destruct (Z.eqb_spec (n_tree r) T) as [E|_]; [rewrite E in Ht; tauto|].
    apply IH; auto.
Qed.

(** *** Each bracket occurs once *)
Lemma spread_in ts F T c : In c (spread ts F T) -> exists x, c = Some x /\ In x (toks F).
Proof.
  revert ts. induction F as [|a k _ r IH]; intros [|T0 ts]; cbn [spread]; try (intros []; fail).
  destruct (T =? T0).
  - intros H. apply in_map_iff in H. destruct H as (x & <- & H). exists x. split; auto.
    change (Cons a k r) with (fapp (Cons a k Nil) r). rewrite toks_fapp. apply in_app_iff. auto.
  - intros H. destruct (IH _ H) as (x & -> & Hx). exists x. split; auto.
    change (Cons a k r) with (fapp (Cons a k Nil) r). rewrite toks_fapp. apply in_app_iff. auto.
Qed.

Definition tok_id (x : tok) : nat := match x with TO a => nid a | TC i => i end.

Lemma toks_id f x : In x (toks f) -> In (tok_id x) (ids f).
Proof. destruct x; [rewrite toks_open; apply in_ids|rewrite toks_close; auto]. Qed.

Lemma spread_same_tree ts F T T' x y : wf_ids F ->
  In (Some x) (spread ts F T) -> In (Some y) (spread ts F T') -> tok_id x = tok_id y -> T = T'.
Proof.
  revert ts. induction F as [|a k _ r IH]; intros [|T0 ts]; cbn [spread]; try (intros ? []; fail).
  intros W. assert (W' := W). change (Cons a k r) with (fapp (Cons a k Nil) r) in W'.
  unfold wf_ids in W'. rewrite ids_fapp in W'. apply NoDup_app_iff in W'. destruct W' as (_ & Wr & Wd).
  destruct (Z.eqb_spec T T0) as [->|N1], (Z.eqb_spec T' T0) as [->|N2]; auto.
  - intros H1 H2 E. exfalso. apply in_map_iff in H1. destruct H1 as (z & Ez & H1). injection Ez as ->.
    apply spread_in in H2. destruct H2 as (z & Ez & H2). injection Ez as <-.
    apply (Wd (tok_id x)); [|rewrite E]; apply toks_id; auto.
  - intros H1 H2 E. exfalso. apply in_map_iff in H2. destruct H2 as (z & Ez & H2). injection Ez as ->.
    apply spread_in in H1. destruct H1 as (z & Ez & H1). injection Ez as <-.
    apply (Wd (tok_id x)); [rewrite E|]; apply toks_id; auto.
  - apply IH. auto.
Qed.

Lemma NoDup_Some {A} (l : list A) : NoDup l -> NoDup (map Some l).
Proof.
  induction 1; simpl; constructor; auto. rewrite in_map_iff. intros (y & E & Hy). congruence.
Qed.

Lemma spread_NoDup ts F T : wf_ids F -> NoDup (spread ts F T).
Proof.
  revert ts. induction F as [|a k _ r IH]; intros [|T0 ts] W; cbn [spread]; try constructor.
  change (Cons a k r) with (fapp (Cons a k Nil) r) in W.
  unfold wf_ids in W. rewrite ids_fapp in W. apply NoDup_app_iff in W. destruct W as (Wa & Wr & Wd).
  destruct (T =? T0); [apply NoDup_Some, toks_NoDup|apply IH]; auto.
Qed.

Lemma nth_inj {A} (X : list A) i j x : NoDup X -> nth_error X i = Some x -> nth_error X j = Some x -> i = j.
Proof.
  intros ND H1 H2. rewrite NoDup_nth_error in ND. apply ND; [|congruence].
  apply nth_error_Some. congruence.
Qed.

Lemma open_unique ts F T a b : wf_ids F -> In (Some (TO a)) (spread ts F T) -> In (Some (TO b)) (spread ts F T) ->
  nid a = nid b -> a = b.
Proof.
  intros W H1 H2 E. apply spread_in in H1, H2. destruct H1 as (x & E1 & H1), H2 as (y & E2 & H2).
  injection E1 as <-. injection E2 as <-. rewrite toks_open in H1, H2.
  apply (NoDup_map_inj nid (preorder F)); auto.
Qed.

(** A row is determined by its primary key. *)
Lemma row_unique ts F r r' : wf_ids F -> ok_row (spread ts F (n_tree r)) r ->
  ok_row (spread ts F (n_tree r')) r' -> n_pk r = n_pk r' -> r = r'.
Proof.
  intros W (i & j & L1 & R1 & _ & O1 & C1 & D1) (i' & j' & L2 & R2 & _ & O2 & C2 & D2) E.
  assert (ET : n_tree r = n_tree r').
  { eapply spread_same_tree; [exact W|eapply nth_error_In; exact O1|eapply nth_error_In; exact O2|exact E]. }
  rewrite <- ET in *. assert (ND := spread_NoDup ts F (n_tree r) W).
  assert (Ea := open_unique _ _ _ _ _ W (nth_error_In _ _ O1) (nth_error_In _ _ O2) E).
  injection Ea as Ep Ed. rewrite <- Ep in *. rewrite <- Ed in *.
  assert (i = i') by (eapply nth_inj; eauto). assert (j = j') by (eapply nth_inj; eauto). subst i' j'.
  destruct r, r'; simpl in *; congruence.
Qed.

Lemma perm_of_keys {A K} (key : A -> K) (t L : list A) :
  NoDup (map key L) -> Permutation (map key t) (map key L) ->
  (forall r r', In r t -> In r' L -> key r = key r' -> r = r') -> Permutation t L.
Proof.
  intros ND P H. apply NoDup_Permutation.
  - apply NoDup_map_inv with (f := key). rewrite P. auto.
  - apply NoDup_map_inv with (f := key). auto.
  - intros x. split; intros Hx.
    + assert (In (key x) (map key L)) by (apply (Permutation_in _ P), in_map; auto).
      apply in_map_iff in H0. destruct H0 as (y & E & Hy). rewrite (H x y); auto.
    + assert (In (key x) (map key t)) by (apply (Permutation_in _ (Permutation_sym P)), in_map; auto).
      apply in_map_iff in H0. destruct H0 as (y & E & Hy). rewrite <- (H y x); auto.
Qed.

Lemma sorted_NoDup ts : StronglySorted Z.lt ts -> NoDup ts.
Proof.
  induction 1; constructor; auto. intros Hx. rewrite Forall_forall in H0. specialize (H0 _ Hx). lia.
Qed.

Lemma layout_iff t ts F : wf_ids F -> ids_ok ts F ->
  (Permutation t (layout ts F) <-> laid t (spread ts F) /\ Permutation (map n_pk t) (ids F)).
Proof.
  intros W (I1 & I2 & I3). assert (LL := layout_laid ts F (sorted_NoDup _ I2)).
  assert (LP := layout_pks ts F I1). split.
  - intros P. split.
    + intros r Hr. apply LL. apply (Permutation_in _ P); auto.
    + rewrite P, LP. auto.
  - intros [La P]. apply perm_of_keys with n_pk.
    + rewrite LP. auto.
    + rewrite LP. auto.
    + intros r r' Hr Hr' E. apply (row_unique ts F); auto.
Qed.

Lemma stores_iff t F : stores t F <->
  wf_ids F /\ exists ts, ids_ok ts F /\ laid t (spread ts F) /\ Permutation (map n_pk t) (ids F).
Proof.
  split; intros (W & ts & I & H); split; auto; exists ts; split; auto; apply layout_iff; auto.
Qed.
