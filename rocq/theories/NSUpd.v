(** The elementary updates of ns_tree.py on bracket lists: opening and closing gaps,
    moving a range, shifting tree ids, saving and deleting rows. *)
From Coq Require Import List Arith ZArith Lia Bool Permutation Sorted.
From Verif Require Import Prelude Forest SpecFacts CommonModel NSModel NSInv NSReads.
Import ListNotations.
Local Open Scope Z_scope.

Notation holes g := (repeat (@None tok) g).
Notation len X := (Z.of_nat (length X)).

(** ** Positions *)
Definition mv (g k i : nat) : nat := if (i <? k)%nat then i else (i + g)%nat.

Lemma nth_open (A B : list cell) g i : nth_error (A ++ holes g ++ B) (mv g (length A) i) = nth_error (A ++ B) i.
Proof.
  unfold mv. destruct (Nat.ltb_spec i (length A)).
  - rewrite !nth_error_app1; auto.
  - rewrite nth_error_app2 by lia. rewrite nth_error_app2 by (rewrite repeat_length; lia).
    rewrite nth_error_app2 by lia. rewrite repeat_length. f_equal. lia.
Qed.

Lemma firstn_app_le {X} (A B : list X) i : (i <= length A)%nat -> firstn i (A ++ B) = firstn i A.
Proof.
  intros H. rewrite firstn_app. replace (i - length A)%nat with 0%nat by lia. simpl. apply app_nil_r.
Qed.

Lemma firstn_app_ge {X} (A B : list X) i : (length A <= i)%nat -> firstn i (A ++ B) = A ++ firstn (i - length A) B.
Proof. intros H. rewrite firstn_app. rewrite firstn_all2 by lia. auto. Qed.

Lemma bal_open (A B : list cell) g i :
  bal (firstn (mv g (length A) i) (A ++ holes g ++ B)) = bal (firstn i (A ++ B)).
Proof.
  unfold mv. destruct (Nat.ltb_spec i (length A)).
  - rewrite !firstn_app_le by lia. auto.
  - rewrite !firstn_app_ge by (rewrite ?repeat_length; lia). rewrite !bal_app, bal_holes, repeat_length.
    replace (i + g - length A - g)%nat with (i - length A)%nat by lia. lia.
Qed.

Lemma nth_close (A B : list cell) g i x : nth_error (A ++ holes g ++ B) i = Some (Some x) ->
  exists i0, i = mv g (length A) i0.
Proof.
  intros H. unfold mv. destruct (Nat.ltb_spec i (length A)).
  - exists i. destruct (Nat.ltb_spec i (length A)); [auto|lia].
  - rewrite nth_error_app2 in H by lia. destruct (Nat.ltb_spec (i - length A) g).
    + rewrite nth_error_app1 in H by (rewrite repeat_length; lia). apply nth_error_In, repeat_spec in H. discriminate.
    + exists (i - g)%nat. destruct (Nat.ltb_spec (i - g) (length A)); lia.
Qed.

Lemma mv_lt g k i j : (i < j -> mv g k i < mv g k j)%nat.
Proof. unfold mv. destruct (Nat.ltb_spec i k), (Nat.ltb_spec j k); lia. Qed.

Lemma mv_lt_inv g k i j : (mv g k i < mv g k j -> i < j)%nat.
Proof. unfold mv. destruct (Nat.ltb_spec i k), (Nat.ltb_spec j k); lia. Qed.

(** The update of one row by _alter_gap. *)
Definition gap_row (start offset : Z) (r : nsrow) : nsrow :=
  if start <=? n_rgt r then alter_row start offset r else r.

Lemma open_row A B g r : ok_row (A ++ B) r -> ok_row (A ++ holes g ++ B) (gap_row (len A + 1) (Z.of_nat g) r).
Proof.
  intros (i & j & L & R & Lt & O & C & D).
  exists (mv g (length A) i), (mv g (length A) j).
  rewrite !nth_open, bal_open. unfold gap_row, alter_row.
  assert (E : (mv g (length A) i < mv g (length A) j)%nat) by (apply mv_lt; auto).
  split; [|split; [|split; [exact E|]]].
  - unfold mv. destruct (Nat.ltb_spec i (length A)), (Z.leb_spec (len A + 1) (n_rgt r)); cbn [n_lft]; try lia;
      destruct (Z.leb_spec (len A + 1) (n_lft r)); lia.
  - unfold mv. destruct (Nat.ltb_spec j (length A)), (Z.leb_spec (len A + 1) (n_rgt r)); cbn [n_rgt]; lia.
  - destruct (len A + 1 <=? n_rgt r); cbn [n_pk n_data n_depth]; auto.
Qed.

Lemma close_row A B g r : ok_row (A ++ holes g ++ B) r -> ok_row (A ++ B) (gap_row (len A + 1) (- Z.of_nat g) r).
Proof.
  intros (i' & j' & L & R & Lt & O & C & D).
  destruct (nth_close _ _ _ _ _ O) as [i ->]. destruct (nth_close _ _ _ _ _ C) as [j ->].
  rewrite nth_open in O, C. rewrite bal_open in D. apply mv_lt_inv in Lt.
  exists i, j. unfold gap_row, alter_row. unfold mv in *.
  split; [|split; [|split; [exact Lt|]]].
  - destruct (Nat.ltb_spec i (length A)), (Nat.ltb_spec j (length A)), (Z.leb_spec (len A + 1) (n_rgt r)); cbn [n_lft]; try lia;
      destruct (Z.leb_spec (len A + 1) (n_lft r)); lia.
  - destruct (Nat.ltb_spec j (length A)), (Z.leb_spec (len A + 1) (n_rgt r)); cbn [n_rgt]; lia.
  - destruct (len A + 1 <=? n_rgt r); cbn [n_pk n_data n_depth]; auto.
Qed.

(** Both brackets of [r] are outside of / within positions [k .. k+m-1]. *)
Definition outside (k m : nat) (r : nsrow) : Prop :=
  (n_lft r <= Z.of_nat k \/ Z.of_nat (k + m) < n_lft r) /\ (n_rgt r <= Z.of_nat k \/ Z.of_nat (k + m) < n_rgt r).
Definition within (k m : nat) (r : nsrow) : Prop :=
  Z.of_nat k < n_lft r /\ n_rgt r <= Z.of_nat (k + m).

Lemma nth_swap {X} (A S S' B : list X) i : length S = length S' -> (i < length A \/ length A + length S <= i)%nat ->
  nth_error (A ++ S' ++ B) i = nth_error (A ++ S ++ B) i.
Proof.
  intros E [H|H].
  - rewrite !nth_error_app1 by lia. auto.
  - rewrite !(nth_error_app2 A) by lia. rewrite !nth_error_app2 by lia. f_equal. lia.
Qed.

Lemma bal_swap (A S S' B : list cell) i : length S = length S' -> bal S = bal S' ->
  (i < length A \/ length A + length S <= i)%nat ->
  bal (firstn i (A ++ S' ++ B)) = bal (firstn i (A ++ S ++ B)).
Proof.
  intros E Eb [H|H].
  - rewrite !firstn_app_le by lia. auto.
  - rewrite !firstn_app_ge by lia. rewrite !bal_app, Eb. do 3 f_equal. rewrite E. auto.
Qed.

Lemma swap_row A S S' B r : length S = length S' -> bal S = bal S' -> outside (length A) (length S) r ->
  ok_row (A ++ S ++ B) r -> ok_row (A ++ S' ++ B) r.
Proof.
  intros E Eb [O1 O2] (i & j & L & R & Lt & O & C & D). exists i, j.
  rewrite (nth_swap A S S'), (nth_swap A S S'), (bal_swap A S S') by (auto; lia). tauto.
Qed.

Lemma shift_row A S B A' B' T d r : within (length A) (length S) r -> ok_row (A ++ S ++ B) r ->
  d = bal A' - bal A -> ok_row (A' ++ S ++ B') (jump_row T (len A' - len A) d r).
Proof.
  intros [I1 I2] (i & j & L & R & Lt & O & C & D) ->.
  exists (i - length A + length A')%nat, (j - length A + length A')%nat.
  unfold jump_row. cbn [n_lft n_rgt n_pk n_data n_depth]. split; [lia|]. split; [lia|]. split; [lia|].
  rewrite !(nth_error_app2 A') by lia. rewrite (nth_error_app2 A) in O, C by lia.
  rewrite nth_error_app1 in O, C |- * by lia. rewrite nth_error_app1 by lia.
  rewrite !firstn_app_ge in * by lia. rewrite bal_app in *.
  replace (i - length A + length A' - length A')%nat with (i - length A)%nat by lia.
  replace (j - length A + length A' - length A')%nat with (j - length A)%nat by lia.
  rewrite firstn_app_le in * by lia. split; auto. split; auto. lia.
Qed.

(** ** Brackets occur once *)
Definition tkey (x : tok) : bool * nat := match x with TO a => (true, nid a) | TC i => (false, i) end.
Fixpoint solid (X : list cell) : list tok :=
  match X with [] => [] | Some x :: X => x :: solid X | None :: X => solid X end.
Definition proper (X : list cell) : Prop := NoDup (map tkey (solid X)).

Lemma solid_app X Y : solid (X ++ Y) = solid X ++ solid Y.
Proof. induction X as [|[x|] X IH]; simpl; congruence. Qed.
Lemma solid_some l : solid (map Some l) = l.
Proof. induction l; simpl; congruence. Qed.
Lemma solid_holes g : solid (holes g) = [].
Proof. induction g; auto. Qed.
Lemma solid_in X x : In x (solid X) <-> In (Some x) X.
Proof.
  induction X as [|[y|] X IH]; cbn [solid In]; [tauto| |]; rewrite IH.
  - split; intros [H|H]; auto; left; congruence.
  - split; [auto|intros [H|H]; [discriminate|auto]].
Qed.

Lemma NoDup_map_on {A B} (g : A -> B) l : (forall x y, In x l -> In y l -> g x = g y -> x = y) ->
  NoDup l -> NoDup (map g l).
Proof.
  induction l as [|x l IH]; intros H N; cbn [map]; constructor; inversion N; subst.
  - rewrite in_map_iff. intros (y & E & Hy). apply H in E; simpl; auto. subst y. auto.
  - apply IH; auto. intros; apply H; simpl; auto.
Qed.

Lemma proper_spread ts F T : wf_ids F -> proper (spread ts F T).
Proof.
  intros W. unfold proper. apply NoDup_map_on.
  - intros x y Hx Hy E. apply solid_in in Hx, Hy.
    destruct x as [a|i], y as [b|j]; try discriminate.
    + f_equal. eapply open_unique; eauto. injection E; auto.
    + injection E as ->. auto.
  - assert (N := spread_NoDup ts F T W). revert N. generalize (spread ts F T).
    induction l as [|[x|] l IH]; simpl; intros N; [constructor| |]; inversion N; subst; auto.
    constructor; auto. rewrite solid_in. auto.
Qed.

Lemma proper_nth X i j x y : proper X -> nth_error X i = Some (Some x) -> nth_error X j = Some (Some y) ->
  tkey x = tkey y -> i = j.
Proof.
  unfold proper. revert i j. induction X as [|[z|] X IH]; intros i j N Hi Hj E.
  - destruct i; discriminate.
  - cbn [solid map] in N. inversion N as [|? ? N1 N2]; subst.
    destruct i, j; try reflexivity; cbn [nth_error] in *.
    + injection Hi as ->. exfalso. apply N1. rewrite E. apply in_map, solid_in. eapply nth_error_In; eauto.
    + injection Hj as ->. exfalso. apply N1. rewrite <- E. apply in_map, solid_in. eapply nth_error_In; eauto.
    + f_equal. eauto.
  - destruct i, j; try reflexivity; cbn [nth_error solid] in *; try discriminate. f_equal; eauto.
Qed.

Lemma in_nth {X} (l : list X) x : In x l -> exists i, nth_error l i = Some x /\ (i < length l)%nat.
Proof.
  intros H. apply In_nth_error in H. destruct H as [i H]. exists i. split; auto.
  apply nth_error_Some. congruence.
Qed.

(** Rows are nested: a row with one bracket in the brackets of a subtree has both. *)
Lemma nested A f B r : proper (A ++ cells f ++ B) -> ok_row (A ++ cells f ++ B) r ->
  within (length A) (length (toks f)) r /\ In (n_pk r) (ids f) \/
  outside (length A) (length (toks f)) r /\ ~ In (n_pk r) (ids f).
Proof.
  intros Pr (i & j & L & R & Lt & O & C & D).
  assert (Q : forall x, In x (toks f) -> exists k, nth_error (A ++ cells f ++ B) k = Some (Some x) /\
              (length A <= k < length A + length (toks f))%nat).
  { intros x Hx. destruct (in_nth (cells f) (Some x)) as (k & Hk & Hlt); [apply in_map; auto|].
    rewrite map_length in Hlt. exists (length A + k)%nat. split; [|lia].
    rewrite nth_error_app2 by lia. rewrite nth_error_app1 by (rewrite map_length; lia).
    rewrite <- Hk. f_equal. lia. }
  destruct (in_dec Nat.eq_dec (n_pk r) (ids f)) as [H|H].
  - left. assert (H' := H). split; auto. apply toks_close in H'. destruct (Q _ H') as (k & Hk & Bk).
    assert (k = j) by (eapply proper_nth; eauto). subst k.
    unfold ids in H. apply in_map_iff in H. destruct H as (a & Ea & Ha). apply toks_open in Ha.
    destruct (Q _ Ha) as (k & Hk' & Bk'). assert (k = i) by (eapply proper_nth; eauto; simpl; congruence). subst k.
    unfold within. lia.
  - right. split; auto. unfold outside.
    assert (G : forall k x, nth_error (A ++ cells f ++ B) k = Some (Some x) -> tok_id x = n_pk r ->
                (k < length A \/ length A + length (toks f) <= k)%nat).
    { intros k x Hk Ex. destruct (Nat.lt_ge_cases k (length A)); auto.
      destruct (Nat.lt_ge_cases k (length A + length (toks f))); auto. exfalso. apply H. rewrite <- Ex.
      apply toks_id. rewrite nth_error_app2 in Hk by lia.
      rewrite nth_error_app1 in Hk by (rewrite map_length; lia). apply nth_error_In in Hk.
      apply in_map_iff in Hk. destruct Hk as (z & Ez & Hz). injection Ez as ->. auto. }
    assert (Gi := G _ _ O eq_refl). assert (Gj := G _ _ C eq_refl). lia.
Qed.

(** The row of the node whose brackets enclose [k]. *)
Lemma row_at A a k r0 B r : proper (A ++ cells (Cons a k r0) ++ B) -> ok_row (A ++ cells (Cons a k r0) ++ B) r ->
  n_pk r = nid a ->
  n_lft r = len A + 1 /\ n_rgt r = len A + 2 * Z.of_nat (size k) + 2 /\ n_depth r = 1 + bal A /\ n_data r = ndata a.
Proof.
  intros Pr (i & j & L & R & Lt & O & C & D) E.
  assert (Hi : nth_error (A ++ cells (Cons a k r0) ++ B) (length A) = Some (Some (TO a))).
  { rewrite nth_error_app2, Nat.sub_diag by lia. reflexivity. }
  assert (i = length A) by (eapply proper_nth; eauto; simpl; congruence). subst i.
  assert (Hj : nth_error (A ++ cells (Cons a k r0) ++ B) (length A + 1 + length (toks k)) = Some (Some (TC (nid a)))).
  { rewrite nth_error_app2 by lia.
    replace (length A + 1 + length (toks k) - length A)%nat with (S (length (cells k))) by (rewrite map_length; lia).
    cbn [toks map app nth_error]. rewrite map_app, <- app_assoc, nth_error_app2, Nat.sub_diag by lia. auto. }
  assert (j = (length A + 1 + length (toks k))%nat) by (eapply proper_nth; eauto; simpl; congruence). subst j.
  rewrite toks_len in R. rewrite O in Hi. injection Hi as Ea.
  rewrite firstn_app_le, firstn_all in D by lia. split; [lia|]. split; [lia|]. split; [auto|].
  apply (f_equal ndata) in Ea. auto.
Qed.

(** ** The state *)
Definition upd (Xs : Z -> list cell) (T : Z) (X : list cell) : Z -> list cell :=
  fun U => if U =? T then X else Xs U.

Lemma upd_same Xs T X : upd Xs T X T = X.
Proof. unfold upd. rewrite Z.eqb_refl. auto. Qed.
Lemma upd_other Xs T X U : U <> T -> upd Xs T X U = Xs U.
Proof. unfold upd. intros H. destruct (Z.eqb_spec U T); tauto. Qed.

Lemma laid_ext t Xs Ys : (forall U, Xs U = Ys U) -> laid t Xs -> laid t Ys.
Proof. intros E H r Hr. rewrite <- E. auto. Qed.

Lemma gap_tree s g r : n_tree (gap_row s g r) = n_tree r.
Proof. unfold gap_row. destruct (s <=? n_rgt r); auto. Qed.
Lemma gap_pk s g r : n_pk (gap_row s g r) = n_pk r.
Proof. unfold gap_row. destruct (s <=? n_rgt r); auto. Qed.

Lemma alter_gap_rows db T s g : ns_rows (alter_gap db T s g) =
  map (fun r => if n_tree r =? T then gap_row s g r else r) (ns_rows db).
Proof.
  unfold alter_gap. cbn [ns_rows]. apply map_ext. intros r. unfold alter_sel, gap_row.
  destruct (s <=? n_rgt r), (n_tree r =? T); auto.
Qed.

Lemma map_pks (f : nsrow -> nsrow) t : (forall r, n_pk (f r) = n_pk r) -> map n_pk (map f t) = map n_pk t.
Proof. intros H. rewrite map_map. apply map_ext. auto. Qed.

Lemma alter_gap_pks db T s g : map n_pk (ns_rows (alter_gap db T s g)) = map n_pk (ns_rows db).
Proof. rewrite alter_gap_rows. apply map_pks. intros r. destruct (n_tree r =? T); auto. apply gap_pk. Qed.

Lemma open_laid db Xs T A B g : laid (ns_rows db) Xs -> Xs T = A ++ B ->
  laid (ns_rows (alter_gap db T (len A + 1) (Z.of_nat g))) (upd Xs T (A ++ holes g ++ B)).
Proof.
  intros La E r Hr. rewrite alter_gap_rows in Hr. apply in_map_iff in Hr. destruct Hr as (r0 & <- & Hr).
  apply La in Hr. unfold upd. destruct (Z.eqb_spec (n_tree r0) T) as [ET|N].
  - rewrite gap_tree, ET, Z.eqb_refl. rewrite ET, E in Hr. apply open_row. auto.
  - destruct (Z.eqb_spec (n_tree r0) T); [tauto|auto].
Qed.

Lemma close_laid db Xs T A B g : laid (ns_rows db) Xs -> Xs T = A ++ holes g ++ B ->
  laid (ns_rows (alter_gap db T (len A + 1) (- Z.of_nat g))) (upd Xs T (A ++ B)).
Proof.
  intros La E r Hr. rewrite alter_gap_rows in Hr. apply in_map_iff in Hr. destruct Hr as (r0 & <- & Hr).
  apply La in Hr. unfold upd. destruct (Z.eqb_spec (n_tree r0) T) as [ET|N].
  - rewrite gap_tree, ET, Z.eqb_refl. rewrite ET, E in Hr. apply close_row. auto.
  - destruct (Z.eqb_spec (n_tree r0) T); [tauto|auto].
Qed.

(** A new leaf in a hole. *)
Lemma fill_laid t Xs T A B x : laid t Xs -> Xs T = A ++ holes 2 ++ B ->
  laid (mkNS (nid x) T (len A + 1) (len A + 2) (1 + bal A) (ndata x) :: t)
       (upd Xs T (A ++ cells (leaf x) ++ B)).
Proof.
  intros La E r [<-|Hr].
  - cbn [n_tree]. rewrite upd_same.
    exists (length A), (S (length A)). cbn [n_lft n_rgt n_pk n_data n_depth]. rewrite node_eta.
    split; [auto|]. split; [lia|]. split; [lia|]. rewrite !(nth_error_app2 A) by lia.
    replace (S (length A) - length A)%nat with 1%nat by lia. rewrite Nat.sub_diag.
    split; [reflexivity|]. split; [reflexivity|]. rewrite firstn_app_le, firstn_all by lia. auto.
  - apply La in Hr. unfold upd. destruct (Z.eqb_spec (n_tree r) T) as [ET|N]; auto.
    rewrite ET, E in Hr. apply (swap_row A (holes 2)); auto.
    destruct Hr as (i & j & L & R & Lt & O & C & D).
    destruct (nth_close _ _ _ _ _ O) as [i0 ->]. destruct (nth_close _ _ _ _ _ C) as [j0 ->].
    unfold outside, mv in *. cbn [length repeat].
    destruct (Nat.ltb_spec i0 (length A)), (Nat.ltb_spec j0 (length A)); lia.
Qed.

(** Increasing tree ids. *)
Lemma shift_laid db Xs T : laid (ns_rows db) Xs ->
  laid (ns_rows (move_tree_right db T))
       (fun U => if U <? T then Xs U else if U =? T then [] else Xs (U - 1)).
Proof.
  intros La r Hr. unfold move_tree_right in Hr. cbn [ns_rows] in Hr. apply in_map_iff in Hr.
  destruct Hr as (r0 & <- & Hr). apply La in Hr. destruct (Z.leb_spec T (n_tree r0)) as [H|H].
  - unfold inc_tree. cbn [n_tree]. destruct (Z.ltb_spec (n_tree r0 + 1) T); [lia|].
    destruct (Z.eqb_spec (n_tree r0 + 1) T); [lia|]. replace (n_tree r0 + 1 - 1) with (n_tree r0) by lia.
    destruct Hr as (i & j & Hr). exists i, j. exact Hr.
  - destruct (Z.ltb_spec (n_tree r0) T); [auto|lia].
Qed.

Lemma shift_pks db T : map n_pk (ns_rows (move_tree_right db T)) = map n_pk (ns_rows db).
Proof. unfold move_tree_right. cbn [ns_rows]. apply map_pks. intros r. destruct (T <=? n_tree r); auto. Qed.

(** An unused tree may be taken to be any number of holes. *)
Lemma ok_row_nil r : ~ ok_row [] r.
Proof. intros (i & j & _ & _ & _ & H & _). destruct i; discriminate. Qed.

Lemma free_laid t Xs T X : laid t Xs -> Xs T = [] -> laid t (upd Xs T X).
Proof.
  intros La E r Hr. apply La in Hr. unfold upd. destruct (Z.eqb_spec (n_tree r) T) as [ET|N]; auto.
  rewrite ET, E in Hr. destruct (ok_row_nil _ Hr).
Qed.

(** ** Contexts *)
Lemma toks_ctx p l l' f f' : Ctx (Some p) l l' f f' -> exists A b B, nid b = p /\
  toks f = A ++ TO b :: toks l ++ TC p :: B /\ toks f' = A ++ TO b :: toks l' ++ TC p :: B.
Proof.
  intros C. remember (Some p) as up. revert Hequp. induction C; intros E; try discriminate.
  - injection E as <-. exists [], a, (toks r). auto.
  - destruct (IHC E) as (A & b & B & Eb & E1 & E2). exists (TO a :: A), b, (B ++ TC (nid a) :: toks r).
    cbn [toks app]. rewrite E1, E2, <- !app_assoc. cbn [app]. rewrite <- !app_assoc. auto.
  - destruct (IHC E) as (A & b & B & Eb & E1 & E2). exists (TO a :: toks k ++ TC (nid a) :: A), b, B.
    cbn [toks app]. rewrite E1, E2, <- !app_assoc. auto.
Qed.

Lemma Ctx_roots p l l' f f' : Ctx (Some p) l l' f f' -> roots f = roots f'.
Proof.
  intros C. remember (Some p) as up. revert Hequp. induction C; intros E; try discriminate; auto.
  cbn [roots]. rewrite (IHC E). auto.
Qed.

Lemma spread_notin ts F T : ~ In T ts -> spread ts F T = [].
Proof.
  revert ts. induction F as [|a k _ r IH]; intros [|T0 ts]; cbn [spread]; auto.
  intros H. destruct (Z.eqb_spec T T0) as [->|_]; [destruct H; simpl; auto|]. apply IH. intros Hi. apply H. simpl. auto.
Qed.

Lemma spread_ctx p l l' F F' : Ctx (Some p) l l' F F' -> forall ts, length ts = length (roots F) -> NoDup ts ->
  exists T A b B, In T ts /\ nid b = p /\
    spread ts F T = A ++ Some (TO b) :: cells l ++ Some (TC p) :: B /\
    spread ts F' T = A ++ Some (TO b) :: cells l' ++ Some (TC p) :: B /\
    (forall U, U <> T -> spread ts F' U = spread ts F U).
Proof.
  intros C. remember (Some p) as up. revert Hequp.
  induction C as [|a l l' r|q a k k' l l' r C _|q a k l l' r r' C IH]; intros E [|T ts] Lt ND; try discriminate.
  - injection E as <-. destruct (toks_ctx _ _ _ _ _ (Ctx_par a l l' Nil)) as (A & b & B & Eb & E1 & E2).
    exists T, (map Some A), b, (map Some B). split; [simpl; auto|]. split; auto. cbn [spread]. rewrite Z.eqb_refl.
    rewrite E1, E2, !map_app. cbn [map]. rewrite !map_app. split; auto. split; auto.
    intros U HU. destruct (Z.eqb_spec U T); tauto.
  - injection E as ->. destruct (toks_ctx _ _ _ _ _ (Ctx_down a Nil C)) as (A & b & B & Eb & E1 & E2).
    exists T, (map Some A), b, (map Some B). split; [simpl; auto|]. split; auto. cbn [spread]. rewrite Z.eqb_refl.
    rewrite E1, E2, !map_app. cbn [map]. rewrite !map_app. split; auto. split; auto.
    intros U HU. destruct (Z.eqb_spec U T); tauto.
  - cbn [roots length] in Lt. injection Lt as Lt. apply NoDup_cons_iff in ND. destruct ND as [N1 N2].
    destruct (IH E ts Lt N2) as (T1 & A & b & B & H1 & H2 & H3 & H4 & H5).
    exists T1, A, b, B. split; [simpl; auto|]. split; auto. cbn [spread].
    destruct (Z.eqb_spec T1 T) as [->|_]; [tauto|]. split; auto. split; auto.
    intros U HU. destruct (U =? T); auto.
Qed.

Lemma spread_fapp F G : forall ts us U, length ts = length (roots F) ->
  spread (ts ++ us) (fapp F G) U = if in_dec Z.eq_dec U ts then spread ts F U else spread us G U.
Proof.
  induction F as [|a k _ r IH]; intros [|T ts] us U E; try discriminate.
  - cbn [app fapp]. destruct (in_dec Z.eq_dec U []) as [[]|]; auto.
  - cbn [app fapp spread]. rewrite IH by (injection E; auto).
    destruct (Z.eqb_spec U T) as [->|N].
    + destruct (in_dec Z.eq_dec T (T :: ts)) as [|H]; auto. destruct H; simpl; auto.
    + destruct (in_dec Z.eq_dec U ts) as [H|H], (in_dec Z.eq_dec U (T :: ts)) as [H'|H']; auto.
      * destruct H'; simpl; auto.
      * destruct H' as [H'|H']; [congruence|tauto].
Qed.

(** ** Rows of a table and their place in [spread] *)
Section Place.
Variable t : ns_table.
Variable F : forest node.
Variable ts : list Z.
Hypothesis W : wf_ids F.
Hypothesis I : ids_ok ts F.
Hypothesis La : laid t (spread ts F).

Lemma place_tree r T x : In r t -> In (Some x) (spread ts F T) -> tok_id x = n_pk r -> n_tree r = T.
Proof.
  intros Hr Hx E. apply La in Hr. destruct Hr as (i & j & L & R & Lt & O & C & D).
  eapply spread_same_tree; [exact W|eapply nth_error_In; exact O|exact Hx|auto].
Qed.

(** The row of [p] when [p]'s brackets enclose [l]. *)
Lemma place_par x T A b l B : In x t -> n_pk x = nid b ->
  spread ts F T = A ++ Some (TO b) :: cells l ++ Some (TC (nid b)) :: B ->
  n_tree x = T /\ n_lft x = len A + 1 /\ n_rgt x = len A + 2 * Z.of_nat (size l) + 2 /\
  n_depth x = 1 + bal A /\ n_data x = ndata b.
Proof.
  intros Hx Ex E.
  assert (ET : n_tree x = T).
  { apply place_tree with (TO b); auto. rewrite E. apply in_app_iff. simpl. auto. }
  split; auto. apply (row_at A b l Nil B).
  - replace (A ++ cells (Cons b l Nil) ++ B) with (spread ts F T); [apply proper_spread; auto|].
    rewrite E. cbn [toks map app]. rewrite map_app, <- app_assoc. auto.
  - replace (A ++ cells (Cons b l Nil) ++ B) with (spread ts F T); [rewrite <- ET; apply La; auto|].
    rewrite E. cbn [toks map app]. rewrite map_app, <- app_assoc. auto.
  - auto.
Qed.
End Place.

(** ** A new tree among the others *)
Definition shifted (Xs : Z -> list cell) (T : Z) : Z -> list cell :=
  fun U => if U <? T then Xs U else if U =? T then [] else Xs (U - 1).

Lemma spread_map_succ ts F U : spread (map (Z.add 1) ts) F U = spread ts F (U - 1).
Proof.
  revert ts. induction F as [|a k _ r IH]; intros [|T ts]; cbn [map spread]; auto.
  rewrite IH. destruct (Z.eqb_spec U (1 + T)), (Z.eqb_spec (U - 1) T); auto; lia.
Qed.

Lemma spread_new_tree u1 u2 m1 m2 T a c : length u1 = length (roots m1) ->
  (forall U, In U u1 -> U < T) -> (forall U, In U u2 -> T <= U) -> forall U,
  spread (u1 ++ T :: map (Z.add 1) u2) (fapp m1 (Cons a c m2)) U
  = upd (shifted (spread (u1 ++ u2) (fapp m1 m2)) T) T (cells (Cons a c Nil)) U.
Proof.
  intros E H1 H2 U. rewrite spread_fapp by auto. unfold upd, shifted.
  destruct (in_dec Z.eq_dec U u1) as [H|H].
  - apply H1 in H as L. destruct (Z.eqb_spec U T); [lia|]. destruct (Z.ltb_spec U T); [|lia].
    rewrite spread_fapp by auto. destruct (in_dec Z.eq_dec U u1); tauto.
  - cbn [spread]. destruct (Z.eqb_spec U T) as [|N]; auto. rewrite spread_map_succ.
    destruct (Z.ltb_spec U T); rewrite spread_fapp by auto.
    + destruct (in_dec Z.eq_dec U u1); [tauto|]. rewrite !spread_notin; auto; intros Hi; apply H2 in Hi; lia.
    + destruct (in_dec Z.eq_dec (U - 1) u1) as [Hi|]; auto. apply H1 in Hi. lia.
Qed.

Lemma ids_ok_new_tree u1 u2 m1 m2 T a c : ids_ok (u1 ++ u2) (fapp m1 m2) -> length u1 = length (roots m1) ->
  1 <= T -> (forall U, In U u1 -> U < T) -> (forall U, In U u2 -> T <= U) ->
  ids_ok (u1 ++ T :: map (Z.add 1) u2) (fapp m1 (Cons a c m2)).
Proof.
  intros (I1 & I2 & I3) E HT H1 H2. split; [|split].
  - rewrite roots_fapp, !app_length in *. cbn [roots length]. rewrite map_length. lia.
  - clear - I2 H1 H2. induction u1 as [|U u1 IH]; cbn [app] in *.
    + constructor.
      * clear H1 H2. induction u2; cbn [map]; inversion I2; subst; constructor; auto.
        apply Forall_map. eapply Forall_impl; [|eassumption]. intros; lia.
      * apply Forall_map, Forall_forall. intros x Hx. apply H2 in Hx. lia.
    + inversion I2; subst. constructor.
      * apply IH; auto. intros; apply H1; simpl; auto.
      * rewrite Forall_app in *. destruct H4 as [Ha Hb]. split; auto.
        assert (U < T) by (apply H1; simpl; auto). constructor; auto.
        apply Forall_map. eapply Forall_impl; [|exact Hb]. intros; lia.
  - rewrite Forall_app in *. destruct I3 as [Ha Hb]. split; auto. constructor; auto.
    apply Forall_map. eapply Forall_impl; [|exact Hb]. intros; lia.
Qed.
