(** One turn of the loop of fix_tree(fix_paths=True): the steps of one list of siblings
    become 1, 2, 3, ... in the order of the query. *)
From Coq Require Import List Arith ZArith Lia Bool Permutation Sorted.
From Verif Require Import Prelude Forest NumConv SpecFacts PathTab PathMove CommonModel Order MPModel MPStep
  MPInv MPCount MPShift MPReorder MPAdd MPReads MPFixModel MPCheck.
Import ListNotations.

(** ** Association lists *)
Lemma assoc_del {B} k k' (l : list (nat * B)) : assoc k (del_key k' l) = if k =? k' then None else assoc k l.
Proof.
  unfold assoc, del_key. induction l as [|[j v] l IH]; simpl; [destruct (k =? k'); auto|].
  destruct (Nat.eqb_spec j k'); simpl.
  - rewrite IH. destruct (Nat.eqb_spec k k'); auto. destruct (Nat.eqb_spec j k); auto. lia.
  - destruct (Nat.eqb_spec j k); simpl; auto. destruct (Nat.eqb_spec k k'); auto. lia.
Qed.
Lemma assoc_set {B} k k' v (l : list (nat * B)) : assoc k (set_key k' v l) = if k =? k' then Some v else assoc k l.
Proof.
  unfold set_key. unfold assoc at 1. simpl. rewrite Nat.eqb_sym. destruct (Nat.eqb_spec k k'); auto.
  fold (assoc k (del_key k' l)). rewrite assoc_del. destruct (Nat.eqb_spec k k'); auto. lia.
Qed.
Lemma assoc_map {A B} (key : A -> nat) (val : A -> B) l x : NoDup (map key l) -> In x l ->
  assoc (key x) (map (fun y => (key y, val y)) l) = Some (val x).
Proof.
  unfold assoc. induction l as [|y l IH]; simpl; intros ND H; [tauto|].
  inversion ND; subst. destruct (Nat.eqb_spec (key y) (key x)) as [E|E].
  - destruct H as [->|H]; auto. exfalso. apply H2. rewrite E. apply in_map. auto.
  - destruct H as [->|H]; [lia|]. auto.
Qed.
Lemma assoc_map_inv {A B} (key : A -> nat) (val : A -> B) l k v :
  assoc k (map (fun y => (key y, val y)) l) = Some v -> exists x, In x l /\ key x = k /\ val x = v.
Proof.
  unfold assoc. induction l as [|y l IH]; simpl; [discriminate|].
  destruct (Nat.eqb_spec (key y) k) as [E|E].
  - intros H. injection H as <-. eauto.
  - intros H. destruct (IH H) as (x & H1 & H2). eauto.
Qed.

Lemma perm_mid2 {A} (D : list A) a Sa b Sb : Permutation (D ++ a :: Sa ++ b :: Sb) (b :: D ++ a :: Sa ++ Sb).
Proof.
  assert (H := Permutation_middle (D ++ a :: Sa) Sb b). rewrite <- !app_assoc in H. simpl in H. symmetry. exact H.
Qed.

(** ** ORDER BY is a total preorder *)
Lemma col_total o : forall x y, col_lt o x y = true -> col_lt o y x = false.
Proof.
  induction o as [|[i d] o IH]; intros x y; cbn [col_lt]; [discriminate|].
  destruct (fval x i) as [v|], (fval y i) as [u|]; try (destruct d; simpl; congruence); [|apply IH].
  unfold before. destruct d.
  - destruct (Z.ltb_spec u v), (Z.ltb_spec v u), (Z.eqb_spec v u), (Z.eqb_spec u v); simpl; try lia; auto; try congruence.
  - destruct (Z.ltb_spec u v), (Z.ltb_spec v u), (Z.eqb_spec v u), (Z.eqb_spec u v); simpl; try lia; auto; try congruence.
Qed.
Lemma col_trans o : forall x y z, col_lt o y x = false -> col_lt o z y = false -> col_lt o z x = false.
Proof.
  induction o as [|[i d] o IH]; intros x y z; cbn [col_lt]; auto.
  destruct (fval x i) as [a|], (fval y i) as [b|], (fval z i) as [c|]; try (destruct d; simpl; congruence); try apply IH.
  unfold before. destruct d.
  - destruct (Z.ltb_spec a b), (Z.ltb_spec b c), (Z.ltb_spec a c), (Z.eqb_spec b a), (Z.eqb_spec c b), (Z.eqb_spec c a);
      simpl; try lia; auto; try congruence; apply IH.
  - destruct (Z.ltb_spec b a), (Z.ltb_spec c b), (Z.ltb_spec c a), (Z.eqb_spec b a), (Z.eqb_spec c b), (Z.eqb_spec c a);
      simpl; try lia; auto; try congruence; apply IH.
Qed.

Lemma isort_sorted {A} (le : A -> A -> bool) : (forall a b, le a b = false -> le b a = true) ->
  (forall a b c, le a b = true -> le b c = true -> le a c = true) ->
  forall l, StronglySorted (fun a b => le a b = true) (isort le l).
Proof.
  intros tot tr. induction l as [|x l IH]; simpl; [constructor|].
  induction IH as [|y m Hm IHm Hy]; simpl; [repeat constructor|].
  destruct (le x y) eqn:E.
  - constructor; [constructor; auto|]. constructor; auto. rewrite Forall_forall in *. eauto.
  - constructor; auto. rewrite Forall_forall in *. intros z Hz.
    apply (Permutation_in _ (insert_perm le x m)) in Hz. destruct Hz as [<-|Hz]; auto.
Qed.

Section Level.
Variable cfg : mp_cfg.
Hypothesis radix2 : 2 <= radix cfg.
Hypothesis step1 : 1 <= steplen cfg.
Notation R := (radix cfg).
Notation w := (steplen cfg).
Notation mkrow := (mkrow cfg).
Notation kpwf := (kpwf cfg).
Notation kvalid := (kvalid cfg).
Notation lay := (lay cfg).
Notation seg := (seg cfg).
Notation maxstep := (maxstep cfg).

(** ** A list of siblings as a list of (step number, (payload, children)) *)
Notation top := (nat * (payload * kf))%type.

Fixpoint tops (l : kf) : list top :=
  match l with Nil => [] | Cons x c r => (undigits R (fst x), (snd x, c)) :: tops r end.
Fixpoint mkf (T : list top) : kf :=
  match T with [] => Nil | (k, (a, c)) :: T => Cons (seg k, a) c (mkf T) end.

Definition okey (k : nat) : Prop := 1 <= k /\ k < maxstep.

Lemma tops_fapp l m : tops (fapp l m) = tops l ++ tops m.
Proof. induction l; simpl; auto. f_equal. auto. Qed.
Lemma mkf_tops l : kvalid l -> mkf (tops l) = l.
Proof.
  induction l as [|[s a] c _ r IH]; simpl; auto. intros V. apply kvalid_cons in V. destruct V as (V1 & _ & V3).
  simpl in V1. rewrite seg_undigits by auto. f_equal. auto.
Qed.
Lemma tops_okey l : kvalid l -> forall t, In t (tops l) -> okey (fst t).
Proof.
  induction l as [|[s a] c _ r IH]; simpl; [tauto|]. intros V. apply kvalid_cons in V. destruct V as (V1 & _ & V3).
  intros t [<-|H]; [|auto]. simpl in *. split; [apply V1|apply vseg_bound; auto].
Qed.
Lemma tops_roots l : kvalid l -> roots l = map (fun t : top => (seg (fst t), fst (snd t))) (tops l).
Proof.
  induction l as [|[s a] c _ r IH]; simpl; auto. intros V. apply kvalid_cons in V. destruct V as (V1 & _ & V3).
  simpl in V1. rewrite seg_undigits by auto. f_equal. auto.
Qed.
Lemma tops_sorted l : kvalid l -> kpwf l -> StronglySorted (fun x y : top => fst x < fst y) (tops l).
Proof.
  induction l as [|[s a] c _ r IH]; intros V W; [constructor|]. cbn [tops].
  apply kvalid_cons in V. destruct V as (V1 & _ & V3). destruct W as (W1 & W2 & W3 & W4).
  constructor; [auto|]. apply Forall_forall. intros t Ht. simpl.
  rewrite (tops_roots r V3) in W4. rewrite Forall_forall in W4.
  specialize (W4 (seg (fst t), fst (snd t))).
  assert (X := W4 ltac:(apply in_map_iff; exists t; auto)). simpl in X.
  destruct (tops_okey r V3 t Ht) as [K1 K2].
  change (plt s (seg (fst t)) = true) in X. rewrite (plt_vseg cfg radix2 step1) in X by (auto; apply vseg_seg; auto).
  rewrite seg_val in X by auto. apply Nat.ltb_lt in X. auto.
Qed.

Lemma sorted_nodup (T : list top) : StronglySorted (fun x y : top => fst x < fst y) T -> NoDup (map fst T).
Proof.
  induction 1; simpl; constructor; auto. rewrite in_map_iff. intros (y & E & Hy).
  rewrite Forall_forall in H0. specialize (H0 y Hy). lia.
Qed.
Lemma sorted_unique (T S : list top) : StronglySorted (fun x y : top => fst x < fst y) T ->
  StronglySorted (fun x y : top => fst x < fst y) S -> Permutation T S -> T = S.
Proof.
  intros HT. revert S. induction HT as [|x T HT IH Hx]; intros S HS P.
  - apply Permutation_nil in P. auto.
  - destruct S as [|y S]; [apply Permutation_sym, Permutation_nil in P; discriminate|].
    inversion HS; subst. rewrite Forall_forall in Hx, H2.
    assert (x = y).
    { assert (A : In x (y :: S)) by (apply (Permutation_in _ P); left; auto).
      assert (B : In y (x :: T)) by (apply (Permutation_in _ (Permutation_sym P)); left; auto).
      destruct A as [A|A]; auto. destruct B as [B|B]; auto. apply Hx in B. apply H2 in A. lia. }
    subst y. f_equal. apply IH; auto. eapply Permutation_cons_inv; eauto.
Qed.

(** ** Giving one of the siblings another step *)
Lemma tops_split l k x T : kvalid l -> Permutation ((k, x) :: T) (tops l) ->
  exists l1 l2, l = fapp l1 (Cons (seg k, fst x) (snd x) l2) /\ Permutation T (tops (fapp l1 l2)).
Proof.
  intros V P. assert (H : In (k, x) (tops l)) by (apply (Permutation_in _ P); left; auto).
  assert (S : exists l1 l2, l = fapp l1 (Cons (seg k, fst x) (snd x) l2)).
  { clear P T. revert V H. induction l as [|[s a] c _ r IH]; simpl; [tauto|]. intros V H.
    apply kvalid_cons in V. destruct V as (V1 & _ & V3). simpl in V1. destruct H as [E|H].
    - exists Nil, r. simpl. injection E as <- <-. simpl. rewrite seg_undigits by auto. auto.
    - destruct (IH V3 H) as (l1 & l2 & ->). exists (Cons (s, a) c l1), l2. auto. }
  destruct S as (l1 & l2 & ->). exists l1, l2. split; auto.
  rewrite tops_fapp in *. simpl in P. apply kvalid_fapp in V. destruct V as [_ V]. apply kvalid_cons in V.
  rewrite seg_val in P by auto. destruct x as [a c]. simpl in P.
  apply Permutation_cons_app_inv in P. auto.
Qed.

Lemma relabel l k x T k' : kvalid l -> kpwf l -> Permutation ((k, x) :: T) (tops l) ->
  okey k' -> ~ In k' (map fst T) ->
  exists l1 l2 m1 m2 l', l = fapp l1 (Cons (seg k, fst x) (snd x) l2) /\ fapp l1 l2 = fapp m1 m2 /\
    l' = fapp m1 (Cons (seg k', fst x) (snd x) m2) /\ kpwf l' /\ kvalid l' /\
    Permutation ((k', x) :: T) (tops l').
Proof.
  intros V W P [K1 K2] N. destruct (tops_split l k x T V P) as (l1 & l2 & -> & PT).
  assert (W' := W). apply pwf_mid in W'. destruct W' as (W1 & Wc & _).
  apply kvalid_fapp in V. destruct V as [V1 V2]. apply kvalid_cons in V2. destruct V2 as (V2 & Vc & V3).
  assert (V0 : kvalid (fapp l1 l2)) by (apply kvalid_fapp; auto).
  destruct (@split_at _ Nat.ltb w payload irr ltb_tr' ltb_tot' fst (fapp l1 l2) (seg k') W1) as (m1 & m2 & E & B1 & B2).
  { rewrite (tops_roots _ V0), map_map. simpl. rewrite in_map_iff. intros (t & Et & Ht).
    apply seg_inj in Et; auto. apply N. rewrite <- Et. apply in_map.
    apply (Permutation_in _ (Permutation_sym PT)). auto. }
  exists l1, l2, m1, m2, (fapp m1 (Cons (seg k', fst x) (snd x) m2)).
  split; auto. split; auto. split; auto.
  rewrite E in W1, V0, PT. apply kvalid_fapp in V0. destruct V0 as [V4 V5].
  assert (Vs : vseg cfg (seg k')) by (apply vseg_seg; auto).
  split; [|split].
  - apply pwf_insert; auto. apply seg_len; auto.
  - apply kvalid_fapp. split; auto. apply kvalid_cons. auto.
  - rewrite tops_fapp in *. simpl. rewrite seg_val by auto. rewrite PT. destruct x. simpl. apply Permutation_middle.
Qed.

Definition pd (o : option payload) : option (payload * payload) := option_map (fun a => (a, a)) o.
Lemma pd_diag o : pold (pd o) = pnew (pd o).
Proof. destruct o; auto. Qed.
Lemma At_step q o (l l' l'' f f' : kf) : At q (pd o) l l' f f' ->
  exists f'', At q (pd o) l' l'' f' f'' /\ At q (pd o) l l'' f f''.
Proof.
  intros H. destruct (At_chain H (pd o) l'') as (f'' & H1 & H2); [apply pd_diag|].
  exists f''. split; auto. destruct o; auto.
Qed.

Lemma rewrite_set db old new : length old = length new -> rewrite_node_path db old new = set_newpath cfg db old new.
Proof.
  intros E.
  assert (X : forall r, rewrite_row old new r = set_row cfg old new r).
  { intros r. unfold rewrite_row, set_row. rewrite E, Nat.eqb_refl. auto. }
  assert (Y : forall t t', existsb (fun r => ppre old (m_path r) &&
      existsb (fun r' => peq (m_path (rewrite_row old new r)) (m_path r')) t') t =
    existsb (fun r => ppre old (m_path r) &&
      existsb (fun r' => peq (m_path (set_row cfg old new r)) (m_path r')) t') t).
  { intros t t'. induction t as [|r t IH]; cbn [existsb]; auto. rewrite X, IH. auto. }
  unfold rewrite_node_path, set_newpath, paths_clash. rewrite Y.
  destruct (peq old new); auto. destruct (existsb _ (db_rows db)); auto. do 2 f_equal. apply map_ext. auto.
Qed.

Lemma set_pks db old new db' : set_newpath cfg db old new = Ok db' -> map m_pk (db_rows db') = map m_pk (db_rows db).
Proof.
  unfold set_newpath. destruct (peq old new); [intros E; injection E as <-; auto|].
  destruct (paths_clash _ _ _ _); [discriminate|]. intros E. injection E as <-. simpl. rewrite map_map.
  apply map_ext. intros r. unfold set_row. destruct (ppre _ _); auto.
Qed.

(** The state of one list of siblings: [f0] is the forest of the table before the turn,
    [l0] its list below [q]; now that list has the steps of [T]. *)
Definition shape (q : path) (o : option payload) (l0 f0 : kf) (db : mp_db) (T : list top) : Prop :=
  exists l f, lay (db_rows db) f /\ At q (pd o) l0 l f0 f /\ kvalid l /\ kpwf l /\ Permutation T (tops l).

Lemma shape_rewrite q o l0 f0 db k x T k' : shape q o l0 f0 db ((k, x) :: T) -> okey k' -> ~ In k' (map fst T) ->
  exists db', rewrite_node_path db (q ++ seg k) (q ++ seg k') = Ok db' /\
    shape q o l0 f0 db' ((k', x) :: T) /\ map m_pk (db_rows db') = map m_pk (db_rows db).
Proof.
  intros (l & f & L & HA & V & W & P) K N.
  destruct (relabel l k x T k' V W P K N) as (l1 & l2 & m1 & m2 & l' & El & Em & El' & W' & V' & P').
  subst l l'.
  assert (Wf : kpwf f) by apply L.
  destruct (At_step q o l0 _ (fapp l1 l2) f0 f HA) as (f1 & H1 & H01).
  destruct (At_step q o l0 _ (fapp m1 (Cons (seg k', fst x) (snd x) m2)) f0 f1 H01) as (f2 & H2 & H02).
  rewrite Em in H2.
  assert (Wf1 : kpwf f1).
  { eapply k_At_pwf; [apply H1|auto|]. apply pwf_mid in W. apply W. }
  assert (Wf2 : kpwf f2) by (eapply k_At_pwf; [apply H2|auto|auto]).
  assert (Vs : vseg cfg (seg k')) by (apply vseg_seg; auto; apply K).
  destruct (set_newpath_ok cfg radix2 step1 db f q (pd o) l1 (seg k) (fst x) (snd x) l2 f1 q (pd o) m1 (seg k') m2 f2
     L H1 (pd_diag o) H2 (pd_diag o) Wf2 Vs) as (_ & db' & E & L' & _).
  assert (Ek : length (q ++ seg k) = length (q ++ seg k')).
  { rewrite !app_length. f_equal.
    assert (Hk : okey k) by (apply (tops_okey _ V (k, x)); apply (Permutation_in _ P); left; auto).
    rewrite !seg_len; auto; [apply K|apply Hk]. }
  exists db'. rewrite rewrite_set by auto. split; auto. split; [|eapply set_pks; eauto].
  exists (fapp m1 (Cons (seg k', fst x) (snd x) m2)), f2. auto.
Qed.

Lemma shape_perm q o l0 f0 db T S : Permutation T S -> shape q o l0 f0 db T -> shape q o l0 f0 db S.
Proof.
  intros P (l & f & L & HA & V & W & PT). exists l, f. repeat (split; auto). rewrite <- P. auto.
Qed.
Lemma shape_keys q o l0 f0 db T : shape q o l0 f0 db T -> NoDup (map fst T) /\ forall t, In t T -> okey (fst t).
Proof.
  intros (l & f & L & HA & V & W & P). split.
  - rewrite (Permutation_map fst P). apply sorted_nodup, tops_sorted; auto.
  - intros t Ht. apply (tops_okey l V). apply (Permutation_in _ P). auto.
Qed.

(** ** The loop over the items *)
Definition tpk (t : top) : nat := nid (fst (fst (snd t))).

Record linv (q : path) (o : option payload) (l0 f0 : kf) (T : list top) (s : fix_state) : Prop := {
  li_shape : shape q o l0 f0 (fx_db s) T;
  li_pks : NoDup (map tpk T);
  li_paths : forall t, In t T -> assoc (tpk t) (fx_paths s) = Some (q ++ seg (fst t));
  li_seq : forall k p, assoc k (fx_seq s) = Some p <-> exists t, In t T /\ fst t = k /\ tpk t = p;
  li_max : forall t, In t T -> fst t <= fx_max s;
  li_lim : fx_max s < maxstep }.

Lemma linv_perm q o l0 f0 T S s : Permutation T S -> linv q o l0 f0 T s -> linv q o l0 f0 S s.
Proof.
  intros P [H1 H2 H3 H4 H5 H6].
  assert (I : forall t, In t S -> In t T) by (intros t; apply Permutation_in; symmetry; auto).
  constructor; auto.
  - eapply shape_perm; eauto.
  - rewrite <- P. auto.
  - intros k p. rewrite H4. split; intros (t & Ht & E); exists t; split; auto. eapply Permutation_in; eauto.
Qed.

Lemma seg_short k : length (seg k) <= w -> k < maxstep.
Proof.
  intros H. destruct (le_lt_dec maxstep k) as [K|]; auto. exfalso.
  assert (B := undigits_bound R (seg k) (seg_digits cfg radix2 step1 k)).
  rewrite seg_val in B by auto. unfold MPStep.maxstep in K.
  assert (R ^ length (seg k) <= R ^ w) by (apply Nat.pow_le_mono_r; lia). lia.
Qed.

(** Changing the step of one sibling to a free one, with the bookkeeping. *)
Lemma linv_set q o l0 f0 k x T s k' db m : linv q o l0 f0 ((k, x) :: T) s ->
  shape q o l0 f0 db ((k', x) :: T) -> k <> k' -> fx_max s <= m -> k' <= m -> m < maxstep ->
  linv q o l0 f0 ((k', x) :: T)
    (mkFix db (set_key (nid (fst (fst x))) (q ++ seg k') (fx_paths s))
       (del_key k (set_key k' (nid (fst (fst x))) (fx_seq s))) m).
Proof.
  intros [H1 H2 H3 H4 H5 H6] Sh N M1 M2 M3. simpl in H2. inversion H2 as [|? ? N1 N2]; subst.
  destruct (shape_keys _ _ _ _ _ _ H1) as [K1 K2]. destruct (shape_keys _ _ _ _ _ _ Sh) as [K3 K4].
  simpl in K1, K3. inversion K1 as [|? ? N3 N4]; subst. inversion K3 as [|? ? N5 N6]; subst.
  constructor; cbn [fx_db fx_paths fx_seq fx_max]; auto.
  - intros t [<-|Ht].
    + unfold tpk. simpl. rewrite assoc_set, Nat.eqb_refl. auto.
    + rewrite assoc_set. destruct (Nat.eqb_spec (tpk t) (nid (fst (fst x)))) as [E|E].
      * exfalso. apply N1. unfold tpk at 1. simpl. rewrite <- E. apply in_map. auto.
      * apply H3. right. auto.
  - intros j p. rewrite assoc_del, assoc_set. destruct (Nat.eqb_spec j k) as [->|Ejk].
    + split; [discriminate|]. intros (t & [<-|Ht] & E & _); simpl in E; [congruence|].
      exfalso. apply N3. rewrite <- E. apply in_map. auto.
    + destruct (Nat.eqb_spec j k') as [->|Ej].
      * split.
        -- intros E. injection E as <-. exists (k', x). split; [left; auto|auto].
        -- intros (t & [<-|Ht] & E & E2); [rewrite <- E2; reflexivity|].
           exfalso. apply N5. rewrite <- E. apply in_map. auto.
      * rewrite H4. split; intros (t & [<-|Ht] & E & E2); simpl in E; try congruence; exists t; (split; [right; auto|auto]).
  - intros t [<-|Ht]; simpl; auto. etransitivity; [apply H5; right; auto|auto].
Qed.

Lemma keys_bound (T : list top) m : NoDup (map fst T) -> (forall t, In t T -> okey (fst t)) ->
  (forall t, In t T -> fst t <= m) -> length T <= m.
Proof.
  intros ND K M. clear radix2 step1. rewrite <- (map_length fst), <- (seq_length m 1). apply NoDup_incl_length; auto.
  intros k Hk. apply in_map_iff in Hk. destruct Hk as (t & <- & Ht). apply in_seq.
  assert (A := M t Ht). destruct (K t Ht). lia.
Qed.

Section OneList.
Variable q : path.
Variable o : option payload.
Variables l0 f0 : kf.
Variable n : nat.
Hypothesis Eq : length q = n * w.
Notation linv := (linv q o l0 f0).

Lemma get_path_q k : get_path cfg q (S n) k = q ++ seg k.
Proof. rewrite <- (app_nil_r q) at 1. rewrite get_path_app; auto. Qed.

(** [evict] leaves the desired step free: no sibling had it, or the one that had it is
    now behind all others. *)
Lemma evict_ok T s d : linv T s ->
  match evict cfg q (S n) d s with
  | Ok s' => map m_pk (db_rows (fx_db s')) = map m_pk (db_rows (fx_db s)) /\
      ((~ In d (map fst T) /\ s' = s) \/
       exists x S, Permutation T ((d, x) :: S) /\ linv ((fx_max s + 1, x) :: S) s' /\ fx_max s' = fx_max s + 1)
  | Err e => e = PathOverflow /\ In d (map fst T) /\ maxstep <= fx_max s + 1
  end.
Proof.
  intros H. unfold evict. destruct (assoc d (fx_seq s)) as [occ|] eqn:Ea.
  - apply (li_seq _ _ _ _ _ _ H) in Ea. destruct Ea as ([k x] & Ht & Ek & Ep). simpl in Ek. subst k.
    assert (Epath := li_paths _ _ _ _ _ _ H _ Ht). rewrite Ep in Epath. rewrite Epath.
    cbn [opt_res bind fst]. rewrite get_path_q.
    assert (Hin : In d (map fst T)) by (apply (in_map fst _ _ Ht)).
    destruct (shape_keys _ _ _ _ _ _ (li_shape _ _ _ _ _ _ H)) as [K1 K2].
    assert (Ko : okey d) by apply (K2 _ Ht).
    rewrite !app_length. rewrite (seg_len cfg radix2 step1 d) by apply Ko.
    destruct (Nat.ltb_spec (length q + w) (length q + length (seg (fx_max s + 1)))) as [E|E].
    + split; auto. split; auto. destruct (le_lt_dec maxstep (fx_max s + 1)) as [X|X]; auto.
      rewrite (seg_len cfg radix2 step1 _ X) in E. lia.
    + assert (Lm : fx_max s + 1 < maxstep) by (apply seg_short; lia).
      apply in_split in Ht. destruct Ht as (T1 & T2 & ET).
      assert (P : Permutation T ((d, x) :: T1 ++ T2)) by (rewrite ET; symmetry; apply Permutation_middle).
      assert (H' := linv_perm _ _ _ _ _ _ _ P H).
      assert (Ko' : okey (fx_max s + 1)) by (split; lia).
      destruct (shape_rewrite q o l0 f0 (fx_db s) d x (T1 ++ T2) (fx_max s + 1) (li_shape _ _ _ _ _ _ H') Ko')
        as (db' & E1 & Sh & Epk).
      { rewrite in_map_iff. intros (t & Et & Ht). assert (B := li_max _ _ _ _ _ _ H' t (or_intror Ht)). lia. }
      rewrite E1. cbn [bind fx_db fx_max]. split; auto. right. exists x, (T1 ++ T2). split; auto. split; auto.
      unfold tpk in Ep. simpl in Ep. rewrite <- Ep.
      apply (linv_set q o l0 f0 d x (T1 ++ T2) s (fx_max s + 1) db' (fx_max s + 1)); auto; try lia.
      assert (B := li_max _ _ _ _ _ _ H' (d, x) (or_introl eq_refl)). simpl in B. lia.
  - split; auto. left. split; auto. intros Hin. apply in_map_iff in Hin. destruct Hin as (t & Et & Ht).
    assert (X : assoc d (fx_seq s) = Some (tpk t)) by (apply (li_seq _ _ _ _ _ _ H); eauto). congruence.
Qed.

Lemma last_q k : okey k -> get_lastpos cfg (q ++ seg k) = Ok k.
Proof.
  intros [K1 K2]. rewrite (get_lastpos_ok cfg radix2 step1 q (seg k)) by (apply vseg_seg; auto).
  rewrite seg_val; auto.
Qed.

(** One item gets its step; at most one sibling, not among [D], is sent behind the others. *)
Lemma fix_item_ok D k x S s d : linv (D ++ (k, x) :: S) s -> okey d -> d <= fx_max s -> ~ In d (map fst D) ->
  match fix_item cfg q (Datatypes.S n) d (nid (fst (fst x))) s with
  | Ok s' => map m_pk (db_rows (fx_db s')) = map m_pk (db_rows (fx_db s)) /\
      exists S', map snd S' = map snd S /\ linv (D ++ (d, x) :: S') s' /\ fx_max s <= fx_max s' <= fx_max s + 1 /\
        (~ In d (map fst S) -> S' = S /\ fx_max s' = fx_max s)
  | Err e => e = PathOverflow /\ In d (map fst S) /\ maxstep <= fx_max s + 1
  end.
Proof.
  intros H Kd Md ND. unfold fix_item.
  assert (Hin : In (k, x) (D ++ (k, x) :: S)) by (apply in_app_iff; right; left; auto).
  assert (Ep := li_paths _ _ _ _ _ _ H _ Hin). unfold tpk in Ep. simpl in Ep. rewrite Ep. cbn [opt_res bind].
  destruct (shape_keys _ _ _ _ _ _ (li_shape _ _ _ _ _ _ H)) as [K1 K2].
  assert (Kk : okey k) by apply (K2 _ Hin).
  rewrite last_q by auto. cbn [bind]. destruct (Nat.eqb_spec k d) as [->|Nkd].
  { split; auto. exists S. split; auto. split; auto. split; [lia|]. auto. }
  assert (He := evict_ok (D ++ (k, x) :: S) s d H).
  destruct (evict cfg q (Datatypes.S n) d s) as [s1|e]; cbn [bind].
  2: { destruct He as (-> & Hd & M). split; auto. split; auto. rewrite map_app, in_app_iff in Hd.
       simpl in Hd. destruct Hd as [Hd|[Hd|Hd]]; auto; [tauto|congruence]. }
  destruct He as (Epk & He).
  (* after the eviction *)
  assert (A : exists S', map snd S' = map snd S /\ linv (D ++ (k, x) :: S') s1 /\ ~ In d (map fst S') /\
     fx_max s <= fx_max s1 <= fx_max s + 1 /\ (~ In d (map fst S) -> S' = S /\ fx_max s1 = fx_max s)).
  { destruct He as [(Nd & ->)|(y & S1 & P & H1 & M1)].
    - exists S. split; auto. split; auto. split; [|split; [lia|auto]].
      intros X. apply Nd. rewrite map_app, in_app_iff. simpl. auto.
    - assert (Hd : In (d, y) S).
      { assert (X : In (d, y) (D ++ (k, x) :: S)) by (apply (Permutation_in _ (Permutation_sym P)); left; auto).
        apply in_app_iff in X. destruct X as [X|[X|X]]; auto.
        - exfalso. apply ND. apply (in_map fst _ _ X).
        - congruence. }
      apply in_split in Hd. destruct Hd as (Sa & Sb & ->).
      exists (Sa ++ (fx_max s + 1, y) :: Sb). rewrite !map_app. simpl. split; auto.
      assert (P1 : Permutation S1 (D ++ (k, x) :: Sa ++ Sb)).
      { apply Permutation_cons_inv with (d, y). rewrite <- P.
        apply perm_mid2. }
      split; [|split; [|split; [lia|]]].
      + eapply linv_perm; [|apply H1]. rewrite P1. symmetry. apply perm_mid2.
      + rewrite in_app_iff. simpl. intros [X|[X|X]]; [|lia|].
        * rewrite map_app in K1. apply NoDup_app_iff in K1. cbn [map fst] in K1.
          destruct K1 as (_ & K1 & _). inversion K1 as [|? ? _ K3]. rewrite map_app in K3. cbn [map fst] in K3.
          apply NoDup_remove_2 in K3. apply K3. apply in_app_iff. auto.
        * rewrite map_app in K1. apply NoDup_app_iff in K1. cbn [map fst] in K1.
          destruct K1 as (_ & K1 & _). inversion K1 as [|? ? _ K3]. rewrite map_app in K3. cbn [map fst] in K3.
          apply NoDup_remove_2 in K3. apply K3. apply in_app_iff. auto.
      + intros X. exfalso. apply X. rewrite in_app_iff. simpl. auto. }
  destruct A as (S' & ES & H1 & Nd & M & Un).
  assert (Hin1 : In (k, x) (D ++ (k, x) :: S')) by (apply in_app_iff; right; left; auto).
  assert (Ep1 := li_paths _ _ _ _ _ _ H1 _ Hin1). unfold tpk in Ep1. simpl in Ep1. rewrite Ep1. cbn [opt_res bind].
  rewrite get_path_q.
  assert (P : Permutation (D ++ (k, x) :: S') ((k, x) :: D ++ S')) by (symmetry; apply Permutation_middle).
  assert (H2 := linv_perm _ _ _ _ _ _ _ P H1).
  destruct (shape_rewrite q o l0 f0 (fx_db s1) k x (D ++ S') d (li_shape _ _ _ _ _ _ H2) Kd) as (db' & E1 & Sh & Epk1).
  { rewrite map_app, in_app_iff. tauto. }
  rewrite E1. cbn [bind fx_db fx_max]. split; [congruence|].
  exists S'. split; auto. split; [|split; auto].
  eapply linv_perm; [apply Permutation_middle|].
  apply (linv_set q o l0 f0 k x (D ++ S') s1 d db' (fx_max s1)); auto; try lia.
  apply (li_lim _ _ _ _ _ _ H1).
Qed.
Definition full (t : top) : bool := negb (snd (fst (snd t)) =? 0).
Definition ents (T : list top) : list (path * nat) :=
  map (fun t : top => (q ++ seg (fst t), S n + 1)) (filter full T).

Lemma fix_items_ok items : forall D T s queue,
  linv (D ++ T) s -> map fst D = seq 1 (length D) ->
  map m_pk items = map tpk T -> map m_nc items = map (fun t : top => snd (fst (snd t))) T ->
  match fix_items cfg q (S n) (length D) items s queue with
  | Ok (s', queue') => map m_pk (db_rows (fx_db s')) = map m_pk (db_rows (fx_db s)) /\
      exists T', map snd T' = map snd T /\ map fst T' = seq (S (length D)) (length T') /\ linv (D ++ T') s' /\
        queue' = queue ++ ents T'
  | Err e => e = PathOverflow /\
      ~ (StronglySorted (fun x y : top => fst x < fst y) T /\ Forall (fun x : top => length D < fst x) T) /\
      maxstep <= fx_max s + length T
  end.
Proof.
  induction items as [|it items IH]; intros D T s queue H ED Epk Enc.
  - destruct T; [|discriminate]. cbn [fix_items]. split; auto. exists []. split; auto. split; auto.
    split; auto. unfold ents. simpl. rewrite app_nil_r. auto.
  - destruct T as [|[k x] T]; [discriminate|]. cbn [map] in Epk, Enc. injection Epk as Ep Epk. injection Enc as En Enc.
    cbn [fix_items]. unfold tpk in Ep. simpl in Ep. rewrite Ep. simpl in En.
    destruct (shape_keys _ _ _ _ _ _ (li_shape _ _ _ _ _ _ H)) as [K1 K2].
    assert (B : length (D ++ (k, x) :: T) <= fx_max s).
    { apply keys_bound; auto. apply (li_max _ _ _ _ _ _ H). }
    rewrite app_length in B. simpl in B.
    assert (Lim := li_lim _ _ _ _ _ _ H).
    assert (Hi := fix_item_ok D k x T s (S (length D)) H).
    destruct (fix_item cfg q (S n) (S (length D)) (nid (fst (fst x))) s) as [s1|e]; cbn [bind].
    2: { destruct Hi as (-> & Hd & M); [split; lia|lia| |].
         { rewrite ED. rewrite in_seq. lia. }
         split; auto. split; [|simpl; lia]. intros [Hs Hf].
         inversion Hs as [|? ? Hs1 Hs2]; subst. inversion Hf as [|? ? Hf1 Hf2]; subst. simpl in Hf1.
         apply in_map_iff in Hd. destruct Hd as (t & Et & Ht). rewrite Forall_forall in Hs2.
         specialize (Hs2 t Ht). simpl in Hs2. lia. }
    destruct Hi as (Epk1 & T1 & ET & H1 & M & Un); [split; lia|lia| |].
    { rewrite ED. rewrite in_seq. lia. }
    assert (Hin : In (S (length D), x) (D ++ (S (length D), x) :: T1)) by (apply in_app_iff; right; left; auto).
    assert (Epa := li_paths _ _ _ _ _ _ H1 _ Hin). unfold tpk in Epa. simpl in Epa. rewrite Epa. cbn [opt_res bind].
    replace (D ++ (S (length D), x) :: T1) with ((D ++ [(S (length D), x)]) ++ T1) in H1 by (rewrite <- app_assoc; auto).
    assert (EL : length (D ++ [(S (length D), x)]) = S (length D)) by (rewrite app_length; simpl; lia).
    assert (IH1 := IH _ _ s1 (if m_nc it =? 0 then queue else queue ++ [(q ++ seg (S (length D)), S n + 1)]) H1).
    rewrite EL in IH1.
    assert (ED1 : map fst (D ++ [(S (length D), x)]) = seq 1 (S (length D))).
    { rewrite map_app, ED, seq_S. auto. }
    assert (Ex : forall {B} (g : payload * kf -> B), map (fun t : top => g (snd t)) T1 = map (fun t : top => g (snd t)) T).
    { intros B0 g. rewrite <- (map_map snd g T1), ET, map_map. auto. }
    specialize (IH1 ED1).
    assert (Z1 : map m_pk items = map tpk T1) by (rewrite Epk; symmetry; apply (Ex _ (fun y => nid (fst (fst y))))).
    assert (Z2 : map m_nc items = map (fun t : top => snd (fst (snd t))) T1)
      by (rewrite Enc; symmetry; apply (Ex _ (fun y => snd (fst y)))).
    specialize (IH1 Z1 Z2).
    destruct (fix_items cfg q (S n) (S (length D)) items s1 _) as [[s2 q2]|e].
    + destruct IH1 as (Epk2 & T2 & E2 & F2 & H2 & Q2). split; [congruence|].
      exists ((S (length D), x) :: T2). rewrite <- app_assoc in H2. simpl in H2. split; [simpl; congruence|].
      split; [simpl; congruence|]. split; auto. rewrite Q2. unfold ents, full. cbn [filter snd fst]. rewrite <- En.
      destruct (m_nc it =? 0); cbn [negb map]; auto. rewrite <- app_assoc. auto.
    + destruct IH1 as (-> & Ns & Mx). split; auto.
      assert (ELT : length T1 = length T) by (rewrite <- (map_length snd T1), ET, map_length; auto).
      split; [|simpl; rewrite ELT in Mx; lia].
      intros [Hs Hf]. inversion Hs as [|? ? Hs1 Hs2]; subst. inversion Hf as [|? ? Hf1 Hf2]; subst. simpl in Hf1.
      rewrite Forall_forall in Hs2. simpl in Hs2.
      destruct Un as [-> _].
      { rewrite in_map_iff. intros (t & Et & Ht). specialize (Hs2 t Ht). lia. }
      apply Ns. split; auto. apply Forall_forall. intros t Ht. specialize (Hs2 t Ht). lia.
Qed.
End OneList.
(** ** One turn of the loop *)
Notation item q := (fun t : top => mkrow (q ++ seg (fst t), fst (snd t))).

Lemma positions_ok q T : (forall t, In t T -> okey (fst t)) ->
  positions cfg (map (item q) T) = Ok (map (fun t : top => (fst t, tpk t)) T).
Proof.
  induction T as [|t T IH]; intros K; auto. cbn [map positions].
  change (m_path (mkrow (q ++ seg (fst t), fst (snd t)))) with (q ++ seg (fst t)).
  rewrite last_q by (apply K; left; auto). cbn [bind]. rewrite IH by (intros; apply K; right; auto). reflexivity.
Qed.

(** The new order of the siblings [L]: that of node_order_by, or the old one. *)
Definition col_le (x y : payload * kf) : Prop :=
  col_lt (order_by cfg) (ndata (fst (fst y))) (ndata (fst (fst x))) = false.
Definition arranged (L L' : list (payload * kf)) : Prop :=
  Permutation L L' /\ if is_sorted cfg then StronglySorted col_le L' else L' = L.

Definition number (i : nat) (L : list (payload * kf)) : list top := combine (seq i (length L)) L.

Lemma number_snd i L : map snd (number i L) = L.
Proof. unfold number. revert i. induction L; simpl; intros; f_equal; auto. Qed.
Lemma number_fst i L : map fst (number i L) = seq i (length L).
Proof. unfold number. revert i. induction L; simpl; intros; f_equal; auto. Qed.
Lemma number_eq (T : list top) i : map fst T = seq i (length T) -> T = number i (map snd T).
Proof.
  unfold number. rewrite map_length. revert i. induction T as [|[k x] T IH]; simpl; intros i E; auto.
  injection E as -> E. f_equal. auto.
Qed.
Lemma number_sorted L : forall i, StronglySorted (fun x y : top => fst x < fst y) (number i L).
Proof.
  unfold number. induction L as [|x L IH]; intros i; simpl; constructor; auto.
  apply Forall_forall. intros [k y] H. apply in_combine_l in H. apply in_seq in H. simpl. lia.
Qed.

Lemma level_items db f q o l n : lay (db_rows db) f -> At q (pd o) l l f f -> length q = n * w ->
  exists T, Permutation T (tops l) /\ arranged (map snd (tops l)) (map snd T) /\
    (is_sorted cfg = false -> T = tops l) /\
    sort_rows cfg (filter (fun r => ppre q (m_path r) && (m_depth r =? S n)) (db_rows db)) = map (item q) T.
Proof.
  intros L HA Eq.
  assert (W : kpwf f) by apply L. assert (V : kvalid f) by apply L.
  assert (Vl : kvalid l) by (apply (kvalid_At_l cfg _ _ _ _ _ _ HA V)).
  assert (Ef : filter (fun r => ppre q (m_path (mkrow r)) && (m_depth (mkrow r) =? S n)) (rows f) = map (pre q) (roots l)).
  { rewrite <- (k_children cfg step1 _ _ _ _ _ _ HA W). apply filter_ext_In. intros x Hx.
    destruct (depth_spec cfg radix2 step1 f x W Hx) as [Ed _].
    change (m_path (mkrow x)) with (fst x). f_equal.
    rewrite Ed, Eq. destruct (Nat.eqb_spec (m_depth (mkrow x)) (S n)) as [->|N].
    - symmetry. apply Nat.eqb_eq. lia.
    - symmetry. apply Nat.eqb_neq. intros X. apply N. nia. }
  assert (Es : map mkrow (map (pre q) (roots l)) = map (item q) (tops l)).
  { rewrite (tops_roots l Vl), !map_map. auto. }
  unfold sort_rows. destruct (is_sorted cfg) eqn:Eso.
  - set (raw := filter _ (db_rows db)).
    assert (P0 : Permutation raw (map (item q) (tops l))).
    { unfold raw. destruct L as (_ & _ & P). rewrite (Permutation_filter _ P), filter_map, Ef, Es. auto. }
    set (it := isort _ raw).
    assert (P1 : Permutation it (map (item q) (tops l))) by (unfold it; rewrite isort_perm; auto).
    destruct (Permutation_map_inv _ _ P1) as (T & ET & PT).
    exists T. split; [symmetry; auto|]. split; [|split; [discriminate|auto]].
    unfold arranged. rewrite Eso. split; [apply Permutation_map; auto|].
    assert (Hs : StronglySorted (fun a b : mprow => negb (col_lt (order_by cfg) (m_data b) (m_data a)) = true) it).
    { apply isort_sorted.
      - intros a b E. apply negb_false_iff in E. apply negb_true_iff. apply col_total. auto.
      - intros a b c E1 E2. apply negb_true_iff in E1, E2. apply negb_true_iff. eapply col_trans; eauto. }
    rewrite ET in Hs. clear - Hs. induction T as [|t T IH]; simpl in *; constructor.
    + apply IH. inversion Hs; auto.
    + inversion Hs as [|? ? _ H]; subst. rewrite Forall_forall in *. intros x Hx. apply in_map_iff in Hx.
      destruct Hx as (t' & <- & Ht'). specialize (H (item q t') (in_map _ _ _ Ht')).
      apply negb_true_iff in H. exact H.
  - exists (tops l). split; auto. split; [|split; auto].
    + unfold arranged. rewrite Eso. auto.
    + rewrite (query cfg step1 _ _ _ L), Ef, Es. auto.
Qed.

Lemma At_pd_refl q o (l l' f f' : kf) : At q (pd o) l l' f f' -> At q (pd o) l l f f.
Proof. intros H. apply At_id in H. destruct o; auto. Qed.

(** The steps of the list below [q] become 1, 2, 3, ...; or a sibling has to be moved behind
    the others and there is no step left for it. *)
Theorem fix_level_ok db f q o l n queue :
  lay (db_rows db) f -> NoDup (map m_pk (db_rows db)) -> At q (pd o) l l f f -> length q = n * w ->
  match fix_level cfg db q (S n) queue with
  | Ok (db', queue') => map m_pk (db_rows db') = map m_pk (db_rows db) /\
      exists L f', arranged (map snd (tops l)) L /\ lay (db_rows db') f' /\
        At q (pd o) l (mkf (number 1 L)) f f' /\ queue' = queue ++ ents q n (number 1 L)
  | Err e => e = PathOverflow /\ is_sorted cfg = true /\
      maxstep <= list_max (map fst (tops l)) + length (tops l)
  end.
Proof.
  intros HL U HA Eq. unfold fix_level.
  destruct (level_items db f q o l n HL HA Eq) as (T & PT & Ar & Ts & ->).
  assert (W : kpwf f) by apply HL. assert (V : kvalid f) by apply HL.
  assert (Vl : kvalid l) by (apply (kvalid_At_l cfg _ _ _ _ _ _ HA V)).
  assert (Wl : kpwf l) by (apply (k_At_pwf_l cfg _ _ _ _ _ _ HA W)).
  assert (K : forall t, In t T -> okey (fst t)).
  { intros t Ht. apply (tops_okey l Vl). apply (Permutation_in _ PT). auto. }
  rewrite positions_ok by auto. cbn [bind]. rewrite !map_map. cbn [fst].
  assert (ND : NoDup (map fst T)) by (rewrite (Permutation_map fst PT); apply sorted_nodup, tops_sorted; auto).
  assert (NP : NoDup (map tpk T)).
  { rewrite (Permutation_map tpk PT).
    assert (HI : forall t, In t (tops l) -> In (item q t) (db_rows db)).
    { intros t Ht. apply (lay_in_rev cfg _ f); auto. eapply k_root_in; eauto.
      rewrite (tops_roots l Vl). apply in_map_iff. exists t. auto. }
    assert (NT : NoDup (tops l)) by (apply (NoDup_map_inv fst), sorted_nodup, tops_sorted; auto).
    assert (Np : NoDup (map fst (tops l))) by (apply sorted_nodup, tops_sorted; auto).
    clear - HI NT Np U radix2. induction (tops l) as [|t S IH]; simpl; constructor.
    - inversion NT; subst. inversion Np; subst. rewrite in_map_iff. intros (t' & E & Ht').
      assert (X : item q t' = item q t).
      { eapply NoDup_map_inj; [exact U| | |]; try (apply HI; simpl; auto). exact E. }
      apply (f_equal m_path) in X. simpl in X. apply app_inv_head in X. apply seg_inj in X; auto.
      apply H3. rewrite <- X. apply in_map. auto.
    - inversion NT; subst. inversion Np; subst. apply IH; auto. intros; apply HI; simpl; auto. }
  assert (Mx : forall t, In t T -> fst t <= list_max (map fst T)).
  { intros t Ht. assert (X := proj1 (list_max_le (map fst T) (list_max (map fst T))) (le_n _)).
    rewrite Forall_forall in X. apply X. apply in_map. auto. }
  assert (Em : list_max (map fst T) = list_max (map fst (tops l))).
  { clear - PT. induction PT; simpl; try lia. }
  set (s0 := mkFix _ _ _ _).
  assert (H0 : linv q o l f T s0).
  { constructor; cbn [s0 fx_db fx_paths fx_seq fx_max]; auto.
    - exists l, f. repeat (split; [solve [auto]|]). auto.
    - intros t Ht. change (fun x : top => (m_pk (item q x), m_path (item q x)))
        with (fun x : top => (tpk x, q ++ seg (fst x))). apply (assoc_map tpk (fun x => q ++ seg (fst x)) T t NP Ht).
    - intros k p. split.
      + intros E. destruct (assoc_map_inv fst tpk T k p E) as (t & H1 & H2 & H3). eauto.
      + intros (t & Ht & <- & <-). apply (assoc_map fst tpk T t ND Ht).
    - destruct T as [|t0 T0]; [apply Nat.lt_trans with 1; [simpl; lia|apply maxstep_gt1; auto]|].
      apply list_max_lt; [discriminate|]. apply Forall_forall.
      intros k Hk. apply in_map_iff in Hk. destruct Hk as (t & <- & Ht). apply K. auto. }
  assert (Hi := fix_items_ok q o l f n Eq (map (item q) T) [] T s0 queue H0 eq_refl).
  rewrite !map_map in Hi. specialize (Hi eq_refl eq_refl). cbn [length] in Hi.
  destruct (fix_items cfg q (S n) 0 (map (item q) T) s0 queue) as [[s' q']|e]; cbn [bind].
  - destruct Hi as (Epk & T' & E1 & E2 & H1 & ->). split; auto. cbn [app] in H1.
    assert (ET := number_eq _ _ E2). rewrite E1 in ET.
    destruct (li_shape _ _ _ _ _ _ H1) as (l' & f' & L' & HA' & V' & W' & P').
    exists (map snd T), f'. split; auto. split; auto. rewrite <- ET. split; auto.
    assert (ES : T' = tops l').
    { apply sorted_unique; auto; [rewrite ET; apply number_sorted|apply tops_sorted; auto]. }
    rewrite ES, mkf_tops; auto.
  - destruct Hi as (-> & Ns & M). split; auto.
    assert (Esz : length T = length (tops l)) by apply (Permutation_length PT).
    split.
    + destruct (is_sorted cfg) eqn:Eso; auto. exfalso. apply Ns. rewrite (Ts eq_refl).
      split; [apply tops_sorted; auto|]. apply Forall_forall. intros t Ht. destruct (tops_okey l Vl t Ht). lia.
    + unfold s0 in M. cbn [fx_max] in M. rewrite Esz in M. rewrite <- Em. exact M.
Qed.
End Level.
