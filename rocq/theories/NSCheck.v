(** find_problems of nested set tables is exact (C21). *)
From Coq Require Import String List Arith ZArith Lia Bool Permutation Sorted.
From Verif Require Import Prelude Forest SpecFacts CommonModel Order NSModel NSInv NSReads.
Import ListNotations.
Local Open Scope Z_scope.

(** ** What a table without problems is *)
Definition encloses (s r : nsrow) : Prop := n_tree s = n_tree r /\ n_lft s < n_lft r /\ n_rgt r < n_rgt s.
Definition apart (s r : nsrow) : Prop := n_rgt s < n_lft r \/ n_rgt r < n_lft s.
Definition enclosesb (s r : nsrow) : bool := (n_tree s =? n_tree r) && (n_lft s <? n_lft r) && (n_rgt r <? n_rgt s).

(** Intervals are real, nested or apart, with one root per tree_id, and the depths
    count the enclosing intervals (from [base]). *)
Record well_nested (base : Z) (t : ns_table) : Prop := {
  wn_real : forall r, In r t -> n_lft r < n_rgt r;
  wn_nested : forall r s, In r t -> In s t -> r <> s -> n_tree r = n_tree s -> apart r s \/ encloses r s \/ encloses s r;
  wn_root : forall r s, In r t -> In s t -> n_tree r = n_tree s ->
      (forall x, In x t -> ~ encloses x r) -> (forall x, In x t -> ~ encloses x s) -> r = s;
  wn_depth : forall r, In r t -> n_depth r = base + 1 + Z.of_nat (length (filter (fun s => enclosesb s r) t)) }.

Lemma enclosesb_spec s r : enclosesb s r = true <-> encloses s r.
Proof. unfold enclosesb, encloses. rewrite !andb_true_iff, Z.eqb_eq, !Z.ltb_lt. tauto. Qed.

Lemma enclosesb_false s r : enclosesb s r = false <-> ~ encloses s r.
Proof. rewrite <- enclosesb_spec. destruct (enclosesb s r); split; congruence. Qed.

(** ** In order of (tree_id, lft) *)
Definition wle (x y : nsrow) : Prop := n_tree x < n_tree y \/ (n_tree x = n_tree y /\ n_lft x <= n_lft y).

Lemma le_key_wle x y : le_key row_key pair_lt x y = true <-> wle x y.
Proof.
  unfold le_key. rewrite negb_true_iff. split.
  - intros H. assert (~ key_lt (row_key y) (row_key x)) by (rewrite <- pair_lt_spec, H; discriminate).
    unfold key_lt, row_key, wle in *. cbn [fst snd] in *. lia.
  - intros H. destruct (pair_lt (row_key y) (row_key x)) eqn:E; auto. apply pair_lt_spec in E.
    unfold key_lt, row_key, wle in *. cbn [fst snd] in *. lia.
Qed.

Lemma wle_trans x y z : wle x y -> wle y z -> wle x z.
Proof. unfold wle. lia. Qed.

Lemma order_sorted t : StronglySorted wle (order_rows t).
Proof.
  unfold order_rows. induction t as [|x t IH]; cbn [isort]; [constructor|].
  assert (G : forall l, StronglySorted wle l -> StronglySorted wle (insert (le_key row_key pair_lt) x l)).
  { induction l as [|y l IHl]; intros S; cbn [insert]; [repeat constructor|].
    assert (S' := S). inversion S; subst. destruct (le_key row_key pair_lt x y) eqn:E.
    - apply le_key_wle in E. constructor; auto. constructor; auto.
      eapply Forall_impl; [|exact H2]. intros z Hz. eapply wle_trans; eauto.
    - constructor; [apply IHl; auto|]. apply (Forall_forall). intros z Hz.
      apply (Permutation_in _ (insert_perm _ _ _)) in Hz. destruct Hz as [<-|Hz].
      + unfold wle. assert (~ wle x y) by (rewrite <- le_key_wle, E; discriminate). unfold wle in *. lia.
      + rewrite Forall_forall in H2. auto. }
  apply G. auto.
Qed.

Lemma sorted_mid (A : list nsrow) x B : StronglySorted wle (A ++ x :: B) ->
  (forall y, In y A -> wle y x) /\ (forall y, In y B -> wle x y).
Proof.
  induction A as [|a A IH]; cbn [app]; intros S; inversion S; subst; rewrite Forall_forall in *.
  - split; [intros y []|auto].
  - destruct (IH H1) as [H3 H4]. split; auto. intros y [<-|Hy]; auto. apply H2, in_app_iff. simpl. auto.
Qed.

(** What a row must satisfy, given the rows before it. *)
Definition good_row (base : Z) (A : list nsrow) (r : nsrow) : Prop :=
  n_lft r < n_rgt r /\
  (forall x, In x A -> n_tree x = n_tree r -> n_rgt x < n_lft r \/ encloses x r) /\
  ((exists x, In x A /\ n_tree x = n_tree r) -> exists x, In x A /\ encloses x r) /\
  n_depth r = base + 1 + Z.of_nat (length (filter (fun s => enclosesb s r) A)).

Lemma first_of_tree (A : list nsrow) T : (exists x, In x A /\ n_tree x = T) ->
  exists A1 y A2, A = A1 ++ y :: A2 /\ n_tree y = T /\ (forall z, In z A1 -> n_tree z <> T).
Proof.
  induction A as [|a A IH]; intros (x & Hx & Ex); [destruct Hx|].
  destruct (Z.eq_dec (n_tree a) T) as [E|E].
  - exists [], a, A. repeat split; auto.
  - destruct IH as (A1 & y & A2 & -> & H1 & H2).
    { destruct Hx as [->|Hx]; [congruence|eauto]. }
    exists (a :: A1), y, A2. repeat split; auto. intros z [<-|Hz]; auto.
Qed.

Lemma not_later (A : list nsrow) x B y : StronglySorted wle (A ++ x :: B) -> In y (x :: B) -> ~ encloses y x.
Proof.
  intros S [<-|Hy] (H1 & H2 & H3); [lia|]. apply sorted_mid in S. destruct S as [_ S]. apply S in Hy. unfold wle in Hy. lia.
Qed.

Lemma nested_iff base L : StronglySorted wle L -> NoDup L ->
  (well_nested base L <-> forall A r B, L = A ++ r :: B -> good_row base A r).
Proof.
  intros S ND. split.
  - intros [H1 H2 H3 H4] A r B E. assert (Hr : In r L) by (rewrite E; apply in_app_iff; simpl; auto).
    assert (Nr : ~ In r A).
    { rewrite E in ND. apply NoDup_remove_2 in ND. intros H. apply ND, in_app_iff. auto. }
    assert (S' := S). rewrite E in S'. destruct (sorted_mid _ _ _ S') as [SA SB].
    assert (Later : forall x, In x L -> encloses x r -> In x A).
    { intros x Hx En. rewrite E in Hx. apply in_app_iff in Hx. destruct Hx as [Hx|Hx]; auto.
      exfalso. exact (not_later A r B x S' Hx En). }
    split; [auto|split; [|split]].
    + intros x Hx Et. assert (Hxl : In x L) by (rewrite E; apply in_app_iff; auto).
      assert (x <> r) by (intros ->; auto). specialize (SA x Hx). assert (R := H1 r Hr).
      destruct (H2 x r Hxl Hr H Et) as [[P|P]|[P|P]]; auto; unfold wle, encloses in *; exfalso; lia.
    + intros Ex. destruct (existsb (fun x => enclosesb x r) A) eqn:En.
      { apply existsb_exists in En. destruct En as (x & Hx & Ex'). apply enclosesb_spec in Ex'. eauto. }
      exfalso. rewrite existsb_false in En.
      destruct (first_of_tree A (n_tree r) Ex) as (A1 & y & A2 & EA & Ey & H5).
      assert (Hy : In y A) by (rewrite EA; apply in_app_iff; simpl; auto).
      assert (y = r); [|subst; auto]. apply H3; auto.
      * rewrite E. apply in_app_iff. auto.
      * intros x Hx Ex'. assert (Hx' := Hx). rewrite E, EA, <- app_assoc in Hx. apply in_app_iff in Hx.
        destruct Hx as [Hx|Hx].
        -- apply H5 in Hx. unfold encloses in Ex'. lia.
        -- rewrite EA, <- app_assoc in S'. apply (not_later A1 y (A2 ++ r :: B) x S'); auto.
      * intros x Hx Ex'. assert (Hx' := Later x Hx Ex'). apply En in Hx'. apply enclosesb_false in Hx'. auto.
    + rewrite (H4 r Hr). rewrite E at 1. rewrite filter_app, (filter_none _ (r :: B)), app_nil_r; auto.
      intros x Hx. apply enclosesb_false. apply (not_later A r B x S' Hx).
  - intros G.
    assert (Two : forall r s, In r L -> In s L -> r <> s ->
              (exists A B, L = A ++ r :: B /\ In s A) \/ (exists A B, L = A ++ s :: B /\ In r A)).
    { intros r s Hr Hs N. apply in_split in Hr. destruct Hr as (A & B & E).
      assert (Hs' := Hs). rewrite E in Hs'. apply in_app_iff in Hs'. destruct Hs' as [H|[H|H]]; [left; eauto|congruence|].
      apply in_split in H. destruct H as (B1 & B2 & ->). right. exists (A ++ r :: B1), B2.
      rewrite <- app_assoc. split; auto. apply in_app_iff. simpl. auto. }
    split.
    + intros r Hr. apply in_split in Hr. destruct Hr as (A & B & E). apply (G A r B E).
    + intros r s Hr Hs N Et. destruct (Two r s Hr Hs N) as [(A & B & E & Ha)|(A & B & E & Ha)].
      * destruct (G A r B E) as (_ & H & _). destruct (H s Ha); auto. left. right. auto.
      * destruct (G A s B E) as (_ & H & _). destruct (H r Ha Et); auto. left. left. auto.
    + intros r s Hr Hs Et Nr Ns.
      assert (Dec : {r = s} + {r <> s}) by (repeat decide equality). destruct Dec as [|N]; auto. exfalso.
      destruct (Two r s Hr Hs N) as [(A & B & E & Ha)|(A & B & E & Ha)].
      * destruct (G A r B E) as (_ & _ & H & _). destruct H as (x & Hx & Ex); [eauto|].
        apply (Nr x); auto. rewrite E. apply in_app_iff. auto.
      * destruct (G A s B E) as (_ & _ & H & _). destruct H as (x & Hx & Ex); [eauto|].
        apply (Ns x); auto. rewrite E. apply in_app_iff. auto.
    + intros r Hr. apply in_split in Hr. destruct Hr as (A & B & E). destruct (G A r B E) as (_ & _ & _ & ->).
      rewrite E at 1. rewrite filter_app, (filter_none _ (r :: B)), app_nil_r; auto.
      intros x Hx. apply enclosesb_false. rewrite E in S. apply (not_later A r B x S Hx).
Qed.

(** ** The loop *)
Definition quiet (s : fp_state) : Prop :=
  fp_reversed s = [] /\ fp_overlap s = [] /\ fp_dup s = [] /\ fp_depth s = [].

Lemma quiet_step base s r : quiet (fp_step base s r) -> quiet s.
Proof.
  unfold fp_step, quiet. destruct (n_rgt r <=? n_lft r); [cbn; intros (? & _); discriminate|].
  destruct (pop_left _ _) as [|top st].
  - destruct (if match fp_tree s with Some i => i =? n_tree r | None => false end then fp_seen s else false);
      cbn [fp_reversed fp_overlap fp_dup fp_depth]; [intros (_ & _ & ? & _); discriminate|].
    destruct (n_depth r =? _); [auto|intros (_ & _ & _ & ?); discriminate].
  - destruct ((n_lft r <=? n_lft top) || (n_rgt top <=? n_rgt r));
      cbn [fp_reversed fp_overlap fp_dup fp_depth]; [intros (_ & ? & _); discriminate|].
    destruct (n_depth r =? _); [auto|intros (_ & _ & _ & ?); discriminate].
Qed.

Lemma quiet_fold base L : forall s, quiet (fold_left (fp_step base) L s) -> quiet s.
Proof. induction L as [|r L IH]; cbn [fold_left]; auto. intros s H. apply IH in H. eapply quiet_step; eauto. Qed.

(** The state after the rows [P], none of which was reported. *)
Definition inv (P : list nsrow) (s : fp_state) : Prop :=
  quiet s /\
  ((P = [] /\ fp_tree s = None) \/
   (exists top st, fp_stack s = top :: st /\ fp_tree s = Some (n_tree top) /\ fp_seen s = true /\
      StronglySorted (fun a b => encloses b a) (top :: st) /\ n_lft top < n_rgt top /\
      (forall x, In x (top :: st) -> In x P) /\
      (forall x, In x P -> wle x top) /\
      (forall x, In x P -> n_tree x = n_tree top -> ~ In x (top :: st) -> n_rgt x < n_lft top))).

Lemma pop_spec l st : StronglySorted (fun a b => encloses b a) st -> exists gone,
  st = gone ++ pop_left l st /\ (forall x, In x gone -> n_rgt x < l) /\ (forall x, In x (pop_left l st) -> l <= n_rgt x).
Proof.
  induction st as [|s st IH]; intros S; cbn [pop_left]; [exists []; repeat split; intros x []|].
  inversion S; subst. destruct (Z.ltb_spec (n_rgt s) l).
  - destruct (IH H1) as (g & E & Hg & Hp). exists (s :: g). cbn [app]. rewrite <- E. repeat split; auto.
    intros x [<-|Hx]; auto.
  - exists []. repeat split; [intros x []|]. intros x [<-|Hx]; auto. rewrite Forall_forall in H2. apply H2 in Hx.
    unfold encloses in Hx. lia.
Qed.

Lemma encl_trans a b c : encloses a b -> encloses b c -> encloses a c.
Proof. unfold encloses. intuition lia. Qed.

Lemma count_eq (P : list nsrow) (st : list nsrow) r : NoDup P -> NoDup st ->
  (forall x, In x st <-> In x P /\ encloses x r) -> length (filter (fun s => enclosesb s r) P) = length st.
Proof.
  intros N1 N2 H. apply Permutation_length. apply NoDup_Permutation; auto; [apply NoDup_filter; auto|].
  intros x. rewrite filter_In, enclosesb_spec. symmetry. apply H.
Qed.

Lemma chain_NoDup st : StronglySorted (fun a b => encloses b a) st -> NoDup st.
Proof.
  induction 1 as [|a l S IH H]; constructor; auto. intros Hin. rewrite Forall_forall in H. apply H in Hin.
  unfold encloses in Hin. lia.
Qed.

Lemma chain_app (A B : list nsrow) : StronglySorted (fun a b => encloses b a) (A ++ B) ->
  StronglySorted (fun a b => encloses b a) B.
Proof. induction A as [|a A IH]; cbn [app]; auto. intros S. inversion S; auto. Qed.

Lemma step_spec base P s r : inv P s -> NoDup (P ++ [r]) -> (forall x, In x P -> wle x r) ->
  (quiet (fp_step base s r) <-> good_row base P r) /\
  (good_row base P r -> inv (P ++ [r]) (fp_step base s r)).
Proof.
  intros (Q & Hs) ND Sr.
  assert (NP : NoDup P) by (apply NoDup_app_iff in ND; tauto).
  assert (Nr : ~ In r P) by (apply NoDup_remove_2 in ND; rewrite app_nil_r in ND; auto).
  set (same := match fp_tree s with Some i => i =? n_tree r | None => false end).
  set (stack := if same then fp_stack s else []).
  set (seen := if same then fp_seen s else false).
  (* the rows that are still open *)
  assert (K : StronglySorted (fun a b => encloses b a) stack /\
     (forall x, In x stack -> In x P /\ n_tree x = n_tree r) /\
     (forall x, In x P -> n_tree x = n_tree r -> ~ In x stack -> n_rgt x < n_lft r) /\
     (seen = true <-> exists x, In x P /\ n_tree x = n_tree r) /\
     (seen = true -> exists b, In b P /\ n_tree b = n_tree r /\ forall x, In x P -> ~ encloses x b)).
  { destruct Hs as [[-> Ht]|(top & st & E1 & E2 & E3 & E4 & E5 & E6 & E7 & E8)].
    - unfold stack, seen, same. rewrite Ht. split; [constructor|]. split; [intros x []|]. split; [intros x []|].
      split; [split; [discriminate|intros (x & [] & _)]|discriminate].
    - assert (Tt : forall x, In x (top :: st) -> n_tree x = n_tree top).
      { intros x [<-|Hx]; auto. inversion E4; subst. rewrite Forall_forall in H2. apply H2 in Hx. unfold encloses in Hx. lia. }
      unfold stack, seen, same. rewrite E2. destruct (Z.eqb_spec (n_tree top) (n_tree r)) as [Et|Et].
      + rewrite E1, E3. split; auto. split; [intros x Hx; split; [auto|rewrite <- Et; auto]|]. split.
        { intros x Hx Ex Nx. assert (H := E8 x Hx ltac:(congruence) Nx). assert (H' := Sr top ltac:(apply E6; simpl; auto)).
          unfold wle in H'. lia. }
        split; [split; auto; intros _; exists top; split; [apply E6; simpl; auto|auto]|].
        intros _. destruct (exists_last (l := top :: st) ltac:(discriminate)) as (st0 & b & Eb).
        assert (Hb : In b (top :: st)) by (rewrite Eb; apply in_app_iff; simpl; auto).
        exists b. split; [auto|]. split; [rewrite Tt; auto|]. intros x Hx En.
        destruct (in_dec (fun a b : nsrow => ltac:(repeat decide equality)) x (top :: st)) as [Hi|Hi].
        * rewrite Eb in Hi, E4. apply in_app_iff in Hi. destruct Hi as [Hi|[->|[]]]; [|unfold encloses in En; lia].
          assert (encloses b x); [|unfold encloses in *; lia].
          clear - E4 Hi. induction st0 as [|y st0 IH]; [destruct Hi|]. cbn [app] in E4. inversion E4; subst.
          destruct Hi as [->|Hi]; auto. rewrite Forall_forall in H2. apply H2, in_app_iff. simpl. auto.
        * assert (H := E8 x Hx ltac:(unfold encloses in En; rewrite (Tt b Hb) in En; lia) Hi).
          assert (n_rgt top <= n_rgt b); [|unfold encloses in *; lia].
          destruct Hb as [->|Hb]; [lia|]. inversion E4; subst. rewrite Forall_forall in H3. apply H3 in Hb. unfold encloses in Hb. lia.
      + assert (No : forall x, In x P -> n_tree x <> n_tree r).
        { intros x Hx Ex. assert (H := E7 x Hx). assert (H' := Sr top ltac:(apply E6; simpl; auto)). unfold wle in *. lia. }
        split; [constructor|]. split; [intros x []|]. split; [intros x Hx Ex; destruct (No x Hx Ex)|].
        split; [split; [discriminate|intros (x & Hx & Ex); destruct (No x Hx Ex)]|discriminate]. }
  destruct K as (K1 & K2 & K3 & K4 & K5).
  destruct (pop_spec (n_lft r) stack K1) as (gone & Eg & Hg & Hp). set (st' := pop_left (n_lft r) stack) in *.
  assert (Kc : StronglySorted (fun a b => encloses b a) st') by (rewrite Eg in K1; apply chain_app in K1; auto).
  assert (Kl : forall x, In x P -> n_tree x = n_tree r -> ~ In x st' -> n_rgt x < n_lft r).
  { intros x Hx Ex Nx. destruct (in_dec (fun a b : nsrow => ltac:(repeat decide equality)) x stack) as [Hi|Hi]; auto.
    rewrite Eg in Hi. apply in_app_iff in Hi. destruct Hi; [auto|tauto]. }
  assert (Ks : forall x, In x st' -> In x P /\ n_tree x = n_tree r).
  { intros x Hx. apply K2. rewrite Eg. apply in_app_iff. auto. }
  assert (Enc : n_lft r < n_rgt r -> forall x, In x P -> encloses x r -> In x st').
  { intros Lr x Hx En. destruct (in_dec (fun a b : nsrow => ltac:(repeat decide equality)) x st') as [|Hi]; auto.
    apply Kl in Hi; auto; unfold encloses in En; lia. }
  unfold fp_step. fold same stack seen. fold st'. cbv zeta.
  destruct (Z.leb_spec (n_rgt r) (n_lft r)) as [Lr|Lr].
  { split; [|intros (H & _); lia]. split; [intros (H & _); discriminate|intros (H & _); lia]. }
  assert (New : forall stk, (forall x, In x stk <-> In x P /\ encloses x r) ->
     StronglySorted (fun a b => encloses b a) stk -> (forall x, In x P -> n_tree x = n_tree r -> ~ In x stk -> n_rgt x < n_lft r) ->
     ((exists x, In x P /\ n_tree x = n_tree r) -> stk <> []) ->
     let s' := mkFP (Some (n_tree r)) (r :: stk) true (fp_reversed s) (fp_overlap s) (fp_dup s)
         (if n_depth r =? base + Z.of_nat (length (r :: stk)) then fp_depth s else n_pk r :: fp_depth s) in
     (quiet s' <-> good_row base P r) /\ (good_row base P r -> inv (P ++ [r]) s')).
  { intros stk H1 H2 H3 H4 s'. assert (Cn := count_eq P stk r NP (chain_NoDup _ H2) H1).
    assert (Iff : quiet s' <-> good_row base P r).
    { unfold quiet, good_row. cbn [s' fp_reversed fp_overlap fp_dup fp_depth]. rewrite Cn. cbn [length].
      destruct Q as (-> & -> & -> & ->). split.
      - intros (_ & _ & _ & H). destruct (Z.eqb_spec (n_depth r) (base + Z.of_nat (S (length stk)))) as [E|E]; [|discriminate].
        split; auto. split; [|split; [|rewrite E; lia]].
        + intros x Hx Ex. destruct (in_dec (fun a b : nsrow => ltac:(repeat decide equality)) x stk) as [Hi|Hi]; auto.
          right. apply H1; auto.
        + intros Ex. apply H4 in Ex. destruct stk as [|y stk]; [congruence|]. exists y. apply H1. simpl. auto.
      - intros (_ & _ & _ & E). rewrite (proj2 (Z.eqb_eq _ _)) by lia. auto. }
    split; auto. intros G. split; [apply Iff; auto|]. right. exists r, stk. cbn [s' fp_stack fp_tree fp_seen].
    split; auto. split; auto. split; auto. split; [constructor; auto; apply Forall_forall; intros x Hx; apply H1; auto|].
    split; auto. split; [intros x [<-|Hx]; apply in_app_iff; [simpl; auto|left; apply H1; auto]|]. split.
    - intros x Hx. apply in_app_iff in Hx. destruct Hx as [Hx|[<-|[]]]; auto. unfold wle. lia.
    - intros x Hx Ex Nx. apply in_app_iff in Hx. destruct Hx as [Hx|[<-|[]]]; [|destruct Nx; simpl; auto].
      apply H3; auto. intros Hi. apply Nx. simpl. auto. }
  destruct st' as [|top st] eqn:Est.
  - destruct seen eqn:Es.
    + assert (NG : ~ good_row base P r).
      { intros (_ & _ & H & _). destruct H as (x & Hx & En); [apply K4; auto|]. apply (Enc Lr x Hx En). }
      split; [|tauto]. split; [intros (_ & _ & H & _); discriminate|tauto].
    + apply New; auto.
      * intros x. split; [intros []|]. intros [Hx En]. apply (Enc Lr x Hx En).
      * intros Ex. apply K4 in Ex. discriminate.
  - assert (Htop := Hp top ltac:(simpl; auto)). destruct (Ks top ltac:(simpl; auto)) as [HtP HtT].
    assert (Wt := Sr top HtP). unfold wle in Wt.
    destruct ((n_lft r <=? n_lft top) || (n_rgt top <=? n_rgt r)) eqn:Eo.
    + assert (NG : ~ good_row base P r).
      { intros (_ & H & _). destruct (H top HtP HtT) as [H'|H']; [lia|].
        apply orb_true_iff in Eo. rewrite !Z.leb_le in Eo. unfold encloses in H'. lia. }
      split; [|tauto]. split; [intros (_ & H & _); discriminate|tauto].
    + apply orb_false_iff in Eo. rewrite !Z.leb_gt in Eo. assert (Et : encloses top r) by (unfold encloses; lia).
      assert (Es : seen = true) by (apply K4; eauto). rewrite Es.
      apply New; auto; [|discriminate].
      intros x. split.
      * intros Hx. split; [apply Ks; auto|]. destruct Hx as [<-|Hx]; auto.
        inversion Kc; subst. rewrite Forall_forall in H2. apply H2 in Hx. eapply encl_trans; eauto.
      * intros [Hx En]. auto.
Qed.

Lemma fold_spec base B : forall A s, StronglySorted wle (A ++ B) -> NoDup (A ++ B) -> inv A s ->
  (quiet (fold_left (fp_step base) B s) <-> forall B1 r B2, B = B1 ++ r :: B2 -> good_row base (A ++ B1) r).
Proof.
  induction B as [|r B IH]; intros A s S ND I; cbn [fold_left].
  - split; [|intros _; apply I]. intros _ B1 r B2 E. destruct B1; discriminate.
  - assert (N1 : NoDup (A ++ [r])).
    { replace (A ++ r :: B) with ((A ++ [r]) ++ B) in ND by (rewrite <- app_assoc; auto).
      apply NoDup_app_iff in ND. tauto. }
    destruct (step_spec base A s r I N1) as [H1 H2]; [apply (sorted_mid A r B S)|].
    split.
    + intros Q. assert (G : good_row base A r) by (apply H1, (quiet_fold base B), Q).
      intros B1 x B2 E. destruct B1 as [|y B1]; cbn [app] in E; injection E as -> E.
      * rewrite app_nil_r. auto.
      * replace (A ++ y :: B1) with ((A ++ [y]) ++ B1) by (rewrite <- app_assoc; auto).
        refine (proj1 (IH (A ++ [y]) (fp_step base s y) _ _ (H2 G)) Q B1 x B2 E); rewrite <- app_assoc; auto.
    + intros G. assert (Gr : good_row base A r).
      { specialize (G [] r B eq_refl). rewrite app_nil_r in G. auto. }
      apply (IH (A ++ [r]) (fp_step base s r)); [rewrite <- app_assoc; auto|rewrite <- app_assoc; auto|auto|].
      intros B1 x B2 E. rewrite <- app_assoc. cbn [app]. apply (G (r :: B1) x B2). rewrite E. auto.
Qed.

Lemma well_nested_perm base t t' : Permutation t t' -> well_nested base t -> well_nested base t'.
Proof.
  intros P [H1 H2 H3 H4]. assert (B : forall x, In x t' -> In x t) by (intros x; apply Permutation_in, Permutation_sym; auto).
  assert (B' : forall x, In x t -> In x t') by (intros x; apply Permutation_in; auto).
  split; auto.
  intros r Hr. rewrite (H4 r (B r Hr)), (Permutation_length (Permutation_filter (fun s => enclosesb s r) P)). auto.
Qed.

(** The rows that are checked and the depth above them. *)
Definition fp_rows (t : ns_table) (parent : option nsrow) : ns_table :=
  match parent with
  | Some p => filter (fun r => (n_tree r =? n_tree p) && (n_lft p <=? n_lft r) && (n_rgt r <=? n_rgt p)) t
  | None => t
  end.
Definition fp_base (t : ns_table) (parent : option nsrow) : Z :=
  match parent with Some p => Z.of_nat (length (get_ancestors t p)) | None => 0 end.

(** C21: nothing is reported exactly for well nested tables, whatever the table is. *)
Theorem find_problems_exact t parent : NoDup (map n_pk t) ->
  (find_problems t parent = ([], [], [], []) <-> well_nested (fp_base t parent) (fp_rows t parent)).
Proof.
  intros ND. set (rows := fp_rows t parent). set (base := fp_base t parent).
  assert (E : find_problems t parent = ([], [], [], []) <->
     quiet (fold_left (fp_step base) (order_rows rows) (mkFP None [] false [] [] [] []))).
  { unfold find_problems. fold (fp_rows t parent) (fp_base t parent). fold rows base.
    set (s := fold_left _ _ _). unfold quiet.
    assert (Rv : forall l : list nat, rev l = [] <-> l = []).
    { intros l. split; [|intros ->; auto]. intros H. rewrite <- (rev_involutive l), H. auto. }
    split.
    - intros H. injection H as H1 H2 H3 H4. apply (proj1 (Rv _)) in H1, H2, H3, H4. repeat split; assumption.
    - intros (-> & -> & -> & ->). auto. }
  rewrite E. assert (Pm : Permutation (order_rows rows) rows) by apply isort_perm.
  assert (NR : NoDup rows).
  { assert (NoDup t) by (eapply NoDup_map_inv; eauto). unfold rows, fp_rows. destruct parent; auto. apply NoDup_filter; auto. }
  assert (NO : NoDup (order_rows rows)) by (eapply Permutation_NoDup; [apply Permutation_sym; exact Pm|auto]).
  rewrite (fold_spec base (order_rows rows) [] _ (order_sorted rows) NO).
  - cbn [app]. rewrite <- (nested_iff base _ (order_sorted rows) NO). split; apply well_nested_perm; auto.
    apply Permutation_sym; auto.
  - split; [repeat split|]. left. auto.
Qed.

(** ** Consistent tables are well nested *)
Lemma number_nested T f : forall d l r s, In r (number T d l f) -> In s (number T d l f) ->
  r <> s -> apart r s \/ encloses r s \/ encloses s r.
Proof.
  induction f as [|a k IHk g IHg]; intros d l r s; cbn [number]; [intros []|].
  cbn [In]. rewrite !in_app_iff. set (h := mkNS _ _ _ _ _ _).
  assert (Hk : forall x, In x (number T (d + 1) (l + 1) k) -> encloses h x).
  { intros x Hx. assert (Hx' := number_tree _ _ _ _ _ Hx). apply number_bounds in Hx. unfold encloses, h. cbn [n_tree n_lft n_rgt]. lia. }
  assert (Hg : forall x, In x (number T d (l + 2 * Z.of_nat (size k) + 2) g) -> n_rgt h < n_lft x).
  { intros x Hx. apply number_bounds in Hx. unfold h. cbn [n_rgt]. lia. }
  assert (Hkg : forall x y, In x (number T (d + 1) (l + 1) k) -> In y (number T d (l + 2 * Z.of_nat (size k) + 2) g) -> n_rgt x < n_lft y).
  { intros x y Hx Hy. apply number_bounds in Hx. apply number_bounds in Hy. lia. }
  intros [<-|[Hr|Hr]] [<-|[Hs|Hs]] N; try tauto.
  - right. left. auto.
  - left. left. auto.
  - right. right. auto.
  - eapply IHk; eauto.
  - left. left. auto.
  - left. right. auto.
  - left. right. auto.
  - eapply IHg; eauto.
Qed.

Lemma layout_nested ts F : NoDup ts -> forall r s, In r (layout ts F) -> In s (layout ts F) -> n_tree r = n_tree s ->
  exists T a k, In r (number T 1 1 (Cons a k Nil)) /\ In s (number T 1 1 (Cons a k Nil)) /\
    incl (number T 1 1 (Cons a k Nil)) (layout ts F).
Proof.
  revert ts. induction F as [|a k _ g IH]; intros [|T ts] ND r s; cbn [layout]; try (intros []; fail).
  apply NoDup_cons_iff in ND. destruct ND as [N1 N2]. rewrite !in_app_iff. intros [Hr|Hr] [Hs|Hs] Et.
  - exists T, a, k. split; auto. split; auto. intros x Hx. apply in_app_iff. auto.
  - apply number_tree in Hr. apply layout_tree in Hs. congruence.
  - apply number_tree in Hs. apply layout_tree in Hr. congruence.
  - destruct (IH ts N2 r s Hr Hs Et) as (U & b & c & H1 & H2 & H3). exists U, b, c. split; auto. split; auto.
    intros x Hx. apply in_app_iff. auto.
Qed.

Theorem stores_well_nested t F : stores t F -> well_nested 0 t.
Proof.
  intros (W & ts & I & P). assert (ND : NoDup ts) by (apply sorted_NoDup, I).
  apply (well_nested_perm _ (layout ts F)); [apply Permutation_sym; auto|]. split.
  - intros r Hr. destruct (layout_nested ts F ND r r Hr Hr eq_refl) as (T & a & k & H & _).
    apply number_bounds in H. lia.
  - intros r s Hr Hs N Et. destruct (layout_nested ts F ND r s Hr Hs Et) as (T & a & k & H1 & H2 & _).
    eapply number_nested; eauto.
  - intros r s Hr Hs Et Nr Ns. destruct (layout_nested ts F ND r s Hr Hs Et) as (T & a & k & H1 & H2 & H3).
    cbn [number In] in *. rewrite app_nil_r in *. set (h := mkNS _ _ _ _ _ _) in *.
    assert (Hh : In h (layout ts F)) by (apply H3; simpl; auto).
    assert (Hk : forall x, In x (number T (1 + 1) (1 + 1) k) -> encloses h x).
    { intros x Hx. assert (Hx' := number_tree _ _ _ _ _ Hx). apply number_bounds in Hx. unfold encloses, h. cbn [n_tree n_lft n_rgt]. lia. }
    destruct H1 as [H1|H1]; [|destruct (Nr h Hh (Hk _ H1))]. destruct H2 as [H2|H2]; [|destruct (Ns h Hh (Hk _ H2))]. congruence.
  - intros r Hr. destruct (layout_anc ts F W ltac:(apply I) r Hr) as (L & _ & H1 & H2 & _).
    rewrite H2, <- H1, map_length. replace (filter (fun s => enclosesb s r) (layout ts F)) with (filter (anc r) (layout ts F)); [lia|].
    apply filter_ext. intros x. unfold anc, enclosesb. auto.
Qed.

Corollary stores_no_problems t F : stores t F -> find_problems t None = ([], [], [], []).
Proof.
  intros S. apply find_problems_exact; [|apply (stores_well_nested t F S)].
  destruct S as (W & ts & I & P). eapply Permutation_NoDup; [apply Permutation_sym, (pks _ F ts I P)|exact W].
Qed.
