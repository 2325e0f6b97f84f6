(** Calls in different trees: materialized paths and ltree (C67). *)
From Coq Require Import List Arith Lia Bool ZArith Permutation Sorted.
From Verif Require Import Prelude Forest SpecFacts NumConv PathTab CommonModel Order History ConcModel ConcRun ConcLock ConcAlone ConcLocal ConcCalls ConcTrees.
From Verif Require MPModel MPStep MPInv MPHist ConcMP LTLabel LTModel LTInv LTReads LTHist ConcLT.
Import ListNotations.
Local Open Scope nat_scope.

(** Rows with the same first step are in the same tree. *)
Section Path.
Variable C : Type.
Variable ltb : C -> C -> bool.
Variable w : nat.
Variable A : Type.
Variable pn : A -> node.
Hypothesis ltb_irr : forall x, ltb x x = false.

Lemma first_step f : forall r q, pwf ltb w f -> wf_ids (PathTab.erase pn f) -> In r (PathTab.rows f) -> In q (PathTab.rows f) ->
  firstn w (fst r) = firstn w (fst q) -> tree_of (nid (pn (snd r))) (PathTab.erase pn f) = tree_of (nid (pn (snd q))) (PathTab.erase pn f).
Proof.
  induction f as [|sa k _ f IH]; intros r q P W Hr Hq E; [destruct Hr|].
  destruct P as (P1 & P2 & P3 & P4). rewrite Forall_forall in P4.
  change (PathTab.erase pn (Cons sa k f)) with (Cons (pn (snd sa)) (PathTab.erase pn k) (PathTab.erase pn f)) in *.
  assert (Sp : forall x, In x (PathTab.rows (Cons sa k f)) ->
    (firstn w (fst x) = fst sa /\ existsb (Nat.eqb (nid (pn (snd x)))) (nid (pn (snd sa)) :: ids (PathTab.erase pn k)) = true) \/
    (firstn w (fst x) <> fst sa /\ In x (PathTab.rows f) /\ existsb (Nat.eqb (nid (pn (snd x)))) (nid (pn (snd sa)) :: ids (PathTab.erase pn k)) = false)).
  { intros x Hx. cbn [PathTab.rows In] in Hx. destruct Hx as [<-|Hx]; [left; split; [rewrite <- P1; apply firstn_all|apply has_iff; left; auto]|].
    apply in_app_or in Hx. destruct Hx as [Hx|Hx].
    - apply in_map_iff in Hx. destruct Hx as (y & <- & Hy). left. cbn [pre fst snd]. split.
      + rewrite <- P1, firstn_app, Nat.sub_diag, firstn_all. cbn. apply app_nil_r.
      + apply has_iff. right. rewrite PathTab.erase_ids. apply in_map_iff. exists y. auto.
    - right. destruct (rows_top f x Hx) as (sb & Hb & z & Ez). assert (L := roots_len ltb w f sb P3 Hb).
      rewrite Ez, <- L, firstn_app, Nat.sub_diag, firstn_all. cbn [firstn]. rewrite app_nil_r. split.
      + intros E'. specialize (P4 sb Hb). rewrite E' in P4. rewrite llt_irr in P4; auto. discriminate.
      + split; auto. apply not_true_iff_false. rewrite has_iff. intros H.
        assert (Hf : In (nid (pn (snd x))) (ids (PathTab.erase pn f))) by (rewrite PathTab.erase_ids; apply in_map_iff; exists x; auto).
        unfold wf_ids, ids in W, H, Hf. cbn [preorder map] in W. apply NoDup_cons_iff in W. destruct W as [W1 W2]. rewrite map_app in W1, W2.
        apply NoDup_app_iff in W2. destruct W2 as (_ & _ & W2).
        destruct H as [H|H]; [apply W1; apply in_or_app; right; rewrite H; exact Hf|]. apply (W2 (nid (pn (snd x)))); auto. }
  assert (W' : wf_ids (PathTab.erase pn f)).
  { unfold wf_ids, ids in W. cbn [preorder map] in W. apply NoDup_cons_iff in W. destruct W as [_ W2]. rewrite map_app in W2.
    apply NoDup_app_iff in W2. apply W2. }
  cbn [tree_of]. destruct (Sp r Hr) as [(E1 & ->)|(N1 & I1 & ->)], (Sp q Hq) as [(E2 & ->)|(N2 & I2 & ->)]; auto; try congruence.
Qed.
End Path.

Lemma last_opt_In {A} (l : list A) x : last_opt l = Some x -> In x l.
Proof. intros E. apply last_opt_Some in E. destruct E as [l' ->]. apply in_or_app. right. left. auto. Qed.

Lemma firstn_firstn_le {A} (l : list A) a b : a <= b -> firstn a (firstn b l) = firstn a l.
Proof. intros H. rewrite firstn_firstn, Nat.min_l; auto. Qed.

Lemma firstn_app_le {A} (l m : list A) a : a <= length l -> firstn a (l ++ m) = firstn a l.
Proof. intros H. rewrite firstn_app. replace (a - length l) with 0 by lia. cbn. apply app_nil_r. Qed.

(** ** Materialized paths *)
Section MP.
Import MPModel MPStep MPInv MPHist.
Variable cfg : mp_cfg.
Hypothesis radix2 : 2 <= radix cfg.
Hypothesis step1 : 1 <= steplen cfg.
Notation w := (steplen cfg).
Notation stores := (stores cfg).

Definition fits (r : mprow) : Prop :=
  length (m_path r) = m_depth r * w /\ 1 <= m_depth r /\ Forall (fun d => d < radix cfg) (m_path r).
Definition step0 (r : mprow) : path := firstn w (m_path r).

Lemma mp_fits t F r : stores t F -> In r t -> fits r.
Proof.
  intros (f & (K & V & P) & _ & _ & _) Hr. apply (Permutation_in _ P) in Hr. apply in_map_iff in Hr. destruct Hr as (x & <- & Hx).
  destruct (k_len cfg step1 f x K Hx) as (n & L). unfold fits, mkrow. cbn [m_path m_depth]. rewrite L, Nat.div_mul by lia.
  split; auto. split; [lia|]. eapply kvalid_digits; eauto.
Qed.

Lemma mp_trees t F r q : stores t F -> In r t -> In q t -> step0 r = step0 q -> tree_of (m_pk r) F = tree_of (m_pk q) F.
Proof.
  intros (f & (K & V & P) & _ & <- & W) Hr Hq. apply (Permutation_in _ P) in Hr. apply (Permutation_in _ P) in Hq.
  apply in_map_iff in Hr. apply in_map_iff in Hq. destruct Hr as (x & <- & Hx), Hq as (y & <- & Hy). unfold step0, mkrow. cbn [m_path m_pk].
  apply (first_step _ Nat.ltb w _ fst irr f x y); auto.
Qed.

Section Domain.
Variable D : mprow -> bool.
Variable K : nat -> bool.
Hypothesis Dtr : forall r r', D r = true -> step0 r' = step0 r -> D r' = true.
Notation local := (local mprow m_pk mp_same fits D K).
Notation home := (home mprow m_pk fits D K).
Notation mine := (mine mprow m_pk D K).

Lemma below_dom a q r : D a = true -> firstn w q = step0 a -> w <= length q -> ppre q (m_path r) = true -> D r = true.
Proof.
  intros Da E L H. apply ppre_iff in H. destruct H as [z Ez]. apply (Dtr a); auto. unfold step0 in *. rewrite Ez, firstn_app_le; auto.
Qed.

(** The siblings at a place that is not the first level. *)
Definition level_of (q : path) (d : nat) (r : mprow) : bool := (m_depth r =? S d) && in_range (children_interval cfg q) (m_path r).
Lemma level_dom a q d r : D a = true -> firstn w q = step0 a -> length q = d * w -> 1 <= d -> fits r -> level_of q d r = true -> D r = true.
Proof.
  intros Da E L Hd (F1 & F2 & F3) H. unfold level_of in H. apply andb_true_iff in H. destruct H as [H1 H2]. apply Nat.eqb_eq in H1.
  rewrite in_range_prefix in H2; auto; [|rewrite F1, H1, L; cbn; lia]. eapply below_dom; eauto. nia.
Qed.

Lemma level_same a q d t t' (g : mprow -> bool) : D a = true -> firstn w q = step0 a -> length q = d * w -> 1 <= d -> home t -> home t' ->
  filter D t' = filter D t -> (forall r, g r = true -> level_of q d r = true) -> filter g t' = filter g t.
Proof.
  intros Da E L Hd H H' Eq G.
  assert (M : forall r, fits r -> g r = true -> mine r) by (intros r Fr Er; left; eapply level_dom; eauto).
  rewrite (sel_dom mprow m_pk fits D K g t' H' M), (sel_dom mprow m_pk fits D K g t H M), Eq. auto.
Qed.


Lemma last_child t nd last : home t -> D nd = true -> fits nd -> get_last_child cfg t nd = Some last ->
  D last = true /\ fits last /\ m_depth last = S (m_depth nd) /\ exists z, m_path last = m_path nd ++ z.
Proof.
  intros H Dn (F1 & F2 & F3) E. apply last_opt_In in E. unfold get_children in E. destruct (is_leaf nd); [destruct E|].
  apply (Permutation_in _ (isort_perm _ _)) in E. apply filter_In in E. destruct E as [Hl E].
  assert (Fl := h_valid _ _ _ _ _ _ H last Hl).
  apply andb_true_iff in E. destruct E as [E1 E2]. apply Nat.eqb_eq in E1.
  assert (E3 := E2). rewrite in_range_prefix in E3; auto; [|apply Fl|destruct Fl as (L1 & _); rewrite L1, E1, F1; nia].
  split; [|split; [exact Fl|split; [lia|apply ppre_iff; exact E3]]].
  eapply below_dom; [exact Dn|reflexivity| |exact E3]. rewrite F1. nia.
Qed.

Lemma last_child_same t t' nd : home t -> home t' -> D nd = true -> fits nd -> filter D t' = filter D t -> get_last_child cfg t' nd = get_last_child cfg t nd.
Proof.
  intros H H' Dn (F1 & F2 & F3) E. unfold get_last_child, get_children. destruct (is_leaf nd); auto. do 2 f_equal.
  apply (level_same nd (m_path nd) (m_depth nd)); auto. intros r Er. unfold level_of. rewrite Nat.add_1_r in Er. exact Er.
Qed.

Lemma base_len r : fits r -> length (get_basepath cfg (m_path r) (m_depth r - 1)) = (m_depth r - 1) * w.
Proof. intros (F1 & F2 & F3). unfold get_basepath. rewrite firstn_length, F1. nia. Qed.
Lemma base_step r : fits r -> 2 <= m_depth r -> firstn w (get_basepath cfg (m_path r) (m_depth r - 1)) = step0 r.
Proof. intros (F1 & F2 & F3) H. unfold get_basepath, step0. apply firstn_firstn_le. nia. Qed.

Lemma siblings_dom t target d r : home t -> D target = true -> fits target -> 2 <= m_depth target ->
  In r (sorted_siblings cfg t target d) -> D r = true /\ fits r /\ m_depth r = m_depth target.
Proof.
  intros H Dn Ft Dp Hr. unfold sorted_siblings in Hr. apply filter_In in Hr. destruct Hr as [Hr _].
  apply (Permutation_in _ (isort_perm _ _)) in Hr. apply filter_In in Hr. destruct Hr as [Hr E].
  assert (Fr := h_valid _ _ _ _ _ _ H r Hr). replace (1 <? m_depth target) with true in E by (symmetry; apply Nat.ltb_lt; lia).
  split; [|split; [exact Fr|apply andb_true_iff in E; destruct E as [E _]; apply Nat.eqb_eq; exact E]].
  eapply (level_dom target (get_basepath cfg (m_path target) (m_depth target - 1)) (m_depth target - 1)); eauto using base_step, base_len; [lia|].
  unfold level_of. replace (S (m_depth target - 1)) with (m_depth target) by lia. exact E.
Qed.

Lemma siblings_same t t' target d : home t -> home t' -> D target = true -> fits target -> 2 <= m_depth target -> filter D t' = filter D t ->
  sorted_siblings cfg t' target d = sorted_siblings cfg t target d /\ get_last_sibling cfg t' target = get_last_sibling cfg t target.
Proof.
  intros H H' Dn Ft Dp E. unfold get_last_sibling, sorted_siblings, get_siblings. replace (1 <? m_depth target) with true by (symmetry; apply Nat.ltb_lt; lia).
  rewrite (level_same target (get_basepath cfg (m_path target) (m_depth target - 1)) (m_depth target - 1) t t'); auto using base_step, base_len; [lia|].
  intros r Er. unfold level_of. replace (S (m_depth target - 1)) with (m_depth target) by lia. exact Er.
Qed.

Lemma last_sibling t target last : home t -> D target = true -> fits target -> 2 <= m_depth target -> get_last_sibling cfg t target = Some last ->
  D last = true /\ fits last /\ m_depth last = m_depth target.
Proof.
  intros H Dn Ft Dp Hr. apply last_opt_In in Hr.
  apply (Permutation_in _ (isort_perm _ _)) in Hr. apply filter_In in Hr. destruct Hr as [Hr E].
  assert (Fr := h_valid _ _ _ _ _ _ H last Hr). replace (1 <? m_depth target) with true in E by (symmetry; apply Nat.ltb_lt; lia).
  split; [|split; [exact Fr|apply andb_true_iff in E; destruct E as [E _]; apply Nat.eqb_eq; exact E]].
  eapply (level_dom target (get_basepath cfg (m_path target) (m_depth target - 1)) (m_depth target - 1)); eauto using base_step, base_len; [lia|].
  unfold level_of. replace (S (m_depth target - 1)) with (m_depth target) by lia. exact E.
Qed.

Lemma inc_place r np : fits r -> 2 <= m_depth r -> inc_path cfg (m_path r) = Ok np ->
  length np = length (m_path r) /\ Forall (fun d => d < radix cfg) np /\ firstn w np = step0 r.
Proof.
  intros (F1 & F2 & F3) Dp E. unfold inc_path in E. destruct (get_lastpos cfg (m_path r)) as [v|]; [|discriminate]. cbn [bind] in E.
  destruct (w <? length (digits (radix cfg) (v + 1))) eqn:El; [discriminate|]. apply Nat.ltb_ge in El. injection E as <-.
  assert (Ls : length (pad cfg (digits (radix cfg) (v + 1))) = w) by (unfold pad; rewrite app_length, repeat_length; lia).
  assert (G : w <= length (m_path r) - w) by (rewrite F1; nia).
  split; [rewrite app_length, firstn_length, Ls; lia|]. split.
  - apply Forall_app. split; [|exact (seg_digits cfg radix2 step1 (v + 1))]. rewrite Forall_forall in *. intros d Hd. apply F3.
    rewrite <- (firstn_skipn (length (m_path r) - w) (m_path r)). apply in_or_app. auto.
  - rewrite firstn_app_le; [|rewrite firstn_length; lia]. unfold step0. apply firstn_firstn_le. auto.
Qed.

Lemma insert_local x np depth a : D a = true -> K (nid x) = true -> firstn w np = step0 a -> length np = depth * w -> 1 <= depth ->
  Forall (fun d => d < radix cfg) np -> local (Insert (mp_new x np depth) Commit).
Proof.
  intros Da Kx E L Hd Fa. split; [apply (Dtr a); auto|]. split; auto. split; [split; auto|]. split; [|exact I].
  intros r' _ Sm. unfold mp_same, mp_new in Sm. cbn in Sm. apply orb_true_iff in Sm. destruct Sm as [Sm|Sm].
  - apply Nat.eqb_eq in Sm. right. rewrite <- Sm. auto.
  - apply peq_iff in Sm. left. apply (Dtr a); auto. unfold step0. rewrite <- Sm. auto.
Qed.

Lemma child_local k x np depth a : D a = true -> K k = true -> K (nid x) = true -> firstn w np = step0 a -> length np = depth * w -> 1 <= depth ->
  Forall (fun d => d < radix cfg) np -> local (mp_insert_child k x depth np).
Proof.
  intros. split; [|eapply insert_local; eauto]. intros r Er. apply Nat.eqb_eq in Er. split; auto. intros V. split; [right; congruence|].
  split; [exact V|]. intros Dr. apply (Dtr r); auto.
Qed.

Lemma sibling_local x np depth a : D a = true -> K (nid x) = true -> firstn w np = step0 a -> length np = depth * w -> 2 <= depth ->
  Forall (fun d => d < radix cfg) np -> local (mp_insert_sibling cfg x depth np).
Proof.
  intros Da Kx E L Hd Fa. unfold mp_insert_sibling. cbv zeta. assert (Il : local (Insert (mp_new x np depth) Commit)) by (eapply insert_local; eauto; lia).
  destruct (get_basepath cfg np (depth - 1)) as [|z b] eqn:Eb; auto. split; auto. intros r Er. split; auto. intros V.
  apply peq_iff in Er. split; [|split; [exact V|intros Dr; apply (Dtr r); auto]]. left. apply (Dtr a); auto. unfold step0.
  rewrite Er, <- Eb. unfold get_basepath. rewrite firstn_firstn_le; auto. nia.
Qed.

Lemma set_row_fits old inc r : fits r -> length inc = length old -> Forall (fun d => d < radix cfg) inc -> ppre old (m_path r) = true ->
  fits (set_row cfg old inc r).
Proof.
  intros (F1 & F2 & F3) L Fi P. unfold set_row. rewrite P, L, Nat.eqb_refl. apply ppre_iff in P. destruct P as [z Ez].
  unfold fits. cbn [m_path m_depth]. rewrite Ez in *. rewrite skipn_app, skipn_all, Nat.sub_diag. cbn [skipn app].
  split; [rewrite app_length in *; lia|]. split; auto. apply Forall_app in F3. apply Forall_app. tauto.
Qed.

Lemma shift_local l c : (forall r, In r l -> D r = true /\ fits r /\ 2 <= m_depth r) -> local c -> local (mp_shift cfg l c).
Proof.
  induction l as [|r l IH]; intros Hl Lc; auto. cbn [mp_shift]. destruct (Hl r (or_introl eq_refl)) as (Dr & Fr & Dp).
  destruct (inc_path cfg (m_path r)) as [inc|] eqn:Ei; [|exact I]. cbn [or_raise].
  destruct (inc_place r inc Fr Dp Ei) as (L1 & L2 & L3). split; [|apply IH; auto; intros; apply Hl; right; auto].
  intros y Ey. assert (Ly : w <= length (m_path r)) by (destruct Fr as (F1 & _); rewrite F1; nia). split; [unfold set_row; rewrite Ey; auto|].
  intros Fy. assert (Dy : D y = true) by (apply (below_dom r (m_path r) y); auto). split; [left; auto|].
  split; [apply set_row_fits; auto|]. intros _. apply (Dtr r); auto. unfold set_row. rewrite Ey. unfold step0 at 1. cbn [m_path].
  rewrite firstn_app_le by lia. auto.
Qed.

Lemma collect_in np l ms r : collect_movesiblings cfg np l = Ok ms -> In r ms -> In r l.
Proof.
  revert np ms. induction l as [|a l IH]; intros np ms; cbn [collect_movesiblings]; [intros E; injection E as <-; intros []|].
  destruct (py_lt cfg np (m_path a)); [intros E; injection E as <-; intros []|].
  destruct (inc_path cfg (m_path a)) as [p|]; [|discriminate]. cbn [bind]. destruct (collect_movesiblings cfg p l) as [m|] eqn:Em; [|discriminate].
  cbn [bind]. intros E. injection E as <-. intros [<-|H]; [left; auto|right; eauto].
Qed.

Lemma sorted_local target x : D target = true -> fits target -> 2 <= m_depth target -> K (nid x) = true -> local (mp_add_sorted cfg target x).
Proof.
  intros Dt Ft Dp Kx t H. split.
  - destruct (hd_error (sorted_siblings cfg t target (ndata x))) as [first|] eqn:Ef.
    + assert (Hf : In first (sorted_siblings cfg t target (ndata x))) by (destruct (sorted_siblings cfg t target (ndata x)); [discriminate|injection Ef as ->; left; auto]).
      destruct (siblings_dom t target _ first H Dt Ft Dp Hf) as (Df & Ff & Ed).
      destruct (get_lastpos cfg (m_path first)) as [n|] eqn:En; [|exact I]. cbn [or_raise].
      assert (Bn : n < maxstep cfg).
      { unfold get_lastpos, step_value in En. destruct (forallb (fun d => d <? radix cfg) (last_step cfg (m_path first))) eqn:Eb; [|discriminate]. injection En as <-.
        assert (Fb : Forall (fun d => d < radix cfg) (last_step cfg (m_path first))).
        { rewrite forallb_forall in Eb. apply Forall_forall. intros d Hd. apply Nat.ltb_lt. auto. }
        unfold maxstep. replace w with (length (last_step cfg (m_path first))); [apply undigits_bound; auto|].
        unfold last_step. rewrite skipn_length. destruct Ff as (F1 & F2 & _). rewrite F1. nia. }
      set (np := get_path cfg (m_path target) (m_depth target) n).
      assert (Lp : firstn w np = step0 target /\ length np = m_depth target * w /\ Forall (fun d => d < radix cfg) np).
      { unfold np, get_path. assert (Lb := base_len target Ft). split.
        - rewrite firstn_app_le; [apply base_step; auto|]. rewrite Lb. nia.
        - split; [rewrite app_length, Lb; fold (seg cfg n); rewrite seg_len; auto; nia|]. apply Forall_app. split; [|apply (seg_digits cfg radix2 step1 n)].
          destruct Ft as (_ & _ & F3). unfold get_basepath. rewrite Forall_forall in *. intros d Hd. apply F3.
          rewrite <- (firstn_skipn ((m_depth target - 1) * w) (m_path target)). apply in_or_app. auto. }
      destruct Lp as (Lp1 & Lp2 & Lp3).
      intros t1 H1. split.
      * destruct (collect_movesiblings cfg np (sorted_siblings cfg t1 target (ndata x))) as [ms|] eqn:Em; [|exact I]. cbn [or_raise].
        apply shift_local; [|apply (sibling_local x np _ target); auto]. intros r Hr. apply in_rev in Hr.
        assert (Hs := collect_in _ _ _ _ Em Hr). destruct (siblings_dom t1 target _ r H1 Dt Ft Dp Hs) as (A & B & E). split; auto. split; auto. lia.
      * intros t' H' E. rewrite (proj1 (siblings_same t1 t' target (ndata x) H1 H' Dt Ft Dp E)). auto.
    + intros t1 H1. split.
      * destruct (get_last_sibling cfg t1 target) as [last|] eqn:El; [|exact I]. cbn [else_raise].
        destruct (last_sibling t1 target last H1 Dt Ft Dp El) as (Dl & Fl & Ed).
        destruct (inc_path cfg (m_path last)) as [np|] eqn:Ei; [|exact I]. cbn [or_raise].
        destruct (inc_place last np Fl ltac:(lia) Ei) as (L1 & L2 & L3). apply (sibling_local x np _ last); auto. rewrite L1. destruct Fl as (F1 & _). rewrite F1, Ed. auto.
      * intros t' H' E. rewrite (proj2 (siblings_same t1 t' target (ndata x) H1 H' Dt Ft Dp E)). auto.
  - intros t' H' E. rewrite (proj1 (siblings_same t t' target (ndata x) H H' Dt Ft Dp E)). auto.
Qed.

Lemma mp_child_local k x : K k = true -> K (nid x) = true -> local (mp_add_child cfg k x).
Proof.
  intros Kk Kx. split; auto. intros [nd|] Ho; [|exact I]. destruct (Ho nd eq_refl) as (Dn & En & Fn). cbn [else_raise].
  destruct (is_sorted cfg && negb (is_leaf nd)).
  - intros t H. split.
    + destruct (get_last_child cfg t nd) as [last|] eqn:El; [|exact I]. cbn [else_raise].
      destruct (last_child t nd last H Dn Fn El) as (Dl & Fl & Ed & _). apply sorted_local; auto. destruct Fn as (_ & F2 & _). lia.
    + intros t' H' E. rewrite (last_child_same t t' nd H H' Dn Fn E). auto.
  - assert (Fn' := Fn). destruct Fn' as (F1 & F2 & F3). destruct (is_leaf nd).
    + cbv zeta. destruct (_ <? _); [exact I|]. 
      assert (Ep : get_path cfg (m_path nd) (m_depth nd + 1) 1 = m_path nd ++ seg cfg 1).
      { unfold get_path, get_basepath. rewrite Nat.add_sub, <- F1, firstn_all. auto. }
      assert (Ls : length (seg cfg 1) = w) by (apply seg_len; auto; apply maxstep_gt1; auto).
      rewrite Ep. apply (child_local k x _ _ nd); auto; try lia.
      * rewrite firstn_app_le; auto. rewrite F1. nia.
      * rewrite app_length, F1, Ls. nia.
      * apply Forall_app. split; auto. apply seg_digits; auto.
    + intros t H. split.
      * destruct (get_last_child cfg t nd) as [last|] eqn:El; [|exact I]. cbn [else_raise].
        destruct (last_child t nd last H Dn Fn El) as (Dl & Fl & Ed & _).
        destruct (inc_path cfg (m_path last)) as [np|] eqn:Ei; [|exact I]. cbn [or_raise].
        destruct (inc_place last np Fl ltac:(lia) Ei) as (L1 & L2 & L3). apply (child_local k x _ _ last); auto; try lia.
        rewrite L1. destruct Fl as (G1 & _). rewrite G1, Ed, Nat.add_1_r. auto.
      * intros t' H' E. rewrite (last_child_same t t' nd H H' Dn Fn E). auto.
Qed.

Lemma minimal_in l : forall acc r, In r (minimal_removed cfg acc l) -> In r acc \/ In r l.
Proof.
  induction l as [|a l IH]; intros acc r H; cbn [minimal_removed] in H; auto.
  destruct (has_removed_ancestor cfg acc a).
  - apply IH in H. destruct H; auto. right. right. auto.
  - apply IH in H. destruct H as [H|H]; [|right; right; auto]. apply in_app_or in H. destruct H as [H|[<-|[]]]; auto. right. left. auto.
Qed.

Lemma dedup_in l p : In p (dedup_paths l) -> In p l.
Proof.
  induction l as [|a l IH]; cbn [dedup_paths fold_right]; auto. fold (dedup_paths l). destruct (existsb (peq a) (dedup_paths l)); [right; auto|].
  intros [<-|H]; [left; auto|right; auto].
Qed.

Lemma mp_delete_local l : (forall i, In i l -> K i = true) -> local (mp_delete cfg l).
Proof.
  intros Kl t H.
  assert (M : forall r, fits r -> existsb (Nat.eqb (m_pk r)) l = true -> mine r).
  { intros r _ E. apply has_iff in E. right. auto. }
  split.
  - cbv zeta. set (rs := minimal_removed cfg [] _).
    assert (Hr : forall x, In x rs -> D x = true /\ fits x /\ K (m_pk x) = true).
    { intros x Hx. apply minimal_in in Hx. destruct Hx as [[]|Hx]. apply (Permutation_in _ (isort_perm _ _)) in Hx. apply filter_In in Hx. destruct Hx as [Hx Nx].
      assert (Fx := h_valid _ _ _ _ _ _ H x Hx). assert (Dx := home_mine _ _ _ _ _ t x H Hx (M x Fx Nx)). split; auto. split; auto.
      rewrite <- (h_dom _ _ _ _ _ _ H); auto. }
    assert (Dl : local (Delete (deleted_row rs) Commit)).
    { split; [|exact I]. intros r Fr Er. apply existsb_exists in Er. destruct Er as (x & Hx & Er). destruct (Hr x Hx) as (Dx & (F1 & F2 & _) & Kx).
      destruct (is_leaf x).
      - apply Nat.eqb_eq in Er. right. rewrite Er. auto.
      - left. eapply below_dom; eauto; [reflexivity|]. rewrite F1. nia. }
    assert (Dc : forall ps, (forall p, In p ps -> In p (parents_of_removed cfg rs)) -> local (mp_decrease cfg rs ps (Delete (deleted_row rs) Commit))).
    { induction ps as [|p ps IH]; intros Hp; auto. cbn [mp_decrease]. split; [|apply IH; intros; apply Hp; right; auto].
      intros r Er. apply peq_iff in Er. split; auto. intros Fr. split; [|split; [exact Fr|intros Dr; apply (Dtr r); auto]]. left.
      assert (Hi := Hp p (or_introl eq_refl)). apply dedup_in in Hi. apply filter_In in Hi. destruct Hi as [Hi Ne]. apply in_map_iff in Hi. destruct Hi as (x & Ex & Hx).
      destruct (Hr x Hx) as (Dx & Fx & Kx). apply (Dtr x); auto. unfold step0. rewrite Er, <- Ex.
      assert (Dp : 2 <= m_depth x).
      { destruct (le_lt_dec 2 (m_depth x)); auto. exfalso. rewrite <- Ex in Ne. unfold parent_path_of, get_basepath in Ne.
        replace (m_depth x - 1) with 0 in Ne by lia. cbn in Ne. discriminate. }
      apply base_step; auto. }
    apply Dc. auto.
  - intros t' H' E. rewrite (sel_dom mprow m_pk fits D K _ t' H' M), (sel_dom mprow m_pk fits D K _ t H M), E. auto.
Qed.
End Domain.

Theorem mp_different_trees t F calls schedule : stores t F -> ordered (order_by cfg) F ->
  (order_by cfg <> [] -> Forall (call_values (order_by cfg)) calls) -> (forall c, In c calls -> in_tree F c) ->
  NoDup (flat_map new_ids calls) -> (forall i, In i (flat_map new_ids calls) -> ~ In i (ids F)) ->
  (forall i j c d, i <> j -> nth_error calls i = Some c -> nth_error calls j = Some d -> trees_apart F c d) ->
  let W := play m_pk mp_same (all_begin t (map (tx_of cfg) calls)) schedule in
  one_by_one (table_exec cfg) calls t (map fst (w_log W)) = (w_rows W, w_log W) /\ NoDup (map fst (w_log W)) /\
  (stores (w_rows W) (fold_left (sp_call (order_by cfg)) (succeeded calls (w_log W)) F) /\
   ordered (order_by cfg) (fold_left (sp_call (order_by cfg)) (succeeded calls (w_log W)) F)) /\
  (finished W = true -> Permutation (map fst (w_log W)) (seq 0 (length calls))) /\
  exists schedule', finished (play m_pk mp_same W schedule') = true.
Proof.
  intros St Or Va In0 New0 Fr0 Ap0.
  assert (In1 : forall c i, In c calls -> In i (names c) -> In i (ids F)) by (intros c i Hc; apply names_in; auto).
  assert (Ids : forall i, In i (ids F) <-> In i (map m_pk t)) by (intros i; apply (ConcMP.ids_iff cfg t F i); auto).
  assert (Sp : forall a b, m_pk a = m_pk b -> mp_same a b = true) by (intros a b E; unfold mp_same; rewrite E, Nat.eqb_refl; auto).
  apply (trees_serial mprow m_pk mp_same Sp fits path step0 peq peq_iff t F calls) with
    (rel := fun t F => stores t F /\ ordered (order_by cfg) F) (ready := mp_ready cfg); auto.
  - apply (ConcMP.pks_nodup cfg t F); auto.
  - intros r. eapply mp_fits; eauto.
  - intros r q. apply mp_trees. auto.
  - intros t1 c Hc _ _ H1. apply local_local_at; auto. assert (Kn := fun i => keys_name mprow m_pk path step0 peq peq_iff t F calls Ids In1 c i Hc).
    assert (Ne := keys_new mprow m_pk path step0 peq t c).
    assert (Dt := dom_tr mprow m_pk path step0 peq peq_iff t c).
    assert (I := In0 c Hc). destruct c as [|k x| | |l]; try (destruct I; fail); unfold tx_of; cbn [mp_prog].
    + apply mp_child_local; auto; [apply Kn; left; auto|apply Ne; left; auto].
    + apply mp_delete_local; auto.
  - intros t1 c. apply mp_same_call; auto.
  - intros t1 F1 c t2 [S1 O1]. apply mp_result; auto.
  - intros t1 c d t2. apply mp_stays_ready; auto.
  - intros c Hc. split.
    + assert (I := In0 c Hc). destruct c; try (destruct I; fail); discriminate.
    + split; [intros No; assert (V := Va No); rewrite Forall_forall in V; auto|].
      intros i Hi H. apply (Fr0 i); [apply in_flat_map; eauto|]. apply Ids. auto.
Qed.
End MP.

(** ** Ltree *)
Section LT.
Import LTModel LTInv LTReads LTHist.
Variable cfg : lt_cfg.
Hypothesis unsorted : lt_order cfg = [].
Hypothesis label2 : 2 <= label_max cfg.
Notation stores := (stores cfg).

Definition rooted (r : ltrow) : Prop := l_path r <> [].
Definition label0 (r : ltrow) : lpath := firstn 1 (l_path r).

Lemma lt_rooted t F r : stores t F -> In r t -> rooted r.
Proof.
  intros (f & (K & V & P) & _ & _) Hr. apply (Permutation_in _ P) in Hr. apply in_map_iff in Hr. destruct Hr as (x & <- & Hx).
  assert (L := k_len f x K Hx). unfold rooted, mkrow. cbn [l_path]. intros E. rewrite E in L. cbn in L. lia.
Qed.

Lemma lt_trees t F r q : stores t F -> In r t -> In q t -> label0 r = label0 q -> tree_of (l_pk r) F = tree_of (l_pk q) F.
Proof.
  intros (f & (K & V & P) & <- & W) Hr Hq. apply (Permutation_in _ P) in Hr. apply (Permutation_in _ P) in Hq.
  apply in_map_iff in Hr. apply in_map_iff in Hq. destruct Hr as (x & <- & Hx), Hq as (y & <- & Hy). unfold label0, mkrow. cbn [l_path l_pk].
  apply (first_step _ lblt 1 _ idn LTLabel.lblt_irr f x y); auto.
Qed.

Section Domain.
Variable D : ltrow -> bool.
Variable K : nat -> bool.
Hypothesis Dtr : forall r r', D r = true -> label0 r' = label0 r -> D r' = true.
Notation local := (local ltrow l_pk lt_same rooted D K).
Notation home := (home ltrow l_pk rooted D K).
Notation mine := (mine ltrow l_pk D K).

Lemma lt_below a r : D a = true -> rooted a -> ppre (l_path a) (l_path r) = true -> D r = true.
Proof.
  intros Da Ra H. apply ppre_iff in H. destruct H as [z Ez]. apply (Dtr a); auto. unfold label0, rooted in *. rewrite Ez.
  destruct (l_path a); [congruence|]. reflexivity.
Qed.

Lemma lt_children_same t t' nd : home t -> home t' -> D nd = true -> rooted nd -> filter D t' = filter D t -> get_children t' nd = get_children t nd.
Proof.
  intros H H' Dn Rn E. unfold get_children. f_equal.
  assert (M : forall r, rooted r -> ppre (l_path nd) (l_path r) && (length (l_path r) =? length (l_path nd) + 1) = true -> mine r).
  { intros r _ Er. apply andb_true_iff in Er. left. apply (lt_below nd); auto. apply Er. }
  rewrite (sel_dom ltrow l_pk rooted D K _ t' H' M), (sel_dom ltrow l_pk rooted D K _ t H M), E. auto.
Qed.

Lemma lt_insert_local nd x b a l : D nd = true -> rooted nd -> K (nid x) = true ->
  local (or_raise (generate_path (l_path nd) b a l) (lt_insert cfg x)).
Proof.
  intros Dn Rn Kx. unfold generate_path. destruct (generate_label (map last_label l) b a) as [lb|]; [|exact I]. cbn [bind or_raise]. unfold lt_insert.
  destruct (fits_ltree cfg (l_path nd ++ [lb])); [|exact I].
  assert (E : firstn 1 (l_path nd ++ [lb]) = label0 nd) by (unfold label0, rooted in *; destruct (l_path nd); [congruence|reflexivity]).
  split; [apply (Dtr nd); auto|]. split; auto. split; [unfold rooted; cbn; destruct (l_path nd); discriminate|]. split; [|exact I].
  intros r' _ Sm. unfold lt_same in Sm. cbn in Sm. apply orb_true_iff in Sm. destruct Sm as [Sm|Sm].
  - apply Nat.eqb_eq in Sm. right. rewrite <- Sm. auto.
  - apply peq_iff in Sm. left. apply (Dtr nd); auto. unfold label0 at 1. rewrite <- Sm. auto.
Qed.

Lemma lt_child_local k x : K k = true -> K (nid x) = true -> local (lt_add_child cfg k x).
Proof.
  intros Kk Kx. split; auto. intros [nd|] Ho; [|exact I]. destruct (Ho nd eq_refl) as (Dn & En & Rn). cbn [else_raise].
  assert (Cs := fun t t' H H' => lt_children_same t t' nd H H' Dn Rn).
  intros t H. split.
  - destruct (is_leaf t nd); [apply lt_insert_local; auto|]. intros t1 H1. split.
    + destruct (get_last_child t1 nd) as [last|]; [|exact I]. cbn [else_raise]. intros t2 H2. split; [apply lt_insert_local; auto|].
      intros t' H' E. rewrite (Cs t2 t' H2 H' E). auto.
    + intros t' H' E. unfold get_last_child. rewrite (Cs t1 t' H1 H' E). auto.
  - intros t' H' E. unfold is_leaf. rewrite (Cs t t' H H' E). auto.
Qed.

Lemma removed_from l : forall acc p, In p (paths_to_remove l acc) -> In p acc \/ exists r, In r l /\ p = l_path r.
Proof.
  induction l as [|r l IH]; intros acc p H; cbn [paths_to_remove] in H; auto. cbv zeta in H.
  destruct (existsb _ (seq 1 (length (l_path r) - 1))).
  - apply IH in H. destruct H as [H|(q & Hq & E)]; auto. right. exists q. split; auto. right. auto.
  - apply IH in H. destruct H as [H|(q & Hq & E)]; [|right; exists q; split; auto; right; auto].
    destruct (existsb (peq (l_path r)) acc); auto. apply in_app_or in H. destruct H as [H|[<-|[]]]; auto. right. exists r. split; auto. left. auto.
Qed.

Lemma lt_delete_local l : (forall i, In i l -> K i = true) -> local (lt_delete l).
Proof.
  intros Kl t H.
  assert (M : forall r, rooted r -> existsb (Nat.eqb (l_pk r)) l = true -> mine r).
  { intros r _ E. apply has_iff in E. right. auto. }
  split.
  - set (ps := paths_to_remove _ []).
    assert (Hp : forall p, In p ps -> exists x, l_path x = p /\ D x = true /\ rooted x).
    { intros p Hp. apply removed_from in Hp. destruct Hp as [[]|(r & Hr & ->)]. apply (Permutation_in _ (isort_perm _ _)) in Hr. apply filter_In in Hr. destruct Hr as [Hr Nr].
      assert (Rr := h_valid _ _ _ _ _ _ H r Hr). exists r. split; auto. split; auto. eapply home_mine; eauto. }
    destruct ps as [|p0 ps']; [exact I|]. split; [|exact I]. intros r _ Er. apply existsb_exists in Er. destruct Er as (p & Hi & Er).
    destruct (Hp p Hi) as (x & <- & Dx & Rx). left. eapply lt_below; eauto.
  - intros t' H' E. rewrite (sel_dom ltrow l_pk rooted D K _ t' H' M), (sel_dom ltrow l_pk rooted D K _ t H M), E. auto.
Qed.
End Domain.

Theorem lt_different_trees t F calls schedule : stores t F -> (forall c, In c calls -> in_tree F c) ->
  NoDup (flat_map new_ids calls) -> (forall i, In i (flat_map new_ids calls) -> ~ In i (ids F)) ->
  (forall i j c d, i <> j -> nth_error calls i = Some c -> nth_error calls j = Some d -> trees_apart F c d) ->
  let W := play l_pk lt_same (all_begin t (map (lt_tx_of cfg) calls)) schedule in
  one_by_one (lt_call_exec cfg) calls t (map fst (w_log W)) = (w_rows W, w_log W) /\ NoDup (map fst (w_log W)) /\
  stores (w_rows W) (fold_left (sp_call []) (succeeded calls (w_log W)) F) /\
  (finished W = true -> Permutation (map fst (w_log W)) (seq 0 (length calls))) /\
  exists schedule', finished (play l_pk lt_same W schedule') = true.
Proof.
  intros St In0 New0 Fr0 Ap0.
  assert (In1 : forall c i, In c calls -> In i (names c) -> In i (ids F)) by (intros c i Hc; apply names_in; auto).
  assert (Ids : forall i, In i (ids F) <-> In i (map l_pk t)) by (intros i; apply (ConcLT.ids_iff cfg t F i); auto).
  apply (trees_serial ltrow l_pk lt_same lt_same_pk rooted lpath label0 peq peq_iff t F calls) with
    (rel := stores) (ready := lt_ready cfg); auto.
  - apply (ConcLT.stores_ok cfg t F St).
  - intros r. eapply lt_rooted; eauto.
  - intros r q. apply lt_trees. auto.
  - intros t1 c Hc _ _ H1. apply local_local_at; auto; [exact lt_same_pk|]. assert (Kn := fun i => keys_name ltrow l_pk lpath label0 peq peq_iff t F calls Ids In1 c i Hc).
    assert (Ne := keys_new ltrow l_pk lpath label0 peq t c).
    assert (Dt := dom_tr ltrow l_pk lpath label0 peq peq_iff t c).
    assert (I := In0 c Hc). destruct c as [|k x| | |l]; try (destruct I; fail); unfold lt_tx_of; cbn [lt_prog].
    + apply lt_child_local; auto; [apply Kn; left; auto|apply Ne; left; auto].
    + apply lt_delete_local; auto.
  - intros t1 c. apply lt_same_call; auto.
  - intros t1 F1 c t2. apply lt_result; auto.
  - intros t1 c d t2. apply lt_stays_ready; auto.
  - intros c Hc. split.
    + assert (I := In0 c Hc). destruct c; try (destruct I; fail); discriminate.
    + intros i Hi H. apply (Fr0 i); [apply in_flat_map; eauto|]. apply Ids. auto.
Qed.
End LT.
