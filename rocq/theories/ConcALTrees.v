(** Calls of all kinds on adjacency lists: one after another, and in different trees (C74). *)
From Coq Require Import String List Arith Lia Bool ZArith Permutation.
From Verif Require Import Prelude Forest SpecFacts SpecKids CommonModel Order History ConcModel ConcRun ConcAlone ConcLocal ConcCalls ConcTrees.
From Verif Require Import ALModel ALInv ALReads ALHist ConcALModel ConcALAll.
From Verif Require ConcAL ConcDelAL ConcNS ConcNSTrees ConcTreesPath.
Import ListNotations.
Local Open Scope nat_scope.

(** ** One call after another *)
Section Serial.
Variable fuel : nat.
Variable o : ordering.
Notation keyed := (keyed alrow a_pk).

Lemma keyed_reads A (f : al_table -> res A) c : (forall a, keyed (c a)) -> keyed (reads f c).
Proof. intros H t. destruct (f t); cbn; auto. Qed.
Lemma keyed_raise A (r : res A) c : (forall a, keyed (c a)) -> keyed (or_raise r c).
Proof. intros H. destruct r; cbn; auto. Qed.
Lemma keyed_order p target c : (forall s, keyed (c s)) -> keyed (al_new_order o p target c).
Proof.
  intros H. unfold al_new_order. apply keyed_reads. intros [|].
  - apply keyed_reads. auto.
  - apply keyed_reads. intros [m s]. destruct (m =? 0)%Z; auto. split; auto.
Qed.
Lemma keyed_save r : keyed (al_save r).
Proof. intros t. destruct (existsb _ t); cbn; auto. split; auto. intros a E. apply Nat.eqb_eq in E. auto. Qed.
Lemma keyed_new p x : keyed (al_new o p x).
Proof. unfold al_new. destruct (is_sorted o); [cbn; auto|]. apply keyed_reads. cbn. auto. Qed.
Lemma keyed_collect n : forall s c, (forall s, keyed (c s)) -> keyed (al_collect n s c).
Proof. induction n as [|n IH]; intros s c H t; (destruct (map a_pk _); [auto|]); [exact I|]. apply IH. auto. Qed.
Lemma all_keyed c : keyed (al_tx fuel o c).
Proof.
  destruct c as [x|k x|k p x|n q p|l]; cbn [al_tx].
  - apply keyed_new.
  - apply keyed_reads. intros nd. apply keyed_new.
  - apply keyed_reads. intros nd. apply keyed_raise. intros P. cbv zeta. destruct (is_sorted o); [cbn; auto|]. apply keyed_order. cbn. auto.
  - apply keyed_reads. intros nd. apply keyed_reads. intros target. apply keyed_raise. intros P. apply keyed_reads. intros [[[tg parent] P'] so].
    apply keyed_reads. intros [|]; [exact I|]. apply keyed_reads. intros [|]; [exact I|]. cbv zeta.
    destruct P'; try (apply keyed_save); (destruct so as [s|]; [apply keyed_save|]); apply keyed_order; intros s; apply keyed_save.
  - intros t. apply keyed_collect. cbn. auto.
Qed.

Theorem al_all_serial t F calls order : stores o t F -> (o <> [] -> Forall (call_values o) calls) ->
  NoDup (flat_map new_ids calls) -> (forall i, In i (flat_map new_ids calls) -> ~ In i (ids F)) ->
  length t + length (flat_map new_ids calls) + 2 <= fuel ->
  NoDup order -> (forall i, In i order -> i < length calls) ->
  exists schedule, let W := play a_pk al_same (all_begin t (map (al_tx fuel o) calls)) schedule in
    (w_rows W, w_log W) = one_by_one (al_exec o) calls t order /\
    (forall i, i < length calls -> nth_error (w_txs W) i = Some None <-> In i order) /\
    stores o (w_rows W) (fold_left (sp_call o) (succeeded calls (w_log W)) F).
Proof.
  intros St Vs N Fr Hf No Hl. set (known := map a_pk t ++ flat_map new_ids calls).
  assert (Lk : length known + 2 <= fuel) by (unfold known; rewrite app_length, map_length; lia).
  assert (Rd0 : forall c, In c calls -> all_ready o t c).
  { intros c Hc. split.
    - intros k Hk H. apply (Fr k); [apply in_flat_map; eauto|]. apply (ConcAL.ids_iff o t F k St). auto.
    - intros No'. specialize (Vs No'). rewrite Forall_forall in Vs. auto. }
  assert (Rd : forall i c, In i order -> nth_error calls i = Some c -> In c calls /\ all_ready o t c).
  { intros i c Hi Hc. apply nth_error_In in Hc. auto. }
  assert (Inc : forall c, In c calls -> incl (new_ids c) known) by (intros c Hc i Hi; apply in_or_app; right; apply in_flat_map; eauto).
  assert (Eo : one_by_one (ConcAlone.alone alrow a_pk al_same) (map (al_tx fuel o) calls) t order = one_by_one (al_exec o) calls t order).
  { apply (one_by_one_same alrow call a_pk al_same (al_exec o) (al_tx fuel o) (fun t => (exists F, stores o t F) /\ room known t) (fun t c => In c calls /\ all_ready o t c) new_apart); auto.
    - intros t1 c [[F1 S1] R1] [_ R]. apply (all_same_call fuel o t1 F1); auto. assert (X := room_length o known t1 F1 S1 R1). lia.
    - intros t1 c t2 [[F1 S1] R1] [Hc R] E. split; [eexists; eapply exec_result; eauto|]. eapply exec_room; eauto.
    - intros t1 c d t2 [[F1 S1] R1] [Hc Rc] [Hd Rd'] A E. split; auto. apply (exec_stays_ready o t1 F1 c d t2); auto.
    - apply calls_apart. auto.
    - split; [eauto|]. intros i Hi. apply in_or_app. auto. }
  assert (X : stores o (fst (one_by_one (al_exec o) calls t order))
    (fold_left (sp_call o) (succeeded calls (snd (one_by_one (al_exec o) calls t order))) F)).
  { apply (one_by_one_rel alrow calls N (al_exec o) o (stores o) (all_ready o)); auto.
    - intros t1 F1 c t2. apply exec_result.
    - intros t1 c d t2 [F1 S1]. apply (exec_stays_ready o t1 F1). auto.
    - intros i c Hi Hc. apply (Rd i c); auto. }
  assert (Nt : NoDup (map a_pk t)) by (eapply ConcDelAL.al_keys; eauto).
  rewrite <- Eo in *. destruct (serial_begin alrow a_pk al_same al_same_pk t (map (al_tx fuel o) calls) order) as (s & Hs); auto.
  - apply Forall_forall. intros p Hp. apply in_map_iff in Hp. destruct Hp as (c & <- & _). apply all_keyed.
  - rewrite map_length. auto.
  - exists s. rewrite map_length in Hs. cbv zeta in *. destruct Hs as [H1 H2]. split; [exact H1|]. split; [exact H2|]. rewrite <- H1 in X. exact X.
Qed.
End Serial.

(** ** What the calls read and write *)
Section Domain.
Variable fuel : nat.
Variable o : ordering.
Variable K : nat -> bool.

(** A row belongs to the domain of its parent, a root to its own. *)
Definition by_parent (r : alrow) : bool := match a_parent r with Some p => K p | None => K (a_pk r) end.
Notation D := by_parent.
Notation local := (local alrow a_pk al_same (fun _ => True) D K).
Notation local_at := (local_at alrow a_pk al_same (fun _ => True) D K).
Notation home := (home alrow a_pk (fun _ => True) D K).
Notation mine := (mine alrow a_pk D K).

Definition here {A} (f : al_table -> A) (t : al_table) : Prop := forall t', home t' -> filter D t' = filter D t -> f t' = f t.

Lemma here_filter (s : alrow -> bool) t : home t -> (forall r, s r = true -> mine r) -> here (filter s) t.
Proof.
  intros Ht M t' H' E. assert (M' : forall r, True -> s r = true -> mine r) by auto.
  rewrite (sel_dom alrow a_pk (fun _ => True) D K s t' H' M'), (sel_dom alrow a_pk (fun _ => True) D K s t Ht M'), E. auto.
Qed.
Lemma reads_at A (f : al_table -> res A) c t : here f t -> (forall a, f t = Ok a -> local_at (filter D t) (c a)) -> local_at (filter D t) (reads f c).
Proof.
  intros S L t1 H1 E1. rewrite (S t1 H1 E1). split.
  - destruct (f t); cbn [or_raise ConcLocal.local_at]; auto.
  - intros t2 H2 E2. rewrite (S t2 H2 E2). auto.
Qed.
Lemma at_local p t : home t -> local p -> local_at (filter D t) p.
Proof. intros Ht L. apply local_local_at; auto. exact al_same_pk. Qed.

Lemma mine_kid p r : K p = true -> par_eqb (a_parent r) (Some p) = true -> D r = true.
Proof. intros Kp E. apply par_eqb_spec in E. unfold by_parent. rewrite E. auto. Qed.

(** *** Statements that write *)
Lemma insert_local r : D r = true -> K (a_pk r) = true -> local (Insert r Commit).
Proof.
  intros Dr Kr. split; auto. split; auto. split; auto. split; [|exact I]. intros r' _ S. apply Nat.eqb_eq in S. right. rewrite <- S. auto.
Qed.
Lemma save_local r : D r = true -> K (a_pk r) = true -> local (al_save r).
Proof.
  intros Dr Kr. assert (M : forall a, True -> (a_pk a =? a_pk r) = true -> mine a) by (intros a _ E; apply Nat.eqb_eq in E; right; congruence).
  intros t H. split.
  - destruct (existsb _ t); [|apply insert_local; auto]. split; [|exact I]. intros a E. split; [apply Nat.eqb_eq in E; auto|]. auto.
  - intros t' H' E. rewrite (exists_dom alrow a_pk (fun _ => True) D K _ t' H' M), (exists_dom alrow a_pk (fun _ => True) D K _ t H M), E. auto.
Qed.

Section At.
Variable t : al_table.
Hypothesis Ht : home t.

Lemma here_pk k : K k = true -> here (fun t => get_by_pk t k) t.
Proof.
  intros Kk t' H' E. unfold get_by_pk. rewrite (key_dom alrow a_pk (fun _ => True) D K k t' H' Kk), (key_dom alrow a_pk (fun _ => True) D K k t Ht Kk), E. auto.
Qed.
Lemma pk_row k r : K k = true -> get_by_pk t k = Ok r -> In r t /\ D r = true /\ a_pk r = k.
Proof.
  intros Kk E. unfold get_by_pk in E. destruct (filter _ t) as [|a l] eqn:El; [discriminate|]. injection E as ->.
  destruct (key_row alrow a_pk (fun _ => True) D K k t r Ht Kk) as (A & B & C & _); [rewrite El; auto|]. auto.
Qed.
Lemma row_key r : In r t -> D r = true -> K (a_pk r) = true.
Proof. intros Hr Dr. rewrite <- (h_dom _ _ _ _ _ _ Ht r Hr). auto. Qed.

Lemma here_kids p : K p = true -> here (fun t => kids o t (Some p)) t.
Proof. intros Kp t' H' E. unfold kids. f_equal. apply here_filter; auto. intros r Er. left. eapply mine_kid; eauto. Qed.
Lemma kids_row p r : K p = true -> In r (kids o t (Some p)) -> In r t /\ D r = true /\ a_parent r = Some p.
Proof.
  intros Kp H. apply (Permutation_in _ (isort_perm _ _)) in H. apply filter_In in H. destruct H as [H E]. split; auto. split; [eapply mine_kid; eauto|].
  apply par_eqb_spec. auto.
Qed.
Lemma here_has k : K k = true -> here (fun t => has_children t k) t.
Proof.
  intros Kk t' H' E. assert (M : forall r : alrow, True -> par_eqb (a_parent r) (Some k) = true -> mine r) by (intros r _ Er; left; eapply mine_kid; eauto).
  unfold has_children. rewrite (exists_dom alrow a_pk (fun _ => True) D K _ t' H' M), (exists_dom alrow a_pk (fun _ => True) D K _ t Ht M), E. auto.
Qed.
Lemma here_next p : K p = true -> here (fun t => next_sib t (Some p)) t.
Proof.
  intros Kp t' H' E. unfold next_sib. rewrite (here_filter (fun r => par_eqb (a_parent r) (Some p)) t Ht) with (t' := t'); auto.
  intros r Er. left. eapply mine_kid; eauto.
Qed.

Lemma here_chain n : forall r, In r t -> D r = true -> here (fun t => up_chain n t r) t.
Proof.
  induction n as [|n IH]; intros r Hr Dr t' H' E; [reflexivity|]. cbn [up_chain]. destruct (a_parent r) as [p|] eqn:Ep; auto.
  assert (Kp : K p = true) by (unfold by_parent in Dr; rewrite Ep in Dr; auto). rewrite (here_pk p Kp t' H' E).
  destruct (get_by_pk t p) as [q|] eqn:Eq; [|reflexivity]. cbn [bind]. destruct (pk_row p q Kp Eq) as (Hq & Dq & _).
  rewrite (IH q Hq Dq t' H' E). auto.
Qed.

Lemma collect_ext {A B} (f g : A -> res (list B)) l : (forall x, In x l -> f x = g x) -> collect f l = collect g l.
Proof. induction l as [|x l IH]; intros H; cbn; auto. rewrite (H x (or_introl eq_refl)), IH; auto. intros y Hy. apply H. right. auto. Qed.

Lemma here_tree m n : forall p nhc d, K p = true -> here (fun t => tree_rec o n t (Some p) nhc d m) t.
Proof.
  induction n as [|n IH]; intros p nhc d Kp t' H' E; [reflexivity|]. cbn [tree_rec]. destruct (too_deep m d); auto. rewrite (here_kids p Kp t' H' E).
  apply collect_ext. intros a Ha.
  assert (Ka : K (a_pk a) = true).
  { destruct nhc; [|destruct Ha]. destruct (kids_row p a Kp Ha) as (Ha' & Da & _). apply row_key; auto. }
  rewrite (here_has (a_pk a) Ka t' H' E), (IH (a_pk a) _ _ Ka t' H' E). auto.
Qed.

Lemma here_leaf r : K (a_pk r) = true -> here (fun t => is_leaf o t r) t.
Proof. intros Kr t' H' E. unfold is_leaf, get_children. rewrite (here_kids _ Kr t' H' E). auto. Qed.

Lemma here_descendant x r : In r t -> D r = true -> here (fun t => al_descendant fuel o t x r) t.
Proof.
  intros Hr Dr t' H' E. assert (Kr := row_key r Hr Dr). unfold al_descendant, al_below. rewrite (here_chain fuel r Hr Dr t' H' E), (here_leaf r Kr t' H' E).
  destruct (match a_parent r with Some _ => _ | None => _ end) as [d|]; [|reflexivity]. cbn [bind]. rewrite (here_tree None fuel _ _ _ Kr t' H' E). auto.
Qed.

(** *** A node that is not a root *)
Definition spot (r : alrow) : Prop := In r t /\ D r = true /\ a_parent r <> None.
Lemma spot_parent r : spot r -> exists p, a_parent r = Some p /\ K p = true.
Proof. intros (_ & Dr & N). unfold by_parent in Dr. destruct (a_parent r) as [p|]; [eauto|congruence]. Qed.

Lemma here_siblings r : spot r -> here (fun t => get_siblings o t r) t.
Proof. intros S t' H' E. destruct (spot_parent r S) as (p & Ep & Kp). unfold get_siblings. rewrite Ep. apply (here_kids p Kp t' H' E). Qed.

Lemma order_at p target c : spot target ->
  (forall s t1, home t1 -> local_at (filter D t1) (c s)) -> local_at (filter D t) (al_new_order o p target c).
Proof.
  intros S L. assert (Hs := here_siblings target S). destruct (spot_parent target S) as (q & Eq & Kq). unfold al_new_order. apply reads_at.
  { intros t' H' E. unfold is_target_pos_the_last_sibling, get_last_sibling. rewrite (Hs t' H' E). auto. }
  intros [|] _.
  - apply reads_at; [intros t' H' E; unfold get_last_sibling; rewrite (Hs t' H' E); auto|]. auto.
  - apply reads_at; [intros t' H' E; unfold al_hole; rewrite (Hs t' H' E); auto|]. intros [m s] _. destruct (m =? 0)%Z; auto.
    assert (U : forall r, (m <=? a_sib r)%Z && par_eqb (a_parent r) (a_parent target) = true ->
      a_pk (inc_sib r) = a_pk r /\ (True -> mine r /\ True /\ (D r = true -> D (inc_sib r) = true))).
    { intros r E. apply andb_true_iff in E. destruct E as [_ E]. rewrite Eq in E. split; auto. intros _. split; [left; eapply mine_kid; eauto|]. auto. }
    split; auto. destruct (map_home alrow a_pk (fun _ => True) D K _ inc_sib t Ht U) as [A B]. rewrite <- B. auto.
Qed.

Lemma root_at x : is_sorted o = true -> K (nid x) = true -> local_at (filter D t) (al_new o None x).
Proof. intros So Kx. unfold al_new. rewrite So. apply at_local; auto. apply insert_local; auto. Qed.
Lemma new_at p x : K p = true -> K (nid x) = true -> local_at (filter D t) (al_new o (Some p) x).
Proof.
  intros Kp Kx. unfold al_new. destruct (is_sorted o).
  - apply at_local; auto. apply insert_local; auto.
  - apply reads_at; [intros t' H' E; rewrite (here_next p Kp t' H' E); auto|]. intros s _. apply at_local; auto. apply insert_local; auto.
Qed.
Lemma child_at k x : K k = true -> K (nid x) = true -> local_at (filter D t) (al_add_child_by o k x).
Proof.
  intros Kk Kx. apply reads_at; [apply here_pk; auto|]. intros nd En. destruct (pk_row k nd Kk En) as (_ & _ & ->). apply new_at; auto.
Qed.
Lemma sibling_at k p x : K k = true -> K (nid x) = true -> is_sorted o = true \/ (forall r, In r t -> a_pk r = k -> a_parent r <> None) ->
  local_at (filter D t) (al_add_sibling o k p x).
Proof.
  intros Kk Kx N. apply reads_at; [apply here_pk; auto|]. intros nd En. destruct (pk_row k nd Kk En) as (Hn & Dn & Pn).
  destruct (prepare_pos_add (is_sorted o) p) as [P|e]; [|exact I]. cbn [or_raise]. cbv zeta.
  assert (L : forall s, local (Insert (mkAL (nid x) (a_parent nd) s (ndata x)) Commit)).
  { intros s. apply insert_local; auto. unfold by_parent in *. cbn. destruct (a_parent nd); auto. }
  destruct (is_sorted o); [apply at_local; auto|]. destruct N as [N|N]; [discriminate|].
  assert (S : spot nd) by (split; auto). apply order_at; auto. intros s t1 H1. apply at_local; auto.
Qed.

Lemma sorted_pos p P : is_sorted o = true -> prepare_pos_move (is_sorted o) p = Ok P -> P = SortedSibling \/ P = SortedChild.
Proof. intros ->. apply prepare_move_sorted. Qed.

Lemma target_at nd target P : In target t -> D target = true -> match P with FirstChild | LastChild | SortedChild | SortedSibling => True | _ => a_parent target <> None end ->
  here (fun t => move_target o t nd target P) t /\
  forall tg parent P' so, move_target o t nd target P = Ok (tg, parent, P', so) -> In tg t /\ D tg = true /\
    (forall q, parent = Some q -> K (a_pk q) = true) /\ (a_parent tg = None -> P' = SortedSibling \/ (so <> None /\ a_pk nd <> a_pk tg)).
Proof.
  intros Hq Dq N. assert (Kq := row_key target Hq Dq). split.
  - intros t' H' E. unfold move_target, get_last_child, get_children. rewrite (here_leaf target Kq t' H' E), (here_kids _ Kq t' H' E). auto.
  - assert (X : forall c, get_last_child o t target = Some c -> In c t /\ D c = true /\ a_parent c = Some (a_pk target)).
    { intros c E. apply ConcTreesPath.last_opt_In in E. apply (kids_row (a_pk target)); auto. }
    intros tg parent P' so. unfold move_target.
    destruct P; try (intros E; injection E as <- <- <- <-; split; [auto|]; split; [auto|]; split; [congruence|intros; auto; congruence]);
      (destruct (a_pk nd =? a_pk target) eqn:Ek; [discriminate|]); apply Nat.eqb_neq in Ek; (destruct (negb (is_leaf o t target));
      [destruct (get_last_child o t target) as [c|]; [|discriminate]|]); intros E; injection E as <- <- <- <-;
      try (destruct (X c eq_refl) as (X1 & X2 & X3); split; [auto|]; split; [auto|]; split; [congruence|intros; congruence]);
      (split; [auto|]; split; [auto|]; split; [intros q0 E0; injection E0 as <-; auto|]; intros _); auto; right; split; auto; discriminate.
Qed.

Lemma move_at n q p : K n = true -> K q = true ->
  is_sorted o = true \/ In p ConcNSTrees.child_positions \/ (forall r, In r t -> a_pk r = q -> a_parent r <> None) ->
  local_at (filter D t) (al_move fuel o n q p).
Proof.
  intros Kn Kq B. apply reads_at; [apply here_pk; auto|]. intros nd En. destruct (pk_row n nd Kn En) as (Hn & Dn & Pn).
  apply reads_at; [apply here_pk; auto|]. intros target Eq. destruct (pk_row q target Kq Eq) as (Hq & Dq & Pq).
  destruct (prepare_pos_move (is_sorted o) p) as [P|e] eqn:EP; [|exact I]. cbn [or_raise].
  destruct (target_at nd target P Hq Dq) as [T1 T2].
  { destruct B as [B|[B|B]].
    - destruct (sorted_pos p P B EP) as [->| ->]; exact I.
    - assert (X := ConcNSTrees.child_positions_pos _ _ _ B EP). destruct P; try discriminate; exact I.
    - destruct P; auto. }
  apply reads_at; auto. intros [[[tg parent] P'] so] Et. destruct (T2 _ _ _ _ Et) as (Htg & Dtg & Pt & Rt).
  apply reads_at; [apply here_descendant; auto|]. intros [|] _; [exact I|].
  assert (Up : forall s, local (al_save (mkAL (a_pk nd) (match parent with Some q => Some (a_pk q) | None => a_parent tg end) s (a_data nd)))).
  { intros s. apply save_local; [|cbn; rewrite Pn; auto]. unfold by_parent in *. cbn. destruct parent as [q'|]; auto. destruct (a_parent tg); auto. rewrite Pn. auto. }
  assert (Sg : so = None -> P' <> SortedSibling -> spot tg).
  { intros -> N'. split; auto. split; auto. intros E. destruct (Rt E) as [X|[X _]]; congruence. }
  apply reads_at.
  { intros t' H' E. f_equal. unfold move_is_noop. destruct (a_pk nd =? a_pk tg) eqn:Ek; auto. cbn [andb]. apply Nat.eqb_eq in Ek.
    destruct (a_parent tg) as [pp|] eqn:Epp.
    - assert (S : spot tg) by (split; auto; split; auto; congruence). unfold get_last_sibling, get_first_sibling. rewrite (here_siblings tg S t' H' E). auto.
    - destruct (Rt eq_refl) as [->|[_ X]]; [auto|congruence]. }
  intros [|] _; [exact I|]. cbv zeta. destruct P'; try (apply at_local; auto; fail);
    (destruct so as [s|]; [apply at_local; auto|]); (apply order_at; [apply Sg; [auto|discriminate]|]); intros s t1 H1; apply at_local; auto.
Qed.

Lemma collect_at n : forall s, (forall k, In k s -> K k = true) ->
  local_at (filter D t) (al_collect n s (fun s => Delete (fun r => in_pks s (a_pk r)) Commit)).
Proof.
  assert (Fin : forall s, (forall k, In k s -> K k = true) -> local_at (filter D t) (Delete (fun r => in_pks s (a_pk r)) Commit)).
  { intros s Ks. split; [|exact I]. intros r _ E. apply in_pks_spec in E. right. auto. }
  induction n as [|n IH]; intros s Ks; cbn [al_collect]; intros t1 H1 E1;
    set (sel := fun r => negb (in_pks s (a_pk r)) && match a_parent r with Some p => in_pks s p | None => false end);
    (assert (M : forall r, sel r = true -> D r = true);
     [intros r E; unfold sel in E; apply andb_true_iff in E; destruct E as [_ E]; unfold by_parent; destruct (a_parent r); [|discriminate]; apply in_pks_spec in E; auto|]);
    (assert (Es : forall u, home u -> filter D u = filter D t -> filter sel u = filter sel t) by (intros u Hu Eu; apply here_filter; auto; intros r E; left; auto));
    (split; [|intros t2 H2 E2; rewrite (Es t1 H1 E1), (Es t2 H2 E2); auto]); rewrite (Es t1 H1 E1);
    (destruct (map a_pk (filter sel t)) as [|k new] eqn:En; [apply Fin; auto|]).
  - exact I.
  - apply IH. intros i Hi. apply in_app_or in Hi. destruct Hi as [Hi|Hi]; auto. rewrite <- En in Hi. apply in_map_iff in Hi. destruct Hi as (r & <- & Hr).
    apply filter_In in Hr. destruct Hr as [Hr E]. apply row_key; auto.
Qed.
Lemma delete_at l : (forall i, In i l -> K i = true) -> local_at (filter D t) (al_delete_by fuel l).
Proof.
  intros Kl t1 H1 E1.
  assert (M : forall r, existsb (Nat.eqb (a_pk r)) l = true -> mine r) by (intros r E; apply has_iff in E; right; auto).
  assert (Es : forall u, home u -> filter D u = filter D t -> filter (fun r => existsb (Nat.eqb (a_pk r)) l) u = filter (fun r => existsb (Nat.eqb (a_pk r)) l) t)
    by (intros u Hu Eu; apply here_filter; auto).
  split; [|intros t2 H2 E2; rewrite (Es t1 H1 E1), (Es t2 H2 E2); auto]. rewrite (Es t1 H1 E1). apply collect_at.
  intros k Hk. apply in_map_iff in Hk. destruct Hk as (r & <- & Hr). apply filter_In in Hr. destruct Hr as [Hr E]. apply has_iff in E. auto.
Qed.
End At.
End Domain.

(** ** The calls in different trees *)
Lemma child_tree F : forall p l i, wf_ids F -> children_of p F = Some l -> In i (ids l) -> tree_of i F = tree_of p F.
Proof.
  assert (Cin : forall F p l, children_of p F = Some l -> In p (ids F) /\ incl (ids l) (ids F)).
  { clear F; intros F; induction F as [|a k IHk r IHr]; intros p l; cbn [children_of]; [discriminate|].
    unfold ids in *. cbn [preorder map]. rewrite map_app. destruct (nid a =? p) eqn:E.
    - intros X. injection X as <-. apply Nat.eqb_eq in E. split; [left; auto|]. intros i Hi. right. apply in_or_app. auto.
    - destruct (children_of p k) as [l'|] eqn:Ek.
      + intros X. injection X as ->. destruct (IHk p l Ek) as [A B]. split; [right; apply in_or_app; auto|]. intros i Hi. right. apply in_or_app. left. apply B. auto.
      + intros X. destruct (IHr p l X) as [A B]. split; [right; apply in_or_app; auto|]. intros i Hi. right. apply in_or_app. right. apply B. auto. }
  induction F as [|a k _ r IH]; intros p l i W; cbn [children_of]; [discriminate|].
  assert (W' := W). unfold wf_ids, ids in W'. cbn [preorder map] in W'. rewrite map_app in W'. apply NoDup_cons_iff in W'. destruct W' as [Wa W'].
  apply NoDup_app_iff in W'. destruct W' as (_ & Wr & Wd). cbn [tree_of].
  assert (G : forall j, In j (nid a :: ids k) -> existsb (Nat.eqb j) (nid a :: ids k) = true) by (intros j; apply has_iff).
  destruct (nid a =? p) eqn:E.
  - intros X Hi. injection X as <-. apply Nat.eqb_eq in E. rewrite (G i) by (right; auto). rewrite (G p) by (left; auto). auto.
  - destruct (children_of p k) as [l'|] eqn:Ek.
    + intros X Hi. injection X as ->. destruct (Cin k p l Ek) as [A B]. rewrite (G i) by (right; auto). rewrite (G p) by (right; auto). auto.
    + intros X Hi. destruct (Cin r p l X) as [A B].
      assert (No : forall j, In j (ids r) -> existsb (Nat.eqb j) (nid a :: ids k) = false).
      { intros j Hj. apply not_true_iff_false. rewrite has_iff. intros [<-|H]; [apply Wa; apply in_or_app; right; exact Hj|]. apply (Wd j); auto. }
      rewrite (No i) by auto. rewrite (No p) by auto. eapply IH; eauto.
Qed.

Section Trees.
Variable fuel : nat.
Variable o : ordering.
Notation below_roots := ConcNSTrees.below_roots.
Notation child_positions := ConcNSTrees.child_positions.

Lemma parent_tree t F r p : stores o t F -> In r t -> a_parent r = Some p -> In p (ids F) /\ tree_of (a_pk r) F = tree_of p F.
Proof.
  intros St Hr Ep. split.
  - destruct (ConcDelAL.parent_row o t F r p St Hr Ep) as (q & Hq & <-). apply (ConcAL.ids_iff o t F _ St). apply in_map. auto.
  - destruct St as (W & _ & so & Fit & _). destruct (fits_pk so t F W Fit r Hr) as (_ & _ & Hk & _). rewrite Ep in Hk.
    destruct (kl_inv _ _ _ Hk) as (l & E & Ha & _). cbn [kids_of] in E. apply (child_tree F p l); auto. apply roots_ids. apply (in_map nid) in Ha. exact Ha.
Qed.

(** Without node_order_by the node at the side of which the call adds or moves is below a root. *)
Definition deep (t : al_table) (c : call) : Prop :=
  match c with
  | CAddRoot _ => is_sorted o = true
  | CAddSibling k _ _ => is_sorted o = true \/ (forall r, In r t -> a_pk r = k -> a_parent r <> None)
  | CMove _ q p => is_sorted o = true \/ In p child_positions \/ (forall r, In r t -> a_pk r = q -> a_parent r <> None)
  | _ => True
  end.

Lemma deep0 t F c : stores o t F -> (o = [] -> below_roots F c) -> deep t c.
Proof.
  intros St B0.
  assert (G : forall k, ~ In k (map nid (roots F)) -> forall r, In r t -> a_pk r = k -> a_parent r <> None).
  { intros k N r Hr E Ep. destruct St as (W & _ & so & Fit & _). destruct (fits_pk so t F W Fit r Hr) as (_ & _ & Hk & _). rewrite Ep in Hk.
    destruct (kl_inv _ _ _ Hk) as (l & El & Ha & _). cbn [kids_of] in El. injection El as <-. apply N. rewrite <- E. apply (in_map nid) in Ha. exact Ha. }
  unfold deep, is_sorted in *. destruct o as [|o1 o2]; [|destruct c; auto]. assert (B := B0 eq_refl).
  destruct c as [x|k x|k p x|n q p|l]; cbn in *; auto.
  - right. apply G. tauto.
  - right. destruct B as (_ & _ & [B|B]); [auto|]. right. apply G. auto.
Qed.

(** The keys of a call: its new nodes and the nodes of the trees of the nodes it names. *)
Definition opt_eqb (a b : option nat) : bool := match a, b with Some a, Some b => a =? b | None, None => true | _, _ => false end.
Lemma opt_eqb_iff a b : opt_eqb a b = true <-> a = b.
Proof. destruct a, b; cbn; rewrite ?Nat.eqb_eq; split; congruence. Qed.
Definition tree_keys (F : forest node) (c : call) (k : nat) : bool :=
  existsb (Nat.eqb k) (new_ids c) || (existsb (Nat.eqb k) (ids F) && existsb (fun i => opt_eqb (tree_of i F) (tree_of k F)) (names c)).
Lemma tree_keys_iff F c k : tree_keys F c k = true <-> In k (new_ids c) \/ (In k (ids F) /\ exists i, In i (names c) /\ tree_of i F = tree_of k F).
Proof.
  unfold tree_keys. rewrite orb_true_iff, andb_true_iff, !has_iff, existsb_exists. split; (intros [H|(H & i & Hi & E)]; [auto|right; split; auto; exists i; split; auto; apply opt_eqb_iff; auto]).
Qed.

Theorem al_all_different_trees t F calls schedule : stores o t F -> (o <> [] -> Forall (call_values o) calls) -> (forall c i, In c calls -> In i (names c) -> In i (ids F)) -> (o = [] -> forall c, In c calls -> below_roots F c) ->
  NoDup (flat_map new_ids calls) -> (forall i, In i (flat_map new_ids calls) -> ~ In i (ids F)) ->
  length t + length (flat_map new_ids calls) + 2 <= fuel ->
  (forall i j c d, i <> j -> nth_error calls i = Some c -> nth_error calls j = Some d -> trees_apart F c d) ->
  let W := play a_pk al_same (all_begin t (map (al_tx fuel o) calls)) schedule in
  one_by_one (al_exec o) calls t (map fst (w_log W)) = (w_rows W, w_log W) /\ NoDup (map fst (w_log W)) /\
  stores o (w_rows W) (fold_left (sp_call o) (succeeded calls (w_log W)) F) /\
  (finished W = true -> Permutation (map fst (w_log W)) (seq 0 (length calls))) /\
  exists schedule', finished (play a_pk al_same W schedule') = true.
Proof.
  intros St Vs In1 B0 New0 Fr0 Hf Ap0 W.
  assert (Ids : forall i, In i (ids F) <-> In i (map a_pk t)) by (intros i; apply (ConcAL.ids_iff o t F i); auto).
  assert (Nt : NoDup (map a_pk t)) by (eapply ConcDelAL.al_keys; eauto).
  set (K := tree_keys F). set (D := fun c => by_parent (K c)). set (known := map a_pk t ++ flat_map new_ids calls).
  assert (Lk : length known + 2 <= fuel) by (unfold known; rewrite app_length, map_length; lia).
  assert (Inc : forall c, In c calls -> incl (new_ids c) known) by (intros c Hc i Hi; apply in_or_app; right; apply in_flat_map; eauto).
  assert (Kn : forall c i, In c calls -> In i (names c) -> K c i = true) by (intros c i Hc Hi; apply tree_keys_iff; right; split; eauto).
  assert (Ne : forall c i, In i (new_ids c) -> K c i = true) by (intros c i Hi; apply tree_keys_iff; auto).
  assert (Nn : forall c i, In c calls -> In i (new_ids c) -> ~ In i (ids F)) by (intros c i Hc Hi; apply Fr0; apply in_flat_map; eauto).
  assert (Home : forall c, In c calls -> home alrow a_pk (fun _ => True) (D c) (K c) t).
  { intros c Hc. split; auto. intros r Hr. unfold D, by_parent. destruct (a_parent r) as [p|] eqn:Ep; auto.
    destruct (parent_tree t F r p St Hr Ep) as [Hp Et]. assert (Hi : In (a_pk r) (ids F)) by (apply Ids, in_map; auto).
    apply eq_true_iff_eq. unfold K. rewrite !tree_keys_iff. split; (intros [H|(H & i & Hi' & E)]; [exfalso; apply (Nn c _ Hc H); auto|right; split; auto; exists i; split; auto; congruence]). }
  assert (Kap : forall i j c d k, i <> j -> nth_error calls i = Some c -> nth_error calls j = Some d -> K c k = true -> K d k = true -> False).
  { intros i j c d k N Hi Hj K1 K2. apply tree_keys_iff in K1. apply tree_keys_iff in K2. assert (Hc := nth_error_In _ _ Hi). assert (Hd := nth_error_In _ _ Hj).
    destruct K1 as [K1|(K1 & x & Hx & Ex)], K2 as [K2|(K2 & y & Hy & Ey)].
    - exact (calls_apart calls New0 i j c d N Hi Hj k K1 K2).
    - exact (Nn c k Hc K1 K2).
    - exact (Nn d k Hd K2 K1).
    - apply (Ap0 i j c d N Hi Hj x y Hx Hy). congruence. }
  assert (Apart : forall i j c d, i <> j -> nth_error calls i = Some c -> nth_error calls j = Some d -> apart alrow call D K c d).
  { intros i j c d N Hi Hj. split.
    - intros r H. unfold D, by_parent in *. destruct (a_parent r); apply not_true_iff_false; intros H'; eapply Kap; eauto.
    - intros k H. apply not_true_iff_false. intros H'. eapply Kap; eauto. }
  set (fine := fun u : al_table => ((exists G, stores o u G) /\ room known u) /\ forall c, In c calls -> home alrow a_pk (fun _ => True) (D c) (K c) u).
  set (ready := fun (u : al_table) c => all_ready o u c /\ deep u c).
  assert (Same : forall u c, fine u -> ready u c -> ConcAlone.alone alrow a_pk al_same u (al_tx fuel o c) = al_exec o u c).
  { intros u c [[[G Su] Ru] _] [R _]. apply (all_same_call fuel o u G); auto. assert (X := room_length o known u G Su Ru). lia. }
  assert (Starts : forall u c, In c calls -> fine u -> ready u c -> home alrow a_pk (fun _ => True) (D c) (K c) u ->
    local_at alrow a_pk al_same (fun _ => True) (D c) (K c) (filter (D c) u) (al_tx fuel o c)).
  { intros u c Hc _ [_ Dp] H. assert (Kc := fun i => Kn c i Hc). assert (Nc := Ne c). unfold D in *.
    destruct c as [x|k x|k p x|n q p|l]; cbn [al_tx].
    - apply root_at; auto. apply Nc; left; auto.
    - apply child_at; auto; [apply Kc; left; auto|apply Nc; left; auto].
    - apply sibling_at; auto; [apply Kc; left; auto|apply Nc; left; auto].
    - apply move_at; auto; [apply Kc; left; auto|apply Kc; right; left; auto].
    - apply delete_at; auto. }
  assert (Other : forall u c d u', In c calls -> In d calls -> fine u -> ready u c -> apart alrow call D K c d ->
    ConcAlone.alone alrow a_pk al_same u (al_tx fuel o c) = Ok u' -> home alrow a_pk (fun _ => True) (D d) (K d) u' /\ filter (D d) u' = filter (D d) u).
  { intros u c d u' Hc Hd Fu Rc [A B] E.
    apply (alone_other alrow a_pk al_same al_same_pk (fun _ => True) (D c) (D d) (K c) (K d) A B (al_tx fuel o c) u); auto; try (apply Fu; auto). apply Starts; auto. apply Fu; auto. }
  assert (Sf : forall u c u', In c calls -> fine u -> ready u c -> ConcAlone.alone alrow a_pk al_same u (al_tx fuel o c) = Ok u' -> fine u').
  { intros u c u' Hc Fu Rc E. split.
    - rewrite (Same u c Fu Rc) in E. destruct Fu as [[[G Su] Ru] _]. split; [eexists; apply (exec_result o u G c u'); auto; apply Rc|].
      apply (exec_room o known u G c u'); auto. apply Rc.
    - intros d Hd. destruct (In_nth_error _ _ Hc) as [i Ei]. destruct (In_nth_error _ _ Hd) as [j Ej].
      destruct (Nat.eq_dec i j) as [->|N].
      + assert (c = d) as <- by congruence. apply (alone_home alrow a_pk al_same al_same_pk (fun _ => True) (D c) (K c) (al_tx fuel o c) u); auto; try (apply Fu; auto). apply Starts; auto. apply Fu; auto.
      + apply (Other u c d u'); auto. apply (Apart i j); auto. }
  assert (Sr : forall u c d u', In c calls -> In d calls -> fine u -> ready u c -> ready u d -> apart alrow call D K c d ->
    ConcAlone.alone alrow a_pk al_same u (al_tx fuel o c) = Ok u' -> ready u' d).
  { intros u c d u' Hc Hd Fu Rc [[Nd Vd] Dd] A E. destruct (Other u c d u' Hc Hd Fu Rc A E) as [Hh Hf'].
    assert (Old : forall r, In r u' -> K d (a_pk r) = true -> In r u).
    { intros r Hr Kr. assert (Dr : D d r = true) by (rewrite (h_dom _ _ _ _ _ _ Hh r Hr); auto).
      assert (X : In r (filter (D d) u)) by (rewrite <- Hf'; apply filter_In; auto). apply filter_In in X. tauto. }
    split; [split; auto|].
    - intros i Hi H. apply in_map_iff in H. destruct H as (r & Er & Hr). apply (Nd i Hi). rewrite <- Er. apply in_map. apply Old; auto. rewrite Er. auto.
    - assert (G : forall k, In k (names d) -> (forall r, In r u -> a_pk r = k -> a_parent r <> None) -> forall r, In r u' -> a_pk r = k -> a_parent r <> None).
      { intros k Hk G r Hr Er. apply G; auto. apply Old; auto. rewrite Er. auto. }
      destruct d as [x|k x|k p x|n q p|l]; cbn in *; auto.
      + destruct Dd as [Dd|Dd]; [auto|]. right. apply G; auto.
      + destruct Dd as [Dd|[Dd|Dd]]; [auto|auto|]. right. right. apply G; auto. }
  assert (Rd0 : forall c, In c calls -> ready t c).
  { intros c Hc. split; [|apply (deep0 t F); auto]. split.
    - intros i Hi H. apply (Nn c i Hc Hi). apply Ids. auto.
    - intros No. specialize (Vs No). rewrite Forall_forall in Vs. auto. }
  assert (F0 : fine t) by (split; [split; [eauto|intros i Hi; apply in_or_app; auto]|auto]).
  destruct (local_serial alrow a_pk al_same al_same_pk (fun _ => True) call (al_tx fuel o) D K calls fine ready Starts Apart Sf Sr t schedule) as (H1 & H2 & H3 & H4); auto.
  { split; auto. }
  fold W in H1, H2, H3, H4.
  assert (Eo : one_by_one (al_exec o) calls t (map fst (w_log W)) = (w_rows W, w_log W)).
  { rewrite <- (one_by_one_same alrow call a_pk al_same (al_exec o) (al_tx fuel o) fine (fun u c => In c calls /\ ready u c) (apart alrow call D K)) with (calls := calls); auto.
    - rewrite (one_by_one_map alrow a_pk al_same calls (al_tx fuel o)). exact H1.
    - intros u c Fu [_ R]. auto.
    - intros u c u' Fu [Hc Rc] E. rewrite <- Same in E by auto. eauto.
    - intros u c d u' Fu [Hc Rc] [Hd Rd] A E. split; auto. rewrite <- Same in E by auto. eauto.
    - intros i c _ Hc. apply nth_error_In in Hc. auto. }
  split; [exact Eo|]. split; [exact H2|]. split; [|auto].
  assert (X : stores o (fst (one_by_one (al_exec o) calls t (map fst (w_log W))))
    (fold_left (sp_call o) (succeeded calls (snd (one_by_one (al_exec o) calls t (map fst (w_log W))))) F)).
  { apply (one_by_one_rel alrow calls New0 (al_exec o) o (stores o) (all_ready o)); auto.
    - intros t1 F1 c t2. apply exec_result.
    - intros t1 c d t2 [F1 S1]. apply (exec_stays_ready o t1 F1). auto.
    - intros i c _ Hc. apply Rd0. eapply nth_error_In; eauto. }
  rewrite Eo in X. exact X.
Qed.
End Trees.
