(** Calls of all kinds on materialized paths that work in different trees (C72). *)
From Coq Require Import String List Arith Lia Bool ZArith Permutation Sorted.
From Verif Require Import Prelude Forest SpecFacts NumConv PathTab CommonModel Order History ConcModel ConcRun ConcAlone ConcLocal ConcCalls ConcTrees.
From Verif Require Import MPModel MPStep MPInv MPHist ConcMPModel ConcMPAll.
From Verif Require ConcMP ConcNSTrees ConcTreesPath MPReorder.
Import ListNotations.
Local Open Scope nat_scope.

(** ** One call after another *)

Notation mprog := (prog mprow).

(** The transaction keeps keys and inserts rows of the keys [N] only. *)
Fixpoint inserts (N : list nat) (p : mprog) : Prop :=
  match p with
  | Commit | Raise _ => True
  | SelectForUpdate _ c => forall r, inserts N (c r)
  | Select c => forall t, inserts N (c t)
  | Update sel f c => (forall r, sel r = true -> m_pk (f r) = m_pk r) /\ inserts N c
  | Delete _ c => inserts N c
  | Insert r c => In (m_pk r) N /\ inserts N c
  end.

Lemma inserts_keyed N p : inserts N p -> keyed mprow m_pk p.
Proof.
  induction p as [|e|k c IH|c IH|sel f c IH|sel c IH|r c IH]; cbn; auto.
  - intros [H1 H2]. auto.
  - intros [H1 H2]. auto.
Qed.
Lemma inserts_pks N p : inserts N p -> forall t t' i, ConcAlone.alone mprow m_pk mp_same t p = Ok t' -> In i (map m_pk t') -> In i (map m_pk t) \/ In i N.
Proof.
  induction p as [|e|k c IH|c IH|sel f c IH|sel c IH|r c IH]; cbn; intros I t t' i E Hi.
  - injection E as <-. auto.
  - discriminate.
  - eapply IH; eauto.
  - eapply IH; eauto.
  - destruct I as [I1 I2]. destruct (IH I2 _ _ _ E Hi) as [H|H]; auto. left. rewrite (ConcAlone.map_keyed mprow m_pk) in H; auto.
  - destruct (IH I _ _ _ E Hi) as [H|H]; auto. left. apply in_map_iff in H. destruct H as (r & <- & Hr). apply filter_In in Hr. apply in_map. tauto.
  - destruct I as [I1 I2]. destruct (existsb (mp_same r) t); [discriminate|]. destruct (IH I2 _ _ _ E Hi) as [[<-|H]|H]; auto.
Qed.

Section Serial.
Variable cfg : mp_cfg.

Lemma inserts_reads N A (f : mp_table -> res A) c : (forall a, inserts N (c a)) -> inserts N (reads f c).
Proof. intros H t. destruct (f t); cbn; auto. Qed.
Lemma inserts_raise N A (r : res A) c : (forall a, inserts N (c a)) -> inserts N (or_raise r c).
Proof. intros H. destruct r; cbn; auto. Qed.
Lemma inserts_set N old new c : inserts N c -> inserts N (mp_set cfg old new c).
Proof. intros H t. destruct (negb (peq old new) && _); cbn; auto. split; auto. intros r E. unfold set_row. rewrite E. auto. Qed.
Lemma inserts_moves N l : forall op c, (forall op, inserts N (c op)) -> inserts N (mp_moves cfg op l c).
Proof. induction l as [|r l IH]; intros op c H; cbn [mp_moves]; auto. apply inserts_raise. intros inc. apply inserts_set. auto. Qed.
Lemma inserts_reorder N p newpos d tg sibs op c : (forall op np, inserts N (c op np)) -> inserts N (mp_reorder cfg p newpos d tg sibs op c).
Proof.
  intros H. unfold mp_reorder. apply inserts_reads. intros [|].
  - apply inserts_reads. intros last. apply inserts_raise. intros np. destruct op; [apply inserts_set|]; auto.
  - apply inserts_reads. intros [n l]. cbv zeta.
    assert (T : forall temp, inserts N (or_raise (collect_movesiblings cfg (get_path cfg (m_path tg) d n) l) (fun ms => mp_moves cfg op (rev ms) (fun op =>
      match op with None => c None (get_path cfg (m_path tg) d n) | Some o => mp_set cfg (match temp with Some x => x | None => o end) (get_path cfg (m_path tg) d n) (c (Some o) (get_path cfg (m_path tg) d n)) end)))).
    { intros temp. apply inserts_raise. intros ms. apply inserts_moves. intros [o'|]; auto. apply inserts_set. auto. }
    unfold mp_temporary. destruct op as [op|]; [|exact (T None)]. destruct ((length op =? _) && _ && _ && _); [|exact (T None)].
    apply inserts_reads. intros last. apply inserts_raise. intros b. cbv zeta. apply inserts_set. exact (T (Some _)).
Qed.
Lemma inserts_insert x d np : inserts [nid x] (mp_insert_sibling cfg x d np).
Proof. unfold mp_insert_sibling. destruct (get_basepath _ _ _); cbn; auto. Qed.
Lemma inserts_sibling target p x : inserts [nid x] (mp_sibling cfg target p x).
Proof.
  unfold mp_sibling. apply inserts_raise. intros P. apply inserts_reads. intros first. apply inserts_raise. intros [P' np].
  apply inserts_reorder. intros _ newpath. apply inserts_insert.
Qed.
Lemma inserts_counts N op np c : inserts N c -> inserts N (mp_counts cfg op np c).
Proof.
  intros H. unfold mp_counts. destruct (peq _ _); auto. destruct (get_parent_path cfg op), (get_parent_path cfg np); cbn; auto.
Qed.

Lemma all_inserts c : inserts (new_ids c) (mp_tx cfg c).
Proof.
  destruct c as [x|k x|k p x|n q p|l]; cbn [mp_tx new_ids].
  - unfold mp_add_root_by. apply inserts_reads. intros [lr|]; [|cbn; auto]. destruct (is_sorted cfg); [apply inserts_sibling|].
    apply inserts_raise. intros np. cbn. auto.
  - intros [nd|]; [|exact I]. cbn [else_raise]. destruct (is_sorted cfg && _).
    + apply inserts_reads. intros last. apply inserts_sibling.
    + destruct (is_leaf nd); cbv zeta.
      * destruct (maxlen cfg <? _); cbn; auto.
      * apply inserts_reads. intros last. apply inserts_raise. intros np. cbn. auto.
  - apply inserts_reads. intros r. apply inserts_sibling.
  - unfold mp_move. apply inserts_reads. intros nd. apply inserts_reads. intros target. apply inserts_raise. intros P. apply inserts_reads. intros [[[[[tg d] sibs] np] p1] ut].
    destruct (is_descendant_of tg nd); [exact I|]. apply inserts_reads. intros first. apply inserts_raise. intros [[p2 np2]|]; [|exact I].
    apply inserts_reads. intros [|]; [exact I|]. apply inserts_reorder. intros op newpath. apply inserts_counts.
    apply inserts_reads. intros _. apply inserts_reads. intros _. exact I.
  - unfold mp_delete. intros t. cbv zeta. generalize (parents_of_removed cfg (minimal_removed cfg [] (isort depth_path_le (filter (fun r => existsb (Nat.eqb (m_pk r)) l) t)))) as ps.
    induction ps as [|p ps IH]; cbn; auto.
Qed.

Lemma exec_stays_ready t c d t' : all_ready t c -> all_ready t d -> new_apart c d -> mp_exec_rows cfg t c = Ok t' -> all_ready t' d.
Proof.
  intros Rc Rd A E i Hi H. rewrite <- all_same_call in E by auto. destruct (inserts_pks _ _ (all_inserts c) _ _ _ E H) as [X|X].
  - apply (Rd i Hi X).
  - apply (A i X Hi).
Qed.

Theorem mp_all_serial t calls order : NoDup (map m_pk t) ->
  NoDup (flat_map new_ids calls) -> (forall i, In i (flat_map new_ids calls) -> ~ In i (map m_pk t)) ->
  NoDup order -> (forall i, In i order -> i < length calls) ->
  exists schedule, let W := play m_pk mp_same (all_begin t (map (mp_tx cfg) calls)) schedule in
    (w_rows W, w_log W) = one_by_one (mp_exec_rows cfg) calls t order /\
    forall i, i < length calls -> nth_error (w_txs W) i = Some None <-> In i order.
Proof.
  intros Nt N Fr No Hl.
  assert (Eo : one_by_one (ConcAlone.alone mprow m_pk mp_same) (map (mp_tx cfg) calls) t order = one_by_one (mp_exec_rows cfg) calls t order).
  { apply (one_by_one_same mprow call m_pk mp_same (mp_exec_rows cfg) (mp_tx cfg) (fun _ => True) all_ready new_apart); auto.
    - intros t1 c _ R. apply all_same_call. auto.
    - intros t1 c d t2 _ Rc Rd A E. apply (exec_stays_ready t1 c d t2); auto.
    - apply calls_apart. auto.
    - intros i c Hi Hc k Hk H. apply nth_error_In in Hc. apply (Fr k); [apply in_flat_map; eauto|auto]. }
  rewrite <- Eo. destruct (serial_begin mprow m_pk mp_same mp_same_pk t (map (mp_tx cfg) calls) order) as (s & Hs); auto.
  - apply Forall_forall. intros p Hp. apply in_map_iff in Hp. destruct Hp as (c & <- & _). eapply inserts_keyed, all_inserts.
  - rewrite map_length. auto.
  - exists s. rewrite map_length in Hs. exact Hs.
Qed.
End Serial.

(** ** What the calls read and write *)
Section Domain.
Variable cfg : mp_cfg.
Hypothesis step1 : 1 <= steplen cfg.
Notation w := (steplen cfg).
Notation step0 := (ConcTreesPath.step0 cfg).

(** The path has a place for each step of the depth. *)
Definition thick (r : mprow) : Prop := 1 <= m_depth r /\ m_depth r * w <= length (m_path r).

Variable D : mprow -> bool.
Variable K : nat -> bool.
Hypothesis Dtr : forall r r', D r = true -> step0 r' = step0 r -> D r' = true.
Notation local := (local mprow m_pk mp_same thick D K).
Notation local_at := (local_at mprow m_pk mp_same thick D K).
Notation home := (home mprow m_pk thick D K).
Notation mine := (mine mprow m_pk D K).

(** A path in the domain. *)
Definition inside (p : path) : Prop := w <= length p /\ forall r, firstn w (m_path r) = firstn w p -> D r = true.

Lemma thick_len r : thick r -> w <= length (m_path r).
Proof. intros [A B]. nia. Qed.
Lemma row_inside r : D r = true -> thick r -> inside (m_path r).
Proof. intros Dr T. split; [apply thick_len; auto|]. intros r' E. apply (Dtr r); auto. Qed.
Lemma inside_app p z : inside p -> inside (p ++ z).
Proof. intros [A B]. split; [rewrite app_length; lia|]. intros r E. apply B. rewrite E. apply ConcTreesPath.firstn_app_le. auto. Qed.
Lemma inside_firstn n p : inside p -> w <= n -> inside (firstn n p).
Proof. intros [A B] H. split; [rewrite firstn_length; lia|]. intros r E. apply B. rewrite E. apply ConcTreesPath.firstn_firstn_le. auto. Qed.
Lemma inside_pre p r : inside p -> ppre p (m_path r) = true -> D r = true.
Proof. intros I H. apply ppre_iff in H. destruct H as [z E]. apply (inside_app p z) in I. destruct I as [_ B]. apply B. rewrite E. auto. Qed.
Lemma inside_is p r : inside p -> m_path r = p -> D r = true.
Proof. intros [_ B] <-. apply B. auto. Qed.
(** The beginning of a path in the domain is the path of a row. *)
Lemma inside_begin n p r : inside p -> thick r -> m_path r = firstn n p -> D r = true.
Proof.
  intros I T E. apply (inside_is (firstn n p)); auto. apply inside_firstn; auto. assert (L := thick_len r T). rewrite E, firstn_length in L. lia.
Qed.

Lemma pad_len key : w <= length (pad cfg key).
Proof. unfold pad. rewrite app_length, repeat_length. lia. Qed.
Lemma get_path_inside p d n : inside p -> 2 <= d -> (d - 1) * w <= length p -> inside (get_path cfg p d n) /\ d * w <= length (get_path cfg p d n).
Proof.
  intros I Hd L. unfold get_path, get_basepath. split.
  - apply inside_app. apply inside_firstn; auto. nia.
  - rewrite app_length, firstn_length. assert (P := pad_len (digits (radix cfg) n)). nia.
Qed.
Lemma inc_inside p np : inside p -> 2 * w <= length p -> inc_path cfg p = Ok np -> inside np /\ length np = length p.
Proof.
  intros I L E. unfold inc_path in E. destruct (get_lastpos cfg p) as [v|]; [|discriminate]. cbn [bind] in E.
  destruct (w <? length (digits (radix cfg) (v + 1))) eqn:El; [discriminate|]. apply Nat.ltb_ge in El. injection E as <-. split.
  - apply inside_app, inside_firstn; auto. lia.
  - rewrite app_length, firstn_length. unfold pad. rewrite app_length, repeat_length. lia.
Qed.

(** *** Statements that write *)

Lemma set_thick old new r : thick r -> w <= length new -> ppre old (m_path r) = true -> thick (set_row cfg old new r).
Proof.
  intros [A B] L P. unfold set_row. rewrite P. apply ppre_iff in P. destruct P as [z Ez].
  rewrite Ez in *. rewrite skipn_app, skipn_all, Nat.sub_diag in *. cbn [skipn app]. rewrite app_length in B. unfold thick. cbn [m_path m_depth].
  destruct (Nat.eqb_spec (length old) (length new)) as [E|_]; rewrite app_length.
  - rewrite <- E. auto.
  - split.
    + apply Nat.div_le_lower_bound; lia.
    + rewrite Nat.mul_comm. apply Nat.mul_div_le. lia.
Qed.
Lemma set_path old new r : ppre old (m_path r) = true -> m_path (set_row cfg old new r) = new ++ skipn (length old) (m_path r).
Proof. intros P. unfold set_row. rewrite P. auto. Qed.

Lemma existsb_same (f g : mprow -> bool) l : (forall r, f r = g r) -> existsb f l = existsb g l.
Proof. intros E. induction l as [|a l IH]; cbn; auto. rewrite E, IH. auto. Qed.
Lemma clash_dom old new t : inside old -> inside new -> home t -> paths_clash cfg old new t = paths_clash cfg old new (filter D t).
Proof.
  intros Io In H. unfold paths_clash.
  assert (E1 : forall r, ppre old (m_path r) = true ->
    existsb (fun r' => peq (m_path (set_row cfg old new r)) (m_path r')) t = existsb (fun r' => peq (m_path (set_row cfg old new r)) (m_path r')) (filter D t)).
  { intros r P. apply (exists_dom mprow m_pk thick D K _ t H). intros r' _ E. left. apply peq_iff in E. rewrite set_path in E by auto.
    apply (inside_is (new ++ skipn (length old) (m_path r))); auto. apply inside_app. auto. }
  transitivity (existsb (fun r => ppre old (m_path r) && existsb (fun r' => peq (m_path (set_row cfg old new r)) (m_path r')) (filter D t)) t).
  - apply existsb_same. intros r. destruct (ppre old (m_path r)) eqn:P; cbn; auto.
  - apply (exists_dom mprow m_pk thick D K _ t H). intros r _ E. left. apply andb_true_iff in E. apply (inside_pre old); tauto.
Qed.

Lemma set_local old new c : inside old -> inside new -> local c -> local (mp_set cfg old new c).
Proof.
  intros Io In L t H. split.
  - destruct (negb (peq old new) && _); [exact I|]. split; auto. intros r E. split; [unfold set_row; rewrite E; auto|]. intros T.
    assert (Dr := inside_pre old r Io E). split; [left; auto|]. split; [apply set_thick; auto; apply In|]. intros _.
    apply (inside_is (new ++ skipn (length old) (m_path r))); [apply inside_app; auto|apply set_path; auto].
  - intros t' H' E. rewrite (clash_dom old new t'), (clash_dom old new t), E; auto.
Qed.

(** [op] is None, or a path in the domain. *)
Definition inside_opt (op : option path) : Prop := match op with None => True | Some p => inside p end.

Lemma moves_local l : forall op c, (forall r, In r l -> inside (m_path r) /\ 2 * w <= length (m_path r)) -> inside_opt op ->
  (forall op', inside_opt op' -> local (c op')) -> local (mp_moves cfg op l c).
Proof.
  induction l as [|r l IH]; intros op c Hl Io L; cbn [mp_moves]; auto. destruct (Hl r (or_introl eq_refl)) as [Ir Lr].
  destruct (inc_path cfg (m_path r)) as [inc|] eqn:Ei; [|exact I]. cbn [or_raise]. destruct (inc_inside _ _ Ir Lr Ei) as [Ii _].
  apply set_local; auto. apply IH; [intros; apply Hl; right; auto| |auto]. destruct op as [op|]; [|exact I]. cbn [option_map inside_opt].
  unfold shift_path. destruct (ppre (m_path r) op); auto. apply inside_app. auto.
Qed.

Lemma up_local p n (g : nat -> nat) c : inside p -> local c -> local (Update (fun r => peq (m_path r) (firstn n p)) (fun r => set_nc r (g (m_nc r))) c).
Proof.
  intros Ip L. split; auto. intros r E. split; auto. intros T. apply peq_iff in E. assert (Dr := inside_begin n p r Ip T E).
  split; [left; auto|]. split; [exact T|]. intros _. apply (Dtr r); auto.
Qed.

Lemma counts_local op np c : inside op -> inside np -> local c -> local (mp_counts cfg op np c).
Proof.
  intros Io In L. unfold mp_counts, get_parent_path. cbv zeta. destruct (peq _ _); auto.
  assert (U : local (match firstn (length np - w) np with [] => c | _ => Update (fun r => peq (m_path r) (firstn (length np - w) np)) (fun r => set_nc r (S (m_nc r))) c end)).
  { assert (X := up_local np (length np - w) S c In L). destruct (firstn (length np - w) np); auto. }
  assert (X := fun c' => up_local op (length op - w) pred c' Io). destruct (firstn (length op - w) op); auto.
Qed.

Lemma insert_local x np depth : K (nid x) = true -> inside np -> 1 <= depth -> depth * w <= length np -> local (Insert (mp_new x np depth) Commit).
Proof.
  intros Kx In Hd L. split; [apply (inside_is np); auto|]. split; auto. split; [split; auto|]. split; [|exact I].
  intros r' _ Sm. unfold mp_same, mp_new in Sm. cbn in Sm. apply orb_true_iff in Sm. destruct Sm as [Sm|Sm].
  - apply Nat.eqb_eq in Sm. right. rewrite <- Sm. auto.
  - apply peq_iff in Sm. left. apply (inside_is np); auto.
Qed.
Lemma insert_sibling_local x np depth : K (nid x) = true -> inside np -> 1 <= depth -> depth * w <= length np -> local (mp_insert_sibling cfg x depth np).
Proof.
  intros Kx In Hd L. assert (Il := insert_local x np depth Kx In Hd L). unfold mp_insert_sibling, get_basepath. cbv zeta.
  assert (X := up_local np ((depth - 1) * w) S _ In Il). destruct (firstn ((depth - 1) * w) np); auto.
Qed.
Lemma insert_child_local k x np depth : K k = true -> K (nid x) = true -> inside np -> 1 <= depth -> depth * w <= length np -> local (mp_insert_child k x depth np).
Proof.
  intros Kk Kx In Hd L. split; [|apply insert_local; auto]. intros r Er. apply Nat.eqb_eq in Er. split; auto. intros T. split; [right; congruence|].
  split; [exact T|]. intros Dr. apply (Dtr r); auto.
Qed.

(** *** Queries *)

(** What is read depends on rows of the domain only. *)
Definition here {A} (f : mp_table -> A) (t : mp_table) : Prop := forall t', home t' -> filter D t' = filter D t -> f t' = f t.

Lemma here_const A (a : A) t : here (fun _ => a) t.
Proof. intros t' _ _. auto. Qed.

Lemma reads_at A (f : mp_table -> res A) c t : here f t -> (forall a, f t = Ok a -> local_at (filter D t) (c a)) -> local_at (filter D t) (reads f c).
Proof.
  intros S L t1 H1 E1. rewrite (S t1 H1 E1). split.
  - destruct (f t); cbn [or_raise ConcLocal.local_at]; auto.
  - intros t2 H2 E2. rewrite (S t2 H2 E2). auto.
Qed.
Lemma pk_local k c : K k = true -> local c -> local (reads (fun t => get_by_pk t k) (fun _ => c)).
Proof.
  intros Kk L t H. split.
  - destruct (get_by_pk t k); cbn [or_raise]; auto. exact I.
  - intros t' H' E. unfold get_by_pk. rewrite (key_dom mprow m_pk thick D K k t' H' Kk), (key_dom mprow m_pk thick D K k t H Kk), E. auto.
Qed.

Lemma range_pre q p : in_range (children_interval cfg q) p = true -> ppre q p = true.
Proof.
  unfold in_range, children_interval, plt. cbn [fst snd]. rewrite andb_true_iff, !negb_true_iff, ppre_iff.
  revert p. induction q as [|d q IH]; intros p [A B]; [exists p; reflexivity|]. cbn [app] in A, B. destruct p as [|e p]; [cbn in A; discriminate|].
  cbn [llt] in *. destruct (e <? d) eqn:E1; [discriminate|]. destruct (d <? e) eqn:E2; [discriminate|]. cbn [orb negb andb] in A, B.
  apply Nat.ltb_ge in E1, E2. assert (d = e) by lia. subst e. destruct (IH p (conj A B)) as [z ->]. exists z. auto.
Qed.

Section At.
Variable t : mp_table.
Hypothesis Ht : home t.

Lemma here_filter (s : mprow -> bool) : (forall r, s r = true -> D r = true) -> here (filter s) t.
Proof.
  intros M t' H' E. assert (M' : forall r, thick r -> s r = true -> mine r) by (intros r _ Er; left; auto).
  rewrite (sel_dom mprow m_pk thick D K s t' H' M'), (sel_dom mprow m_pk thick D K s t Ht M'), E. auto.
Qed.
Lemma here_pk k : K k = true -> here (fun t => get_by_pk t k) t.
Proof.
  intros Kk t' H' E. unfold get_by_pk. rewrite (key_dom mprow m_pk thick D K k t' H' Kk), (key_dom mprow m_pk thick D K k t Ht Kk), E. auto.
Qed.
Lemma pk_row k r : K k = true -> get_by_pk t k = Ok r -> In r t /\ D r = true /\ m_pk r = k /\ thick r.
Proof.
  intros Kk E. unfold get_by_pk in E. destruct (filter _ t) as [|a l] eqn:El; [discriminate|]. injection E as ->.
  apply (key_row mprow m_pk thick D K k t r Ht Kk). rewrite El. auto.
Qed.

(** A node below a root, in the domain. *)
Definition spot (r : mprow) : Prop := D r = true /\ thick r /\ 2 <= m_depth r.

Lemma spot_long r : spot r -> inside (m_path r) /\ 2 * w <= length (m_path r).
Proof. intros (A & B & C). split; [apply row_inside; auto|]. destruct B as [_ B]. nia. Qed.
Lemma spot_base r : spot r -> inside (get_basepath cfg (m_path r) (m_depth r - 1)).
Proof. intros (A & B & C). unfold get_basepath. apply inside_firstn; [apply row_inside; auto|]. nia. Qed.

Lemma here_siblings tg : spot tg -> here (fun t => get_siblings cfg t tg) t.
Proof.
  intros S t' H' E. unfold get_siblings. f_equal. apply here_filter; auto. intros r Er. assert (C : 2 <= m_depth tg) by apply S.
  replace (1 <? m_depth tg) with true in Er by (symmetry; apply Nat.ltb_lt; lia). apply andb_true_iff in Er. destruct Er as [_ Er].
  apply range_pre in Er. apply (inside_pre (get_basepath cfg (m_path tg) (m_depth tg - 1))); auto. apply spot_base. auto.
Qed.
Lemma siblings_row tg r : spot tg -> In r (get_siblings cfg t tg) -> In r t /\ spot r /\ m_depth r = m_depth tg.
Proof.
  intros S Hr. apply (Permutation_in _ (isort_perm _ _)) in Hr. apply filter_In in Hr. destruct Hr as [Hr Er]. assert (C : 2 <= m_depth tg) by apply S.
  replace (1 <? m_depth tg) with true in Er by (symmetry; apply Nat.ltb_lt; lia). apply andb_true_iff in Er. destruct Er as [Ed Er]. apply Nat.eqb_eq in Ed.
  split; auto. split; auto. split; [|split; [apply (h_valid _ _ _ _ _ _ Ht); auto|lia]].
  apply range_pre in Er. apply (inside_pre (get_basepath cfg (m_path tg) (m_depth tg - 1))); auto. apply spot_base. auto.
Qed.
Lemma last_row tg r : spot tg -> get_last_sibling cfg t tg = Some r -> In r t /\ spot r /\ m_depth r = m_depth tg.
Proof. intros S E. apply siblings_row; auto. apply ConcTreesPath.last_opt_In. exact E. Qed.
Lemma here_last tg : spot tg -> here (fun t => get_last_sibling cfg t tg) t.
Proof. intros S t' H' E. unfold get_last_sibling. rewrite (here_siblings tg S t' H' E). auto. Qed.

Lemma here_child nd : D nd = true -> thick nd -> here (fun t => get_last_child cfg t nd) t.
Proof.
  intros Dn Tn t' H' E. unfold get_last_child, get_children. destruct (is_leaf nd); auto. do 2 f_equal. apply here_filter; auto.
  intros r Er. apply andb_true_iff in Er. destruct Er as [_ Er]. apply range_pre in Er. apply (inside_pre (m_path nd)); auto. apply row_inside; auto.
Qed.
Lemma child_row nd r : D nd = true -> thick nd -> get_last_child cfg t nd = Some r -> In r t /\ spot r /\ m_depth r = m_depth nd + 1.
Proof.
  intros Dn Tn E. apply ConcTreesPath.last_opt_In in E. unfold get_children in E. destruct (is_leaf nd); [destruct E|].
  apply (Permutation_in _ (isort_perm _ _)) in E. apply filter_In in E. destruct E as [Hl E]. apply andb_true_iff in E. destruct E as [E1 E2]. apply Nat.eqb_eq in E1.
  split; auto. split; auto. split; [|split; [apply (h_valid _ _ _ _ _ _ Ht); auto|destruct Tn; lia]].
  apply range_pre in E2. apply (inside_pre (m_path nd)); auto. apply row_inside; auto.
Qed.
Lemma row_key r : In r t -> D r = true -> K (m_pk r) = true.
Proof. intros Hr Dr. rewrite <- (h_dom _ _ _ _ _ _ Ht r Hr). auto. Qed.

(** *** The calls *)

Lemma at_local p : local p -> local_at (filter D t) p.
Proof. intros L. apply local_local_at; auto. exact mp_same_pk. Qed.

(** The target of a call: a node below a root, or a leaf that gets its first child. *)
Definition aim (tg : mprow) (d : nat) (p : pos) (newpos : option nat) (sibs : option (mp_table -> list mprow)) : Prop :=
  (spot tg /\ d = m_depth tg /\ (sibs = None \/ exists f, sibs = Some (fun t => sorted_siblings cfg t tg f))) \/
  (D tg = true /\ thick tg /\ d = m_depth tg + 1 /\ p = FirstSibling /\ newpos = Some 1 /\ sibs = None).

Lemma reorder_at p newpos d tg sibs op c : aim tg d p newpos sibs -> inside_opt op ->
  (forall op' np, inside_opt op' -> inside np -> d * w <= length np -> local (c op' np)) ->
  local_at (filter D t) (mp_reorder cfg p newpos d tg sibs op c).
Proof.
  intros A Io L.
  assert (G : D tg = true /\ thick tg /\ 2 <= d /\ (d - 1) * w <= length (m_path tg)).
  { destruct A as [((A1 & A2 & A3) & -> & _)|(A1 & A2 & -> & _)]; destruct A2 as [X Y]; (split; [auto|split; [split; auto|split; [lia|nia]]]). }
  destruct G as (Dt & Tt & Hd & Ld). assert (It := row_inside tg Dt Tt). unfold mp_reorder. apply reads_at.
  { intros t' H' E. f_equal. unfold goes_last. destruct p; auto. destruct A as [(S & _)|(_ & _ & _ & X & _)]; [|discriminate].
    rewrite (here_last tg S t' H' E). auto. }
  intros b Eb. injection Eb as Eb. destruct b.
  - assert (S : spot tg /\ d = m_depth tg) by (destruct A as [(S & X & _)|(_ & _ & _ & -> & _)]; [auto|discriminate Eb]). destruct S as [S ->].
    apply reads_at; [intros t' H' E; rewrite (here_last tg S t' H' E); auto|]. intros last El. destruct (get_last_sibling cfg t tg) as [r|] eqn:Er; [|discriminate].
    injection El as ->. destruct (last_row tg last S Er) as (_ & Sl & Dl). destruct (spot_long last Sl) as [Il Ll].
    destruct (inc_path cfg (m_path last)) as [np|] eqn:Ei; [|exact I]. cbn [or_raise]. destruct (inc_inside _ _ Il Ll Ei) as [In Ln].
    assert (Ld' : m_depth tg * w <= length np) by (rewrite Ln, <- Dl; apply Sl). apply at_local. destruct op as [op|]; [apply set_local|]; auto.
  - apply reads_at.
    { intros t' H' E. unfold mp_later, reorder_pos. destruct A as [(S & -> & X)|(_ & _ & _ & -> & -> & ->)]; [|auto].
      rewrite (here_siblings tg S t' H' E). destruct newpos; auto. destruct X as [->|[f ->]]; auto. unfold sorted_siblings. rewrite (here_siblings tg S t' H' E). auto. }
    intros [n l] En. cbv zeta. destruct (get_path_inside (m_path tg) d n It Hd Ld) as [Inp Ln]. set (np := get_path cfg (m_path tg) d n) in *.
    assert (Hl : l = [] \/ (spot tg /\ d = m_depth tg /\ forall r, In r l -> spot r)).
    { destruct A as [(S & -> & X)|(_ & _ & _ & -> & -> & ->)]; [right|left; injection En as _ <-; auto]. split; auto. split; auto. intros r Hr.
      assert (Y : In r (get_siblings cfg t tg)); [|destruct (siblings_row tg r S Y) as (_ & Y' & _); auto].
      unfold mp_later, reorder_pos in En. destruct newpos as [n'|].
      - injection En as _ <-. destruct X as [->|[f ->]]; [destruct Hr|]. apply filter_In in Hr. tauto.
      - destruct (get_lastpos cfg (m_path tg)); [|discriminate]. cbn [bind] in En. destruct p; try discriminate; injection En as _ <-; auto; apply filter_In in Hr; tauto. }
    assert (T : forall temp, inside_opt temp -> local (or_raise (collect_movesiblings cfg np l) (fun ms => mp_moves cfg op (rev ms) (fun op =>
      match op with None => c None np | Some o => mp_set cfg (match temp with Some x => x | None => o end) np (c (Some o) np) end)))).
    { intros temp Ht'. destruct (collect_movesiblings cfg np l) as [ms|] eqn:Em; [|exact I]. cbn [or_raise]. apply moves_local; auto.
      - intros r Hr. apply in_rev in Hr. assert (Hs := ConcTreesPath.collect_in cfg _ _ _ _ Em Hr). destruct Hl as [->|(_ & _ & Hl)]; [destruct Hs|]. apply spot_long. auto.
      - intros [o'|] Io'; [|apply L; auto; exact I]. apply set_local; auto. destruct temp; auto. }
    unfold mp_temporary. destruct op as [op|]; [|apply at_local; apply (T None); exact I].
    destruct ((length op =? length np) && _ && _ && _) eqn:Et; [|apply at_local; apply (T None); exact I].
    assert (S : spot tg /\ d = m_depth tg) by (destruct Hl as [->|(S & X & _)]; [rewrite andb_false_r in Et; discriminate|auto]). destruct S as [S ->].
    apply reads_at; [intros t' H' E; rewrite (here_last tg S t' H' E); auto|]. intros last _.
    destruct (get_lastpos cfg (m_path last)) as [b|]; [|exact I]. cbn [or_raise]. apply at_local. cbv zeta.
    assert (Itmp : inside (get_path cfg np (m_depth tg) (b + 2))) by (apply get_path_inside; auto; nia).
    apply set_local; auto. apply (T (Some _)). exact Itmp.
Qed.

Lemma here_first p tg f : spot tg \/ p <> SortedSibling -> here (mp_first cfg p tg f) t.
Proof.
  intros S t' H' E. unfold mp_first. destruct p; auto. destruct S as [S|]; [|congruence]. unfold sorted_siblings. rewrite (here_siblings tg S t' H' E). auto.
Qed.

Lemma sibling_at target p x : spot target -> K (nid x) = true -> local_at (filter D t) (mp_sibling cfg target p x).
Proof.
  intros S Kx. unfold mp_sibling. destruct (prepare_pos_add (is_sorted cfg) p) as [P|e]; [|exact I]. cbn [or_raise].
  apply reads_at; [apply here_first; auto|]. intros first _.
  destruct (match P, first with SortedSibling, Some _ => _ | SortedSibling, None => _ | _, _ => _ end) as [[P' np]|e]; [|exact I]. cbn [or_raise].
  apply reorder_at; [|exact I|].
  - left. split; auto. split; auto. unfold mp_siblings. destruct P; eauto.
  - intros _ newpath _ In L. destruct S as (_ & _ & S). apply insert_sibling_local; auto. lia.
Qed.

Lemma child_at k x : K k = true -> K (nid x) = true -> local_at (filter D t) (mp_add_child_by cfg k x).
Proof.
  intros Kk Kx. unfold mp_add_child_by. split; auto. rewrite <- (key_dom mprow m_pk thick D K k t Ht Kk).
  destruct (hd_error _) as [nd|] eqn:E; [|exact I]. cbn [else_raise].
  destruct (key_row mprow m_pk thick D K k t nd Ht Kk E) as (Hn & Dn & _ & Tn).
  assert (Ch : forall c, (forall last, spot last -> m_depth last = m_depth nd + 1 -> local_at (filter D t) (c last)) ->
    local_at (filter D t) (reads (fun t => opt_res (get_last_child cfg t nd) AttributeError) c)).
  { intros c L. apply reads_at; [intros t' H' E'; rewrite (here_child nd Dn Tn t' H' E'); auto|]. intros last El.
    destruct (get_last_child cfg t nd) as [r|] eqn:Er; [|discriminate]. injection El as ->. destruct (child_row nd last Dn Tn Er) as (_ & Sl & Dl). auto. }
  destruct (is_sorted cfg && negb (is_leaf nd)); [apply Ch; intros last Sl _; apply sibling_at; auto|].
  assert (In := row_inside nd Dn Tn). destruct (is_leaf nd).
  - cbv zeta. destruct (_ <? _); [exact I|]. destruct Tn as [T1 T2].
    destruct (get_path_inside (m_path nd) (m_depth nd + 1) 1 In ltac:(lia) ltac:(rewrite Nat.add_sub; auto)) as [Ip Lp].
    apply at_local. apply insert_child_local; auto. lia.
  - apply Ch. intros last Sl Dl. destruct (spot_long last Sl) as [Il Ll]. destruct (inc_path cfg (m_path last)) as [np|] eqn:Ei; [|exact I]. cbn [or_raise].
    destruct (inc_inside _ _ Il Ll Ei) as [Ip Lp]. apply at_local. apply insert_child_local; auto; [lia|]. rewrite Lp, <- Dl. apply Sl.
Qed.

Lemma add_sibling_at k p x : K k = true -> K (nid x) = true -> (forall r, In r t -> m_pk r = k -> 2 <= m_depth r) ->
  local_at (filter D t) (mp_add_sibling cfg k p x).
Proof.
  intros Kk Kx N. apply reads_at; [apply here_pk; auto|]. intros r Er. destruct (pk_row k r Kk Er) as (Hr & Dr & Ek & Tr).
  apply sibling_at; auto. split; auto.
Qed.

Lemma move_at n q p : K n = true -> K q = true -> In p ConcNSTrees.child_positions \/ (forall r, In r t -> m_pk r = q -> 2 <= m_depth r) ->
  local_at (filter D t) (mp_move cfg n q p).
Proof.
  intros Kn Kq B. unfold mp_move. apply reads_at; [apply here_pk; auto|]. intros nd En. destruct (pk_row n nd Kn En) as (Hn & Dn & Pn & Tn).
  apply reads_at; [apply here_pk; auto|]. intros target Eq. destruct (pk_row q target Kq Eq) as (Hq & Dq & Pq & Tq).
  destruct (prepare_pos_move (is_sorted cfg) p) as [P|e] eqn:EP; [|exact I]. cbn [or_raise].
  apply reads_at.
  { intros t' H' E. unfold move_to_child_vars. rewrite (here_child target Dq Tq t' H' E). auto. }
  intros [[[[[tg d] sibs0] np] P1] ut] E1.
  assert (A1 : K (m_pk tg) = true /\ ((spot tg /\ d = m_depth tg) \/ (D tg = true /\ thick tg /\ d = m_depth tg + 1 /\ P1 = FirstSibling /\ np = Some 1))).
  { assert (Deep : ConcNSTrees.child_pos P = false -> spot target).
    { intros C. destruct B as [B|B]; [rewrite (ConcNSTrees.child_positions_pos _ _ _ B EP) in C; discriminate|]. split; auto. }
    unfold move_to_child_vars in E1.
    assert (Ch : forall P', (if m_pk target =? m_pk nd then Err InvalidMoveToDescendant
        else let parent := set_nc target (S (m_nc target)) in
          if is_leaf target then Ok (parent, m_depth target + 1, [], Some 1, FirstSibling, parent)
          else do last <- opt_res (get_last_child cfg t target) AttributeError; Ok (last, m_depth target + 1, [], None, P', parent)) = Ok (tg, d, sibs0, np, P1, ut) ->
      K (m_pk tg) = true /\ ((spot tg /\ d = m_depth tg) \/ (D tg = true /\ thick tg /\ d = m_depth tg + 1 /\ P1 = FirstSibling /\ np = Some 1))).
    { intros P'. destruct (_ =? _); [discriminate|]. cbv zeta. destruct (is_leaf target).
      - intros X. injection X as <- <- _ <- <- _. split; [cbn; rewrite Pq; auto|]. right. split; [apply (Dtr target); auto|]. split; [exact Tq|]. auto.
      - destruct (get_last_child cfg t target) as [r|] eqn:Er; [|discriminate]. cbn [opt_res bind]. intros X. injection X as <- <- _ _ _ _.
        destruct (child_row target r Dq Tq Er) as (Hr & Sr & Er'). split; [apply row_key; auto; apply Sr|]. left. auto. }
    destruct P; try (eapply Ch; exact E1); injection E1 as <- <- _ <- <- _; (split; [rewrite Pq; auto|]); left; split; auto. }
  destruct A1 as [Kt A1]. destruct (is_descendant_of tg nd); [exact I|].
  apply reads_at; [apply here_first; destruct A1 as [[S _]|(_ & _ & _ & -> & _)]; [auto|right; discriminate]|]. intros first _.
  destruct (mp_place cfg nd first P1 np) as [[[P2 np2]|]|e] eqn:E2; [|exact I|exact I]. cbn [or_raise].
  assert (A2 : aim tg d P2 np2 (mp_siblings cfg P1 tg (m_data nd))).
  { destruct A1 as [[S ->]|(X1 & X2 & X3 & -> & ->)].
    - left. split; auto. split; auto. unfold mp_siblings. destruct P1; eauto.
    - right. cbn in E2. injection E2 as <- <-. split; auto. }
  apply reads_at.
  { intros t' H' E. unfold mp_noop. do 2 f_equal.
    - destruct A2 as [(S & _)|(X1 & X2 & X3 & -> & _)].
      + unfold get_first_sibling. rewrite (here_last tg S t' H' E), (here_siblings tg S t' H' E). auto.
      + assert (Z : forall u, home u -> filter D u = filter D t -> same_pk nd (get_first_sibling cfg u tg) = true -> d = m_depth nd -> False).
        { intros u Hu Eu Sp Ed. destruct (get_first_sibling cfg u tg) as [r|] eqn:Er; [|discriminate Sp]. cbn in Sp. apply Nat.eqb_eq in Sp.
          unfold get_first_sibling in Er. destruct (get_siblings cfg u tg) as [|a l] eqn:Es; [discriminate|]. injection Er as ->.
          assert (Hr : In r (get_siblings cfg u tg)) by (rewrite Es; left; auto). apply (Permutation_in _ (isort_perm _ _)) in Hr. apply filter_In in Hr. destruct Hr as [Hr Er].
          apply andb_true_iff in Er. destruct Er as [Er _]. apply Nat.eqb_eq in Er.
          assert (Dr : D r = true) by (rewrite (h_dom _ _ _ _ _ _ Hu r Hr), <- Sp, Pn; auto).
          assert (Hr' : In r (filter D t)) by (rewrite <- Eu; apply filter_In; auto). apply filter_In in Hr'. destruct Hr' as [Hr' _].
          assert (nd = r) by (apply (ConcNS.key_unique mprow m_pk t); auto; apply (h_keys _ _ _ _ _ _ Ht)). subst r. lia. }
        destruct (Nat.eqb_spec d (m_depth nd)) as [Ed|]; [cbn [andb]|auto].
        assert (Z1 := Z t' H' E). assert (Z2 := Z t Ht eq_refl). destruct (same_pk nd (get_first_sibling cfg t' tg)), (same_pk nd (get_first_sibling cfg t tg)); auto; exfalso; auto.
    - destruct A2 as [(S & _)|(X1 & X2 & X3 & -> & _)]; [|auto]. rewrite (here_last tg S t' H' E). auto. }
  intros [|] _; [exact I|]. apply reorder_at; auto; [cbn; apply row_inside; auto|].
  intros op newpath Io Inp _. unfold mp_counts. destruct op as [op|].
  - apply counts_local; auto. apply pk_local; auto. apply pk_local; auto. exact I.
  - assert (X : local (reads (fun t0 => get_by_pk t0 n) (fun _ => reads (fun t0 => get_by_pk t0 (m_pk tg)) (fun _ => Commit)))) by (apply pk_local; auto; apply pk_local; auto; exact I).
    cbv zeta. unfold get_parent_path. cbn [length Nat.sub]. rewrite firstn_nil. destruct (peq [] _); auto.
    assert (Y := up_local newpath (length newpath - w) S _ Inp X). destruct (firstn (length newpath - w) newpath); auto.
Qed.
End At.

Lemma delete_local l : (forall i, In i l -> K i = true) -> local (mp_delete cfg l).
Proof.
  intros Kl t H.
  assert (M : forall r, thick r -> existsb (Nat.eqb (m_pk r)) l = true -> mine r).
  { intros r _ E. apply has_iff in E. right. auto. }
  split.
  - cbv zeta. set (rs := minimal_removed cfg [] _).
    assert (Hr : forall x, In x rs -> D x = true /\ thick x /\ K (m_pk x) = true).
    { intros x Hx. apply ConcTreesPath.minimal_in in Hx. destruct Hx as [[]|Hx]. apply (Permutation_in _ (isort_perm _ _)) in Hx. apply filter_In in Hx. destruct Hx as [Hx Nx].
      assert (Fx := h_valid _ _ _ _ _ _ H x Hx). assert (Dx := home_mine _ _ _ _ _ t x H Hx (M x Fx Nx)). split; auto. split; auto.
      rewrite <- (h_dom _ _ _ _ _ _ H); auto. }
    assert (Dl : local (Delete (deleted_row rs) Commit)).
    { split; [|exact I]. intros r Fr Er. apply existsb_exists in Er. destruct Er as (x & Hx & Er). destruct (Hr x Hx) as (Dx & Tx & Kx).
      destruct (is_leaf x).
      - apply Nat.eqb_eq in Er. right. rewrite Er. auto.
      - left. apply (inside_pre (m_path x)); auto. apply row_inside; auto. }
    assert (Dc : forall ps, (forall p, In p ps -> In p (parents_of_removed cfg rs)) -> local (mp_decrease cfg rs ps (Delete (deleted_row rs) Commit))).
    { induction ps as [|p ps IH]; intros Hp; auto. cbn [mp_decrease].
      assert (Hi := Hp p (or_introl eq_refl)). apply ConcTreesPath.dedup_in in Hi. apply filter_In in Hi. destruct Hi as [Hi _]. apply in_map_iff in Hi. destruct Hi as (x & Ex & Hx).
      destruct (Hr x Hx) as (Dx & Tx & Kx). rewrite <- Ex. unfold parent_path_of, get_basepath.
      apply (up_local (m_path x) _ (fun n => n - _)); [apply row_inside; auto|]. apply IH. intros; apply Hp; right; auto. }
    apply Dc. auto.
  - intros t' H' E. rewrite (sel_dom mprow m_pk thick D K _ t' H' M), (sel_dom mprow m_pk thick D K _ t H M), E. auto.
Qed.
End Domain.

(** ** The calls in different trees *)
Section Trees.
Variable cfg : mp_cfg.
Hypothesis radix2 : 2 <= radix cfg.
Hypothesis step1 : 1 <= steplen cfg.
Notation step0 := (ConcTreesPath.step0 cfg).
Notation below_roots := ConcNSTrees.below_roots.
Notation child_positions := ConcNSTrees.child_positions.

(** The node at the side of which the call adds or moves is below a root. *)
Definition deep (t : mp_table) (c : call) : Prop :=
  match c with
  | CAddSibling k _ _ => forall r, In r t -> m_pk r = k -> 2 <= m_depth r
  | CMove _ q p => In p child_positions \/ (forall r, In r t -> m_pk r = q -> 2 <= m_depth r)
  | _ => True
  end.

Lemma root_depth t F r : stores cfg t F -> In r t -> m_depth r = 1 -> In (m_pk r) (map nid (roots F)).
Proof.
  intros (f & L & _ & <- & W) Hr Ed.
  assert (H : In r (get_root_nodes t)).
  { apply (Permutation_in _ (Permutation_sym (isort_perm _ _))). apply filter_In. split; auto. apply Nat.eqb_eq. auto. }
  rewrite (get_root_nodes_lay cfg radix2 step1 t f L) in H.
  unfold sibrows in H. apply in_map_iff in H. destruct H as (s & <- & Hs).
  rewrite MPReorder.kerase_roots. rewrite map_map. apply in_map_iff. exists s. split; auto.
Qed.
Lemma deep0 t F c : stores cfg t F -> below_roots F c -> deep t c.
Proof.
  intros St B.
  assert (G : forall k, ~ In k (map nid (roots F)) -> forall r, In r t -> m_pk r = k -> 2 <= m_depth r).
  { intros k N r Hr E. destruct (ConcTreesPath.mp_fits cfg radix2 step1 t F r St Hr) as (_ & F2 & _).
    destruct (Nat.eq_dec (m_depth r) 1) as [E1|]; [|lia]. exfalso. apply N. rewrite <- E. eapply root_depth; eauto. }
  destruct c as [x|k x|k p x|n q p|l]; cbn in *; auto.
  - apply G. tauto.
  - destruct B as (_ & _ & [B|B]); [auto|]. right. apply G. auto.
Qed.

Fixpoint roomy_calls (t : mp_table) (cs : list call) : Prop :=
  match cs with
  | [] => True
  | c :: cs =>
      (match c with CMove _ _ _ => roomy cfg t | _ => True end) /\
      roomy_calls (match mp_exec_rows cfg t c with Ok t' => t' | Err _ => t end) cs
  end.
Definition calls_of (calls : list call) (order : list nat) : list call :=
  flat_map (fun i => match nth_error calls i with Some c => [c] | None => [] end) order.

Lemma exec_result t F c t' : stores cfg t F -> ordered (order_by cfg) F -> (order_by cfg <> [] -> call_values (order_by cfg) c) -> all_ready t c ->
  (match c with CMove _ _ _ => roomy cfg t | _ => True end) -> mp_exec_rows cfg t c = Ok t' ->
  stores cfg t' (sp_call (order_by cfg) F c) /\ ordered (order_by cfg) (sp_call (order_by cfg) F c).
Proof.
  intros St O V N Rm E. unfold mp_exec_rows in E.
  assert (Fr : fresh_call F c) by (intros i Hi H; apply (N i Hi); apply (ConcMP.ids_iff cfg t F i St); auto).
  destruct (mp_call_ok cfg radix2 step1 (mkDB t []) F c (conj St O) V Fr Rm) as [A|(E' & _)].
  - destruct (mp_exec cfg (mkDB t []) c) as [db'|]; [|discriminate]. cbn [bind] in E. injection E as <-.
    destruct (sp_exec (order_by cfg) F c) as [G|] eqn:Eg; [|destruct A]. apply sp_exec_ok in Eg. subst G. exact A.
  - rewrite E' in E. discriminate.
Qed.

(** What the calls leave, one after another, if there is room. *)
Lemma one_by_one_forest calls : NoDup (flat_map new_ids calls) -> (order_by cfg <> [] -> Forall (call_values (order_by cfg)) calls) ->
  forall order t F, NoDup order -> stores cfg t F -> ordered (order_by cfg) F ->
  (forall i c, In i order -> nth_error calls i = Some c -> all_ready t c) -> roomy_calls t (calls_of calls order) ->
  let G := fold_left (sp_call (order_by cfg)) (succeeded calls (snd (one_by_one (mp_exec_rows cfg) calls t order))) F in
  stores cfg (fst (one_by_one (mp_exec_rows cfg) calls t order)) G /\ ordered (order_by cfg) G.
Proof.
  intros N V. induction order as [|i order IH]; intros t F No St O Rd Rm; auto.
  apply NoDup_cons_iff in No. destruct No as [Ni No]. cbn [one_by_one]. unfold calls_of in Rm. cbn [flat_map] in Rm. fold (calls_of calls order) in Rm.
  destruct (nth_error calls i) as [c|] eqn:E; [|apply IH; auto; intros j d Hj; apply Rd; right; auto].
  cbn [app roomy_calls] in Rm. destruct Rm as [Rm1 Rm2]. assert (Rc := Rd i c (or_introl eq_refl) E).
  assert (Vc : order_by cfg <> [] -> call_values (order_by cfg) c).
  { intros H. specialize (V H). rewrite Forall_forall in V. apply V. eapply nth_error_In; eauto. }
  destruct (mp_exec_rows cfg t c) as [t'|e] eqn:Ex.
  - destruct (exec_result t F c t' St O Vc Rc Rm1 Ex) as [St' O'].
    assert (X := IH t' (sp_call (order_by cfg) F c) No St' O'). destruct (one_by_one (mp_exec_rows cfg) calls t' order) as [t2 l2]. cbn [fst snd] in *.
    unfold succeeded. cbn [flat_map fst snd]. rewrite E. cbn [app fold_left]. apply X; auto.
    intros j d Hj Ej. assert (i <> j) by (intros ->; auto). apply (exec_stays_ready cfg t c d t'); eauto.
    + apply (Rd j); auto. right. auto.
    + apply (calls_apart calls N i j); auto.
  - assert (X := IH t F No St O). destruct (one_by_one (mp_exec_rows cfg) calls t order) as [t2 l2]. cbn [fst snd] in *.
    unfold succeeded. cbn [flat_map fst snd app]. apply X; auto. intros j d Hj. apply Rd. right. auto.
Qed.

Theorem mp_all_different_trees t F calls schedule : stores cfg t F -> (forall c, In c calls -> below_roots F c) ->
  NoDup (flat_map new_ids calls) -> (forall i, In i (flat_map new_ids calls) -> ~ In i (ids F)) ->
  (forall i j c d, i <> j -> nth_error calls i = Some c -> nth_error calls j = Some d -> trees_apart F c d) ->
  let W := play m_pk mp_same (all_begin t (map (mp_tx cfg) calls)) schedule in
  one_by_one (mp_exec_rows cfg) calls t (map fst (w_log W)) = (w_rows W, w_log W) /\ NoDup (map fst (w_log W)) /\
  (finished W = true -> Permutation (map fst (w_log W)) (seq 0 (length calls))) /\
  exists schedule', finished (play m_pk mp_same W schedule') = true.
Proof.
  intros St B0 New0 Fr0 Ap0 W.
  assert (In1 : forall c i, In c calls -> In i (names c) -> In i (ids F)) by (intros c i Hc; apply ConcNSTrees.below_names; auto).
  assert (Ids : forall i, In i (ids F) <-> In i (map m_pk t)) by (intros i; apply (ConcMP.ids_iff cfg t F i); auto).
  assert (Nt : NoDup (map m_pk t)) by (apply (ConcMP.pks_nodup cfg t F); auto).
  assert (V0 : forall r, In r t -> thick cfg r).
  { intros r Hr. destruct (ConcTreesPath.mp_fits cfg radix2 step1 t F r St Hr) as (F1 & F2 & _). split; auto. rewrite F1. auto. }
  assert (Tr : forall r q, In r t -> In q t -> step0 r = step0 q -> tree_of (m_pk r) F = tree_of (m_pk q) F).
  { intros r q. apply ConcTreesPath.mp_trees; auto. }
  set (D := dom mprow m_pk path step0 peq t). set (K := keys mprow m_pk path step0 peq t).
  assert (Home := home0 mprow m_pk (thick cfg) path step0 peq t F calls Nt V0 Ids Fr0).
  assert (Apart := doms_apart mprow m_pk path step0 peq peq_iff t F calls Nt Ids Tr Fr0 New0 Ap0). fold D K in Home, Apart.
  assert (Kn := keys_name mprow m_pk path step0 peq peq_iff t F calls Ids In1). fold K in Kn.
  assert (Ne := keys_new mprow m_pk path step0 peq t). fold K in Ne.
  assert (Dt := dom_tr mprow m_pk path step0 peq peq_iff t). fold D in Dt.
  set (fine := fun u : mp_table => forall c, In c calls -> home mprow m_pk (thick cfg) (D c) (K c) u).
  set (ready := fun (u : mp_table) c => all_ready u c /\ deep u c).
  assert (Starts : forall u c, In c calls -> fine u -> ready u c -> home mprow m_pk (thick cfg) (D c) (K c) u ->
    local_at mprow m_pk mp_same (thick cfg) (D c) (K c) (filter (D c) u) (mp_tx cfg c)).
  { intros u c Hc _ [_ Dp] H. assert (Kc := fun i => Kn c i Hc). assert (Nc := Ne c). assert (Dc := Dt c). assert (B := B0 c Hc).
    destruct c as [x|k x|k p x|n q p|l]; [destruct B| | | |]; cbn [mp_tx].
    - apply child_at; auto; [apply Kc; left; auto|apply Nc; left; auto].
    - apply add_sibling_at; auto; [apply Kc; left; auto|apply Nc; left; auto].
    - apply move_at; auto; [apply Kc; left; auto|apply Kc; right; left; auto].
    - apply local_local_at; auto; [exact mp_same_pk|]. apply delete_local; auto. }
  assert (Other : forall u c d u', In c calls -> In d calls -> fine u -> ready u c -> apart mprow call D K c d ->
    ConcAlone.alone mprow m_pk mp_same u (mp_tx cfg c) = Ok u' -> home mprow m_pk (thick cfg) (D d) (K d) u' /\ filter (D d) u' = filter (D d) u).
  { intros u c d u' Hc Hd Fu Rc [A B] E.
    apply (alone_other mprow m_pk mp_same mp_same_pk (thick cfg) (D c) (D d) (K c) (K d) A B (mp_tx cfg c) u); auto. }
  assert (Sf : forall u c u', In c calls -> fine u -> ready u c -> ConcAlone.alone mprow m_pk mp_same u (mp_tx cfg c) = Ok u' -> fine u').
  { intros u c u' Hc Fu Rc E d Hd. destruct (In_nth_error _ _ Hc) as [i Ei]. destruct (In_nth_error _ _ Hd) as [j Ej].
    destruct (Nat.eq_dec i j) as [->|N].
    - assert (c = d) as <- by congruence. apply (alone_home mprow m_pk mp_same mp_same_pk (thick cfg) (D c) (K c) (mp_tx cfg c) u); auto.
    - apply (Other u c d u'); auto. apply (Apart i j); auto. }
  assert (Sr : forall u c d u', In c calls -> In d calls -> fine u -> ready u c -> ready u d -> apart mprow call D K c d ->
    ConcAlone.alone mprow m_pk mp_same u (mp_tx cfg c) = Ok u' -> ready u' d).
  { intros u c d u' Hc Hd Fu Rc [Nd Dd] A E. destruct (Other u c d u' Hc Hd Fu Rc A E) as [Hh Hf].
    assert (Old : forall r, In r u' -> K d (m_pk r) = true -> In r u).
    { intros r Hr Kr. assert (Dr : D d r = true) by (rewrite (h_dom _ _ _ _ _ _ Hh r Hr); auto).
      assert (X : In r (filter (D d) u)) by (rewrite <- Hf; apply filter_In; auto). apply filter_In in X. tauto. }
    split.
    - intros i Hi H. apply in_map_iff in H. destruct H as (r & Er & Hr). apply (Nd i Hi). rewrite <- Er. apply in_map. apply Old; auto. rewrite Er. auto.
    - assert (G : forall k, In k (names d) -> (forall r, In r u -> m_pk r = k -> 2 <= m_depth r) -> forall r, In r u' -> m_pk r = k -> 2 <= m_depth r).
      { intros k Hk G r Hr Er. apply G; auto. apply Old; auto. rewrite Er. auto. }
      destruct d as [x|k x|k p x|n q p|l]; cbn in *; auto.
      + apply G; auto.
      + destruct Dd as [Dd|Dd]; [auto|]. right. apply G; auto. }
  assert (Rd0 : forall c, In c calls -> ready t c).
  { intros c Hc. split; [|apply (deep0 t F); auto]. intros i Hi H. apply (Fr0 i); [apply in_flat_map; eauto|]. apply Ids. auto. }
  destruct (local_serial mprow m_pk mp_same mp_same_pk (thick cfg) call (mp_tx cfg) D K calls fine ready Starts Apart Sf Sr t schedule) as (H1 & H2 & H3 & H4); auto.
  { split; auto. }
  fold W in H1, H2, H3, H4. split; [|auto].
  rewrite <- (one_by_one_same mprow call m_pk mp_same (mp_exec_rows cfg) (mp_tx cfg) fine (fun u c => In c calls /\ ready u c) (apart mprow call D K)) with (calls := calls); auto.
  - rewrite (one_by_one_map mprow m_pk mp_same calls (mp_tx cfg)). exact H1.
  - intros u c _ [_ [R _]]. apply all_same_call. auto.
  - intros u c u' Fu [Hc Rc] E. rewrite <- all_same_call in E by apply Rc. eauto.
  - intros u c d u' Fu [Hc Rc] [Hd Rd] A E. split; auto. rewrite <- all_same_call in E by apply Rc. eauto.
  - intros i c _ Hc. apply nth_error_In in Hc. auto.
Qed.
End Trees.
