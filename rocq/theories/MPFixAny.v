(** find_problems and fix_tree of mp_tree.py on tables in any state. *)
From Coq Require Import List Arith ZArith Lia Bool.
From Verif Require Import Prelude Forest NumConv SpecFacts PathTab CommonModel Order MPModel MPStep MPInv MPFixModel MPCheck.
Import ListNotations.

Section Any.
Variable cfg : mp_cfg.
Hypothesis radix2 : 2 <= radix cfg.
Hypothesis step1 : 1 <= steplen cfg.
Notation R := (radix cfg).
Notation w := (steplen cfg).

(** ** Specification: the documented meaning of the five lists (mp_tree.py:286-295) *)

(** A character that is not in the alphabet *)
Definition evil (r : mprow) : Prop := exists c, In c (m_path r) /\ R <= c.
(** A length that is not a number of steps *)
Definition bad_length (r : mprow) : Prop := forall k, length (m_path r) <> k * w.
(** More than one step, and the node above is missing *)
Definition orphan (t : mp_table) (r : mprow) : Prop :=
  w < length (m_path r) /\ forall x s, In x t -> m_path r = m_path x ++ s -> length s <> w.
(** One step longer *)
Definition child_path (p q : path) : Prop := exists s, q = p ++ s /\ length s = w.
(** [l] are the rows of the children of the row [r]. *)
Definition children_are (t : mp_table) (r : mprow) (l : mp_table) : Prop :=
  exists f, l = filter f t /\ forall x, In x t -> f x = true <-> child_path (m_path r) (m_path x).

(** What stands in the list for a row, if anything *)
Definition listed (t : mp_table) (parent : option mprow) (r : mprow) (p : problem) : Prop :=
  In (m_pk r, p) (find_problems cfg t parent).

Lemma evil_b r : existsb (fun c => negb (c <? R)) (m_path r) = true <-> evil r.
Proof.
  rewrite existsb_exists. split; intros (c & H & E); exists c; split; auto.
  - apply negb_true_iff, Nat.ltb_ge in E. auto.
  - apply negb_true_iff, Nat.ltb_ge. auto.
Qed.

Lemma bad_b r : length (m_path r) mod w <> 0 <-> bad_length r.
Proof.
  split.
  - intros H k E. apply H. rewrite E. apply Nat.mod_mul. lia.
  - intros H E. apply Nat.mod_divides in E; [|lia]. destruct E as [k E]. apply (H k). lia.
Qed.

Lemma orphan_b t r : NoDup (map m_path t) -> length (m_path r) mod w = 0 ->
  ((exists e, get_parent cfg t r = Err e) <-> orphan t r).
Proof.
  intros U L. apply Nat.mod_divides in L; [|lia]. destruct L as [k L]. rewrite Nat.mul_comm in L.
  unfold get_parent. rewrite L, Nat.div_mul by lia. unfold orphan. rewrite L.
  destruct (Nat.leb_spec k 1) as [Hk|Hk].
  - split; [intros [e H]; discriminate|]. intros [H _]. exfalso. nia.
  - assert (Lp : length (m_path r) = S (k - 1) * w) by nia.
    rewrite (basepath_parent cfg radix2 step1 _ _ Lp). split.
    + intros [e H]. split; [nia|]. intros x s Hx E Es.
      destruct (get_by_path_some t (get_parent_path cfg (m_path r)) U) as [y Hy]; [|rewrite Hy in H; discriminate].
      exists x. split; auto. unfold get_parent_path. rewrite E, app_length, Es.
      replace (length (m_path x) + w - w) with (length (m_path x)) by lia.
      rewrite firstn_app, firstn_all, Nat.sub_diag. simpl. rewrite app_nil_r. auto.
    + intros [_ H]. destruct (get_by_path t (get_parent_path cfg (m_path r))) as [x|e] eqn:E; [|exists e; auto].
      exfalso. apply get_by_path_ok in E. destruct E as [Hx E].
      destruct (parent_split cfg radix2 step1 (m_path r)) as (E1 & E2 & _); [nia|].
      apply (H x (last_step cfg (m_path r))); auto. rewrite E. auto.
Qed.

Lemma child_b p q : ppre p q && (length q =? length p + w) = true <-> child_path p q.
Proof.
  unfold child_path. rewrite andb_true_iff, Nat.eqb_eq, ppre_iff. split.
  - intros [[s ->] L]. exists s. rewrite app_length in L. split; auto. lia.
  - intros (s & -> & L). split; [eauto|]. rewrite app_length. lia.
Qed.

Lemma children_count t r l : children_are t r l -> length l = count_children cfg t (m_path r).
Proof.
  intros (f & -> & H). unfold count_children. f_equal. apply filter_ext_In. intros x Hx.
  apply eq_true_iff_eq. rewrite (H x Hx), child_b. tauto.
Qed.

Lemma listed_iff t parent r p : NoDup (map m_pk t) -> In r t ->
  listed t parent r p <-> below parent r = true /\ problem_of cfg t r = Some p.
Proof.
  intros U Hr. unfold listed, find_problems. rewrite in_flat_map. split.
  - intros (x & Hx & H). apply filter_In in Hx. destruct Hx as [Hx B].
    destruct (problem_of cfg t x) as [q|] eqn:E; [|destruct H]. destruct H as [H|[]].
    injection H as E1 E2. assert (x = r) by (eapply (NoDup_map_inj m_pk); eauto). subst. auto.
  - intros [B E]. exists r. rewrite filter_In, E. simpl. auto.
Qed.

(** Every row stands in at most one list, the first one that applies. *)
Lemma lists_ok t parent r : NoDup (map m_path t) -> NoDup (map m_pk t) -> In r t -> below parent r = true ->
  (listed t parent r EvilChars <-> evil r) /\
  (listed t parent r BadSteplen <-> ~ evil r /\ bad_length r) /\
  (listed t parent r Orphan <-> ~ evil r /\ ~ bad_length r /\ orphan t r) /\
  (listed t parent r WrongDepth <-> ~ evil r /\ ~ bad_length r /\ ~ orphan t r /\ length (m_path r) <> m_depth r * w) /\
  ((forall x, In x t -> ~ evil x /\ ~ bad_length x) -> forall l, children_are t r l ->
    (listed t parent r WrongNumchild <-> ~ orphan t r /\ length (m_path r) = m_depth r * w /\ m_nc r <> length l)).
Proof.
  intros U1 U2 Hr B. assert (LI := fun p => listed_iff t parent r p U2 Hr).
  rewrite !LI. setoid_rewrite LI. unfold problem_of.
  assert (Ev := evil_b r). assert (Bd := bad_b r). assert (Or := orphan_b t r U1).
  destruct (existsb (fun c => negb (c <? R)) (m_path r)) eqn:E1.
  { assert (evil r) by tauto. split; [tauto|].
    do 3 (split; [split; [intros [_ H0]; discriminate|tauto]|]).
    intros Cl l Hl. destruct (Cl r Hr). tauto. }
  assert (Ne : ~ evil r) by (intros X; apply Ev in X; discriminate).
  destruct (Nat.eqb_spec (length (m_path r) mod w) 0) as [E2|E2]; cbn [negb].
  2:{ assert (bad_length r) by tauto.
      split; [split; [intros [_ H0]; discriminate|tauto]|]. split; [tauto|].
      do 2 (split; [split; [intros [_ H0]; discriminate|tauto]|]).
      intros Cl l Hl. destruct (Cl r Hr). tauto. }
  assert (Nb : ~ bad_length r) by tauto. specialize (Or E2).
  destruct (get_parent cfg t r) as [p|e] eqn:E3.
  2:{ assert (orphan t r) by (apply Or; eauto).
      do 2 (split; [split; [intros [_ H0]; discriminate|tauto]|]). split; [tauto|].
      split; [split; [intros [_ H0]; discriminate|tauto]|].
      intros Cl l Hl. split; [intros [_ H0]; discriminate|tauto]. }
  assert (No : ~ orphan t r) by (intros X; apply Or in X; destruct X; discriminate).
  assert (D : m_depth r = length (m_path r) / w <-> length (m_path r) = m_depth r * w).
  { assert (X := Nat.div_mod (length (m_path r)) w). split.
    - intros ->. lia.
    - intros ->. rewrite Nat.div_mul; lia. }
  destruct (Nat.eqb_spec (m_depth r) (length (m_path r) / w)) as [E4|E4]; cbn [negb].
  2:{ do 3 (split; [split; [intros [_ H0]; discriminate|tauto]|]). split; [tauto|].
      intros Cl l Hl. split; [intros [_ H0]; discriminate|tauto]. }
  do 4 (split; [split; [intros [_ H0]; destruct (negb _); discriminate|tauto]|]).
  intros Cl l Hl. rewrite (children_count t r l Hl).
  rewrite (range_children cfg radix2 step1 t r); auto.
  - destruct (Nat.eqb_spec (count_children cfg t (m_path r)) (m_nc r)) as [E5|E5]; cbn [negb].
    + split; [intros [_ H0]; discriminate|]. intros (_ & _ & H). congruence.
    + split; auto. intros _. split; auto. split; [tauto|]. congruence.
  - intros x Hx. apply Forall_forall. intros c Hc. destruct (Nat.lt_ge_cases c R); auto.
    exfalso. apply (proj1 (Cl x Hx)). exists c. auto.
  - intros x Hx. destruct (Nat.eq_dec (length (m_path x) mod w) 0); auto.
    exfalso. apply (proj2 (Cl x Hx)). apply bad_b. auto.
Qed.

(** ** fix_tree without fix_paths *)
Definition fixed parent t := fix_numchild cfg parent (fix_depth cfg parent t).

Lemma fixed_keep {B} (g : mprow -> B) parent t :
  (forall r d c, g (mkMP (m_pk r) (m_path r) d c (m_data r)) = g r) -> map g (fixed parent t) = map g t.
Proof.
  intros H. unfold fixed, fix_numchild, fix_depth. rewrite !map_map. apply map_ext. intros r.
  destruct r as [k p d c f]. simpl.
  destruct parent as [q|]; cbn [below m_path]; [destruct (ppre (m_path q) p) eqn:E; cbn [m_path]; rewrite E|];
    unfold set_nc; cbn; auto; apply (H (mkMP k p d c f)).
Qed.

Definition is_path_problem (p : problem) : bool :=
  match p with EvilChars | BadSteplen | Orphan => true | _ => false end.

(** The fixed row of a row *)
Definition fix_row parent t r := if below parent r
  then mkMP (m_pk r) (m_path r) (length (m_path r) / w) (count_children cfg t (m_path r)) (m_data r) else r.
Lemma fixed_eq parent t : fixed parent t = map (fix_row parent t) t.
Proof.
  unfold fixed, fix_numchild, fix_depth. rewrite map_map. apply map_ext. intros r. unfold fix_row.
  assert (E : forall x, count_children cfg (map (fun r => if below parent r then mkMP (m_pk r) (m_path r) (length (m_path r) / w) (m_nc r) (m_data r) else r) t) x
     = count_children cfg t x).
  { intros x. apply count_paths. rewrite map_map. apply map_ext. intros y. destruct (below parent y); auto. }
  destruct (below parent r) eqn:B; [|rewrite B; auto].
  replace (below parent {| m_pk := m_pk r; m_path := m_path r; m_depth := length (m_path r) / w; m_nc := m_nc r; m_data := m_data r |})
    with (below parent r) by (destruct parent; auto).
  rewrite B. unfold set_nc. cbn. rewrite E. auto.
Qed.

Lemma by_path_ok t t' p : map m_path t = map m_path t' ->
  match get_by_path t p, get_by_path t' p with Ok _, Ok _ | Err _, Err _ => True | _, _ => False end.
Proof.
  intros E. unfold get_by_path.
  assert (G : length (filter (fun r => peq (m_path r) p) t) = length (filter (fun r => peq (m_path r) p) t')).
  { assert (X : forall l, length (filter (fun r => peq (m_path r) p) l) = length (filter (fun x => peq x p) (map m_path l))).
    { intros l. rewrite filter_map, map_length. auto. }
    rewrite !X, E. auto. }
  destruct (filter _ t) as [|a [|b l]], (filter _ t') as [|a' [|b' l']]; simpl in G; try discriminate; auto.
Qed.

(** What is found out about a row that was fixed: the same problems of paths, and else at
    most a wrong number of children *)
Lemma fixed_problem parent t r : below parent r = true ->
  let q := problem_of cfg (fixed parent t) (fix_row parent t r) in
  (forall p, is_path_problem p = true -> (q = Some p <-> problem_of cfg t r = Some p)) /\ q <> Some WrongDepth.
Proof.
  intros B. assert (E : map m_path (fixed parent t) = map m_path t) by (apply fixed_keep; auto).
  unfold fix_row. rewrite B. unfold problem_of. cbn [m_path m_depth m_nc].
  destruct (existsb _ (m_path r)); [split; [tauto|discriminate]|].
  destruct (negb (length (m_path r) mod w =? 0)); [split; [tauto|discriminate]|].
  unfold get_parent. cbn [m_path].
  assert (G := by_path_ok (fixed parent t) t (get_basepath cfg (m_path r) (length (m_path r) / w - 1)) E).
  rewrite Nat.eqb_refl. cbn [negb].
  assert (Y : forall (a b : bool) p, is_path_problem p = true ->
    ((if a then Some WrongNumchild else None) = Some p <->
     (if negb (m_depth r =? length (m_path r) / w) then Some WrongDepth else if b then Some WrongNumchild else None) = Some p)).
  { intros a b p Hp. destruct a, b, (m_depth r =? length (m_path r) / w); cbn [negb];
      split; intros X; try discriminate X; injection X as <-; discriminate Hp. }
  destruct (length (m_path r) / w <=? 1); [split; [intros p; apply Y|match goal with |- (if ?b then _ else _) <> _ => destruct b; discriminate end]|].
  destruct (get_by_path (fixed parent t) _), (get_by_path t _); cbn [bind]; try contradiction;
    [split; [intros p; apply Y|match goal with |- (if ?b then _ else _) <> _ => destruct b; discriminate end]|].
  split; [tauto|discriminate].
Qed.

Definition on_paths (l : list (nat * problem)) : list (nat * problem) := filter (fun x => is_path_problem (snd x)) l.

Lemma below_fixed parent t0 r : below parent (fix_row parent t0 r) = below parent r.
Proof. unfold fix_row. destruct (below parent r) eqn:B; auto; destruct parent; auto. Qed.

Lemma filter_fixed parent t0 t :
  filter (below parent) (map (fix_row parent t0) t) = map (fix_row parent t0) (filter (below parent) t).
Proof.
  induction t as [|r t IH]; simpl; auto. rewrite below_fixed.
  destruct (below parent r); simpl; rewrite IH; auto.
Qed.

Lemma fixed_lists parent t :
  on_paths (find_problems cfg (fixed parent t) parent) = on_paths (find_problems cfg t parent) /\
  forall k, ~ In (k, WrongDepth) (find_problems cfg (fixed parent t) parent).
Proof.
  assert (E0 : filter (below parent) (fixed parent t) = map (fix_row parent t) (filter (below parent) t))
    by (rewrite fixed_eq; apply filter_fixed).
  unfold find_problems. rewrite E0. clear E0.
  assert (H : forall r, In r (filter (below parent) t) -> below parent r = true) by (intros r Hr; apply filter_In in Hr; tauto).
  induction (filter (below parent) t) as [|r l IH]; [split; auto|].
  destruct IH as [IH1 IH2]; [intros x Hx; apply H; right; auto|].
  destruct (fixed_problem parent t r (H r (or_introl eq_refl))) as [P1 P2]. cbn [map flat_map]. split.
  - unfold on_paths in *. rewrite !filter_app, IH1. f_equal.
    replace (m_pk (fix_row parent t r)) with (m_pk r) by (unfold fix_row; destruct (below parent r); auto).
    destruct (problem_of cfg (fixed parent t) (fix_row parent t r)) as [p|], (problem_of cfg t r) as [p'|]; cbn [filter snd]; auto.
    + destruct (is_path_problem p) eqn:E; [|destruct (is_path_problem p') eqn:E'; auto].
      * assert (X := proj1 (P1 p E) eq_refl). injection X as ->. rewrite E. auto.
      * assert (X := proj2 (P1 p' E') eq_refl). injection X as ->. congruence.
    + destruct (is_path_problem p) eqn:E; auto. assert (X := proj1 (P1 p E) eq_refl). discriminate.
    + destruct (is_path_problem p') eqn:E; auto. assert (X := proj2 (P1 p' E) eq_refl). discriminate.
  - intros k Hk. apply in_app_iff in Hk. destruct Hk as [Hk|Hk]; [|eapply IH2; eauto].
    destruct (problem_of cfg (fixed parent t) (fix_row parent t r)) as [p|]; [|destruct Hk].
    destruct Hk as [Hk|[]]. injection Hk as _ ->. auto.
Qed.

(** If all paths have the right characters and lengths, the numbers of children are right too. *)
Lemma fixed_counts parent t : (forall x, In x t -> ~ evil x /\ ~ bad_length x) ->
  forall k, ~ In (k, WrongNumchild) (find_problems cfg (fixed parent t) parent).
Proof.
  intros Cl k Hk. unfold find_problems in Hk. apply in_flat_map in Hk. destruct Hk as (x & Hx & Hk).
  apply filter_In in Hx. destruct Hx as [Hx B].
  destruct (problem_of cfg (fixed parent t) x) as [p|] eqn:E; [|destruct Hk]. destruct Hk as [Hk|[]]. injection Hk as _ ->.
  assert (Hx0 := Hx). rewrite fixed_eq in Hx. apply in_map_iff in Hx. destruct Hx as (r & <- & Hr). rewrite below_fixed in B.
  unfold problem_of in E. destruct (existsb _ _); [discriminate|]. destruct (negb (_ mod _ =? _)); [discriminate|].
  destruct (get_parent _ _ _); [|discriminate].
  destruct (Nat.eqb_spec (m_depth (fix_row parent t r)) (length (m_path (fix_row parent t r)) / w)) as [D|]; [|discriminate].
  cbn [negb] in E.
  assert (Pm : map m_path (fixed parent t) = map m_path t) by (apply fixed_keep; auto).
  assert (Px : forall x, In x (fixed parent t) -> exists y, In y t /\ m_path y = m_path x).
  { intros x Hx. apply (in_map m_path) in Hx. rewrite Pm in Hx. apply in_map_iff in Hx. destruct Hx as (y & E1 & Hy). eauto. }
  rewrite (range_children cfg radix2 step1) in E; auto.
  - rewrite (count_paths cfg _ t) in E by exact Pm. unfold fix_row in E. rewrite B in E. cbn [m_path m_nc] in E.
    rewrite Nat.eqb_refl in E. discriminate.
  - intros x Hx. destruct (Px x Hx) as (y & Hy & <-). apply Forall_forall. intros c Hc. destruct (Nat.lt_ge_cases c R); auto.
    exfalso. apply (proj1 (Cl y Hy)). exists c. auto.
  - intros x Hx. destruct (Px x Hx) as (y & Hy & <-). destruct (Nat.eq_dec (length (m_path y) mod w) 0); auto.
    exfalso. apply (proj2 (Cl y Hy)). apply bad_b. auto.
Qed.

Lemma fixed_twice parent t : fixed parent (fixed parent t) = fixed parent t.
Proof.
  rewrite (fixed_eq parent (fixed parent t)). rewrite <- (map_id (fixed parent t)) at 3. apply map_ext_in.
  intros x Hx. rewrite fixed_eq in Hx. apply in_map_iff in Hx. destruct Hx as (r & <- & Hr).
  unfold fix_row at 1. rewrite below_fixed. destruct (below parent r) eqn:B; auto.
  rewrite (count_paths cfg (fixed parent t) t) by (apply fixed_keep; auto).
  unfold fix_row. rewrite B. auto.
Qed.

(** Rows that are not below [parent] stay as they are. *)
Lemma fixed_outside parent t r : below parent r = false -> In r t -> In r (fixed parent t).
Proof. intros B Hr. rewrite fixed_eq. apply in_map_iff. exists r. split; auto. unfold fix_row. rewrite B. auto. Qed.

(** ** fix_tree with fix_paths *)
Definition owned (r : mprow) := (m_pk r, m_data r).

Lemma rewrite_owned db old new db' : rewrite_node_path db old new = Ok db' ->
  map owned (db_rows db') = map owned (db_rows db).
Proof.
  unfold rewrite_node_path. destruct (peq old new); [intros H; injection H as <-; auto|].
  destruct (existsb _ _); [discriminate|]. intros H. injection H as <-. cbn [db_rows]. rewrite map_map.
  apply map_ext. intros r. unfold rewrite_row. destruct (ppre old (m_path r)); auto.
Qed.

Lemma evict_owned pp d k s s' : evict cfg pp d k s = Ok s' -> map owned (db_rows (fx_db s')) = map owned (db_rows (fx_db s)).
Proof.
  unfold evict. destruct (assoc k (fx_seq s)) as [occ|]; [|intros H; injection H as <-; auto].
  destruct (opt_res _ _) as [old|]; [|discriminate]. cbn [bind].
  destruct (_ <? _); [discriminate|].
  destruct (rewrite_node_path (fx_db s) old _) as [db|] eqn:E; [|discriminate]. cbn [bind].
  intros H. injection H as <-. eapply rewrite_owned; eauto.
Qed.

Lemma item_owned pp d k pk s s' : fix_item cfg pp d k pk s = Ok s' -> map owned (db_rows (fx_db s')) = map owned (db_rows (fx_db s)).
Proof.
  unfold fix_item. destruct (opt_res _ _) as [p|]; [|discriminate]. cbn [bind].
  destruct (get_lastpos cfg p) as [a|]; [|discriminate]. cbn [bind].
  destruct (a =? k); [intros H; injection H as <-; auto|].
  destruct (evict cfg pp d k s) as [s1|] eqn:E1; [|discriminate]. cbn [bind].
  destruct (opt_res _ _) as [old|]; [|discriminate]. cbn [bind].
  destruct (rewrite_node_path (fx_db s1) old _) as [db|] eqn:E; [|discriminate]. cbn [bind].
  intros H. injection H as <-. cbn [fx_db]. rewrite (rewrite_owned _ _ _ _ E). eapply evict_owned; eauto.
Qed.

Lemma items_owned pp d l : forall i s q s' q', fix_items cfg pp d i l s q = Ok (s', q') ->
  map owned (db_rows (fx_db s')) = map owned (db_rows (fx_db s)).
Proof.
  induction l as [|it l IH]; intros i s q s' q'; cbn [fix_items]; [intros H; injection H as <- <-; auto|].
  destruct (fix_item cfg pp d (S i) (m_pk it) s) as [s1|] eqn:E1; [|discriminate]. cbn [bind].
  destruct (opt_res _ _) as [p|]; [|discriminate]. cbn [bind].
  intros H. apply IH in H. rewrite H. eapply item_owned; eauto.
Qed.

Lemma loop_owned fuel : forall db q db', fix_loop cfg fuel db q = Ok db' -> map owned (db_rows db') = map owned (db_rows db).
Proof.
  induction fuel as [|fuel IH]; intros db [|[p d] q] db'; cbn [fix_loop]; try discriminate;
    try (intros H; injection H as <-; auto; fail).
  destruct (fix_level cfg db p d q) as [[db1 q1]|] eqn:E; [|discriminate]. cbn [bind]. intros H. apply IH in H. rewrite H.
  unfold fix_level in E. destruct (positions cfg _) as [sq|]; [|discriminate]. cbn [bind] in E.
  destruct (fix_items cfg p d 0 _ _ q) as [[s' q']|] eqn:E1; [|discriminate]. cbn [bind] in E. injection E as <- <-.
  apply items_owned in E1. rewrite E1. auto.
Qed.

Lemma fix_owned db fp parent db' : fix_tree cfg db fp parent = Ok db' -> map owned (db_rows db') = map owned (db_rows db).
Proof.
  unfold fix_tree. fold (fixed parent (db_rows db)).
  assert (E : map owned (fixed parent (db_rows db)) = map owned (db_rows db)) by (apply fixed_keep; auto).
  destruct fp; [|intros H; injection H as <-; auto].
  intros H. apply loop_owned in H. rewrite H. auto.
Qed.
End Any.
