(** Materialized paths as strings over an alphabet (C51). *)
From Coq Require Import String List Arith Lia Bool ZArith Sorted Permutation.
From Verif Require Import Prelude Forest SpecFacts SpecSane NumConv PathTab CommonModel Order History SpecRun
  MPModel MPInv MPReads MPHist MPTextModel MPText Fixture PropsMP.
Import ListNotations.
Local Open Scope string_scope.
Local Open Scope list_scope.
Local Open Scope nat_scope.

(** What the queries must return for the forest [F] *)
Record shows (alphabet : list char) (clt like : char -> char -> bool) (cfg : mp_cfg) (t : text_table)
    (F : forest node) : Prop := mkShows {
  sh_tree : forall d, map node_of (s_get_tree clt like t None d) = preorder (prune_opt d F);
  sh_roots : map node_of (s_get_root_nodes clt t) = roots F;
  sh_children : forall r, In r t ->
    kid_list (Some (m_pk r)) F = Some (map node_of (s_get_children alphabet clt cfg t r));
  sh_siblings : forall r, In r t ->
    map node_of (s_get_siblings alphabet clt cfg t r) = siblings_of (m_pk r) F /\
    option_map node_of (s_get_next_sibling alphabet clt cfg t r) = next_of (m_pk r) (siblings_of (m_pk r) F) /\
    option_map node_of (s_get_prev_sibling alphabet clt cfg t r) = prev_of (m_pk r) (siblings_of (m_pk r) F);
  sh_descendants : forall r d, In r t -> exists k, children_of (m_pk r) F = Some k /\
    map node_of (s_get_tree clt like t (Some r) d) = node_of r :: preorder (prune_opt d k) /\
    map node_of (s_get_descendants clt like t r false d) = preorder (prune_opt d k);
  sh_ancestors : forall r, In r t -> ancestors_of (m_pk r) F = Some (map node_of (s_get_ancestors clt cfg t r)) /\
    (exists x, s_get_root clt cfg t r = Ok x /\ In x t /\
       node_of x = hd (node_of r) (map node_of (s_get_ancestors clt cfg t r)));
  sh_parent : forall r, In r t -> exists q, s_get_parent clt cfg t r = Ok q /\
    parent_of (m_pk r) F = Some (option_map m_pk q);
  sh_predicates : forall r n, In r t -> In n t ->
    (s_is_child_of r n = true <-> parent_of (m_pk r) F = Some (Some (m_pk n))) /\
    (s_is_sibling_of cfg r n = true <-> parent_of (m_pk r) F = parent_of (m_pk n) F) /\
    (s_is_descendant_of r n = true <-> descends F (m_pk n) (m_pk r));
  sh_counts : forall parent, (forall p, parent = Some p -> In p t) ->
    exists l, kid_list (option_map m_pk parent) F = Some l /\
    map (fun x => (node_of (fst x), snd x)) (s_get_descendants_group_count alphabet clt like cfg t parent) =
    map (fun a => (a, match children_of (nid a) F with Some k => size k | None => 0 end)) l
}.

Section Text.
Variable alphabet : list char.
Variables clt like : char -> char -> bool.
Variable cfg : mp_cfg.
Hypothesis good : sorted_alphabet alphabet clt like.
Hypothesis radix_is : radix cfg = length alphabet.
Hypothesis step1 : 1 <= steplen cfg.
Notation rr := (rr alphabet cfg).
Notation o := (order_by cfg).

Lemma nodes_rr t u : Forall2 rr t u -> map node_of t = map node_of u.
Proof.
  induction 1 as [|r s t u H F IH]; simpl; auto. f_equal; auto. unfold node_of.
  rewrite (rr_pk _ _ _ _ H), (rr_data _ _ _ _ H). auto.
Qed.
Lemma node_rr r s : rr r s -> node_of r = node_of s.
Proof. intros H. unfold node_of. rewrite (rr_pk _ _ _ _ H), (rr_data _ _ _ _ H). auto. Qed.
Lemma opt_rr a b : ropt rr a b -> option_map node_of a = option_map node_of b.
Proof. destruct a, b; simpl; intros H; try tauto. f_equal. apply node_rr, H. Qed.
Lemma f2_in_r t u s : Forall2 rr t u -> In s u -> exists r, In r t /\ rr r s.
Proof.
  induction 1 as [|a b t u H F IH]; intros K; [destruct K|]. destruct K as [<-|K].
  - exists a. split; auto. left; auto.
  - destruct (IH K) as (r & Hr & R). exists r. split; auto. right; auto.
Qed.
Lemma f2_in_l t u r : Forall2 rr t u -> In r t -> exists s, In s u /\ rr r s.
Proof.
  induction 1 as [|a b t u H F IH]; intros K; [destruct K|]. destruct K as [<-|K].
  - exists b. split; auto. left; auto.
  - destruct (IH K) as (s & Hs & R). exists s. split; auto. right; auto.
Qed.

Lemma shows_rr t u F : stores cfg t F -> Forall2 rr t u -> shows alphabet clt like cfg u F.
Proof.
  intros S T. assert (R2 := two alphabet clt like cfg good radix_is).
  constructor.
  - intros d. rewrite <- (C07_tree cfg R2 step1 t F d S). symmetry. apply nodes_rr. eapply r_get_tree; eauto; exact I.
  - destruct (C07_roots cfg R2 step1 t F S) as (E & _). rewrite <- E. symmetry.
    apply nodes_rr. eapply r_get_root_nodes; eauto.
  - intros s Hs. destruct (f2_in_r _ _ _ T Hs) as (r & Hr & R).
    destruct (C07_children cfg R2 step1 t F r S Hr) as (k & E & E1 & _).
    rewrite <- (rr_pk _ _ _ _ R), E, <- E1. f_equal. apply nodes_rr. eapply r_get_children; eauto.
  - intros s Hs. destruct (f2_in_r _ _ _ T Hs) as (r & Hr & R).
    destruct (C07_siblings cfg R2 step1 t F r S Hr) as (E1 & _ & _ & E2 & E3).
    rewrite <- (rr_pk _ _ _ _ R), <- E2, <- E3, <- E1. split; [|split]; symmetry.
    + apply nodes_rr. eapply r_get_siblings; eauto.
    + apply opt_rr. eapply r_get_next_sibling; eauto.
    + apply opt_rr. eapply r_get_prev_sibling; eauto.
  - intros s d Hs. destruct (f2_in_r _ _ _ T Hs) as (r & Hr & R).
    destruct (C07_descendants cfg R2 step1 t F r d S Hr) as (k & E & E1 & _ & E2 & _).
    exists k. rewrite <- (rr_pk _ _ _ _ R), <- (node_rr _ _ R), <- E1, <- E2. split; auto. split; symmetry.
    + apply nodes_rr. eapply r_get_tree; eauto.
    + apply nodes_rr. eapply r_get_descendants; eauto.
  - intros s Hs. destruct (f2_in_r _ _ _ T Hs) as (r & Hr & R).
    destruct (C07_ancestors cfg R2 step1 t F r S Hr) as (l & E & E1 & _ & _ & x & X1 & X2 & X3).
    assert (A : map node_of (get_ancestors cfg t r) = map node_of (s_get_ancestors clt cfg u s)).
    { eapply nodes_rr, r_get_ancestors; eauto. }
    rewrite <- A, E1, <- (rr_pk _ _ _ _ R), <- (node_rr _ _ R). split; auto.
    assert (G := r_get_root alphabet clt like cfg good radix_is t u r s T R). rewrite X1 in G.
    destruct (s_get_root clt cfg u s) as [y|] eqn:EY; simpl in G; [|tauto].
    exists y. split; auto. split; [|rewrite <- (node_rr _ _ G); auto].
    unfold s_get_root in EY. destruct (is_root s).
    + injection EY as <-. auto.
    + unfold s_get_by_path in EY.
      destruct (filter _ u) as [|z [|z' l']] eqn:EF; try discriminate. injection EY as <-.
      assert (Z : In z (z :: [])) by (left; auto). rewrite <- EF in Z. apply filter_In in Z. tauto.
  - intros s Hs. destruct (f2_in_r _ _ _ T Hs) as (r & Hr & R).
    destruct (C07_parent cfg R2 step1 t F r S Hr) as (q & E & E1 & _).
    assert (G := r_get_parent alphabet clt like cfg good radix_is t u r s T R). rewrite E in G.
    destruct (s_get_parent clt cfg u s) as [y|]; simpl in G; [|tauto]. exists y. split; auto.
    rewrite <- (rr_pk _ _ _ _ R), E1. f_equal. destruct q, y; simpl in G; try tauto.
    simpl. f_equal. apply G.
  - intros s m Hs Hm. destruct (f2_in_r _ _ _ T Hs) as (r & Hr & R). destruct (f2_in_r _ _ _ T Hm) as (n & Hn & N).
    rewrite <- (rr_pk _ _ _ _ R), <- (rr_pk _ _ _ _ N).
    rewrite <- (r_is_child_of alphabet clt like cfg good radix_is r s n m R N).
    rewrite <- (r_is_sibling_of alphabet clt like cfg good radix_is r s n m R N).
    rewrite <- (r_is_descendant_of alphabet clt like cfg good radix_is r s n m R N).
    apply (C07_predicates cfg R2 step1 t F r n S Hr Hn).
  - intros parent Hp. assert (Q : exists p, ropt rr p parent /\ forall x, p = Some x -> In x t).
    { destruct parent as [s|].
      - destruct (f2_in_r _ _ _ T (Hp s eq_refl)) as (r & Hr & R). exists (Some r). split; auto.
        intros x E. injection E as <-. auto.
      - exists None. split; [exact I|discriminate]. }
    destruct Q as (p & P & Hp'). destruct (C44_mp_group_counts cfg R2 step1 t F p S Hp') as (l & E & E1).
    exists l. rewrite <- E1. split.
    + rewrite <- E. f_equal. destruct p, parent; simpl in P; try tauto. simpl. f_equal. symmetry. apply P.
    + assert (G := r_get_descendants_group_count alphabet clt like cfg good radix_is t u p parent T P).
      symmetry. clear E1. induction G as [|x y l1 l2 [G1 G2] G3 IH]; simpl; auto. f_equal; auto. f_equal; auto. apply node_rr, G1.
Qed.

(** ** C51: strings and indexes *)

(** The queries on the strings of a table of indexes *)
Theorem C51_reads_partial t F : stores cfg t F -> shows alphabet clt like cfg (map (text_row alphabet) t) F.
Proof.
  intros S. apply (shows_rr t); auto. apply text_f2.
  assert (R2 := two alphabet clt like cfg good radix_is).
  destruct (proj1 (C03_invariant cfg R2 step1 t) (ex_intro _ F S)) as (_ & _ & H).
  apply Forall_forall. intros r Hr. apply H, Hr.
Qed.

(** Every call, on every table of indexes with digits below the radix, does the same on strings. *)
Theorem C51_calls_partial db c : python_order alphabet cfg ->
  Forall (fun r => Forall (fun x => x < radix cfg) (m_path r)) (db_rows db) -> db_sig db = [] ->
  s_exec alphabet clt like cfg (text_db alphabet db) c =
  match mp_exec cfg db c with Ok db' => Ok (text_db alphabet db') | Err e => Err e end.
Proof.
  intros Py H E. assert (D : rd alphabet cfg db (text_db alphabet db)).
  { split; [apply text_f2, H|]. simpl. rewrite E. constructor. }
  assert (K := r_exec alphabet clt like cfg good radix_is Py _ _ c D).
  destruct (mp_exec cfg db c) as [d1|], (s_exec alphabet clt like cfg (text_db alphabet db) c) as [e1|];
    simpl in K; try tauto; [|congruence].
  f_equal. apply (rd_text _ _ _ _ K).
Qed.

(** Any sequence of calls, also when the key space is used up *)
Theorem C51_histories_partial cs : python_order alphabet cfg ->
  let (db, done) := run (mp_exec cfg) mp_empty cs in
  run (s_exec alphabet clt like cfg) mp_empty cs = (text_db alphabet db, done).
Proof.
  intros Py. assert (K := r_runs alphabet clt like cfg good radix_is Py cs _ _ (rd_nil alphabet cfg)). fold mp_empty in K.
  destruct (run (mp_exec cfg) mp_empty cs) as [d c], (run (s_exec alphabet clt like cfg) mp_empty cs) as [e c'].
  destruct K as [K1 K2]. simpl in K1, K2. subst c'. f_equal. apply (rd_text _ _ _ _ K1).
Qed.

(** The strings hold the forest of the calls. *)
Lemma tree_ok cs : python_order alphabet cfg ->
  length cs + 1 < radix cfg ^ steplen cfg -> steplen cfg * length cs <= maxlen cfg ->
  NoDup (flat_map new_ids cs) -> (o <> [] -> Forall (call_values o) cs) ->
  let (db, done) := run (s_exec alphabet clt like cfg) mp_empty cs in
  let (F, done') := run (sp_exec o) Nil cs in
  done = done' /\ shows alphabet clt like cfg (db_rows db) F /\ ordered o F.
Proof.
  intros Py L M ND V. assert (R2 := two alphabet clt like cfg good radix_is).
  assert (H := C03_histories_room cfg R2 step1 cs L M ND V).
  assert (K := r_runs alphabet clt like cfg good radix_is Py cs _ _ (rd_nil alphabet cfg)). fold mp_empty in K.
  destruct (run (mp_exec cfg) mp_empty cs) as [d c], (run (s_exec alphabet clt like cfg) mp_empty cs) as [e c'].
  destruct (run (sp_exec o) Nil cs) as [F c'']. destruct K as [[K1 _] K2], H as (H1 & H2 & H3).
  simpl in K1, K2. subst. split; auto. split; auto. apply (shows_rr (db_rows d)); auto.
Qed.
End Text.

(** ** The < of Python *)

(** The class [cfg] with the alphabet [a] *)
Definition py_cfg (a : list char) (cfg : mp_cfg) : mp_cfg :=
  mkPyCfg (length a) (steplen cfg) (maxlen cfg) (order_by cfg) (fun p q => plt (text a p) (text a q))
    (fun p => llt_irr Nat.ltb Nat.ltb_irrefl (text a p)).

Lemma nth_lt_len l : StronglySorted lt l -> forall i j, i < j -> j < length l -> nth i l 0 < nth j l 0.
Proof.
  induction 1 as [|x l S IH F]; simpl; intros i j Hi Hj; [lia|].
  destruct j as [|j]; [lia|]. destruct i as [|i].
  - rewrite Forall_forall in F. apply F, nth_In. lia.
  - apply IH; lia.
Qed.

(** Every alphabet has a [py_lt]; it is the order of indexes if the alphabet is in the order
    of code points. *)
Theorem C51_python a cfg : python_order a (py_cfg a cfg) /\
  (StronglySorted lt a -> forall s m o, python_order a (mkCfg (length a) s m o)).
Proof.
  split; [intros p q _ _; reflexivity|]. intros S s m o p q Hp Hq. simpl in *. unfold plt. symmetry.
  apply (llt_text a (mkCfg (length a) s m o)); auto. simpl. intros i j Hi Hj.
  assert (K := nth_lt_len _ S). destruct (Nat.ltb_spec i j) as [H|H].
  - apply Nat.ltb_lt. auto.
  - apply Nat.ltb_ge. destruct (Nat.eq_dec i j) as [->|N]; auto.
    apply Nat.lt_le_incl, K; [lia|exact Hi].
Qed.

(** Whatever the order of code points, the strings hold the forest of the calls. *)
Theorem C51_tree_partial a clt like cfg cs : sorted_alphabet a clt like -> 1 <= steplen cfg ->
  length cs + 1 < length a ^ steplen cfg -> steplen cfg * length cs <= maxlen cfg ->
  NoDup (flat_map new_ids cs) -> (order_by cfg <> [] -> Forall (call_values (order_by cfg)) cs) ->
  let (db, done) := run (s_exec a clt like cfg) mp_empty cs in
  let (F, done') := run (sp_exec (order_by cfg)) Nil cs in
  done = done' /\ shows a clt like cfg (db_rows db) F /\ ordered (order_by cfg) F.
Proof.
  intros G S L M ND V.
  assert (H := tree_ok a clt like (py_cfg a cfg) G eq_refl S cs (proj1 (C51_python a cfg)) L M ND V).
  change (s_exec a clt like (py_cfg a cfg)) with (s_exec a clt like cfg) in H.
  change (order_by (py_cfg a cfg)) with (order_by cfg) in H.
  destruct (run (s_exec a clt like cfg) mp_empty cs) as [db c], (run (sp_exec (order_by cfg)) Nil cs) as [F c'].
  destruct H as (H1 & [] & H3). split; auto. split; auto. constructor; assumption.
Qed.

(** Two alphabets, of any lengths: the same tree *)
Theorem C51_same_tree_partial a b clt like clt' like' cfg cs :
  sorted_alphabet a clt like -> sorted_alphabet b clt' like' -> 1 <= steplen cfg ->
  length cs + 1 < length a ^ steplen cfg -> length cs + 1 < length b ^ steplen cfg ->
  steplen cfg * length cs <= maxlen cfg ->
  NoDup (flat_map new_ids cs) -> (order_by cfg <> [] -> Forall (call_values (order_by cfg)) cs) ->
  let (da, done) := run (s_exec a clt like cfg) mp_empty cs in
  let (db, done') := run (s_exec b clt' like' cfg) mp_empty cs in
  done = done' /\ exists F, shows a clt like cfg (db_rows da) F /\ shows b clt' like' cfg (db_rows db) F.
Proof.
  intros A B S L L' M ND V.
  assert (H := C51_tree_partial a clt like cfg cs A S L M ND V).
  assert (K := C51_tree_partial b clt' like' cfg cs B S L' M ND V).
  destruct (run (s_exec a clt like cfg) mp_empty cs) as [da c], (run (s_exec b clt' like' cfg) mp_empty cs) as [db c'].
  destruct (run (sp_exec (order_by cfg)) Nil cs) as [F c'']. destruct H as (-> & H & _), K as (-> & K & _).
  split; auto. exists F. auto.
Qed.

(** Two alphabets of the same length that Python orders alike: the same rows *)
Theorem C51_alphabets_partial a b clt like clt' like' cfg cs :
  sorted_alphabet a clt like -> sorted_alphabet b clt' like' ->
  radix cfg = length a -> length a = length b -> python_order a cfg -> python_order b cfg ->
  let (da, done) := run (s_exec a clt like cfg) mp_empty cs in
  let (db, done') := run (s_exec b clt' like' cfg) mp_empty cs in
  done = done' /\
  map (fun r => (m_pk r, m_depth r, m_nc r, m_data r, length (m_path r))) (db_rows da) =
  map (fun r => (m_pk r, m_depth r, m_nc r, m_data r, length (m_path r))) (db_rows db).
Proof.
  intros A B R L Pa Pb. assert (R' : radix cfg = length b) by congruence.
  assert (H := C51_histories_partial a clt like cfg A R cs Pa).
  assert (K := C51_histories_partial b clt' like' cfg B R' cs Pb).
  destruct (run (mp_exec cfg) mp_empty cs) as [d c]. rewrite H, K. split; auto.
  unfold text_db. cbn [db_rows]. rewrite !map_map. apply map_ext. intros r. unfold text_row, text. simpl.
  rewrite !map_length. auto.
Qed.

(** ** Alphabets of the documentation *)

(** mp_tree.py:1028; docs/source/mp_tree.rst:133-136 *)
Definition default_alphabet : list char := seq 48 10 ++ seq 65 26.
Definition base62 : list char := seq 48 10 ++ seq 65 26 ++ seq 97 26.
Definition printable : list char := seq 32 95.

(** Letters without case: SQLite's LIKE, MySQL's default collations *)
Definition upper (c : char) : char := if (97 <=? c) && (c <=? 122) then c - 32 else c.
Definition nocase_eq (c d : char) : bool := upper c =? upper d.
Definition nocase_lt (c d : char) : bool := upper c <? upper d.

Definition sorted_check (a : list char) (clt like : char -> char -> bool) : bool :=
  (2 <=? length a) &&
  forallb (fun i => forallb (fun j =>
    Bool.eqb (clt (nth i a 0) (nth j a 0)) (i <? j) &&
    Bool.eqb (like (nth i a 0) (nth j a 0)) (i =? j)) (seq 0 (length a))) (seq 0 (length a)).

Lemma sorted_check_ok a clt like : sorted_check a clt like = true -> sorted_alphabet a clt like.
Proof.
  unfold sorted_check. intros H. apply andb_prop in H. destruct H as [H1 H2].
  assert (K : forall i j, i < length a -> j < length a ->
    clt (nth i a 0) (nth j a 0) = (i <? j) /\ like (nth i a 0) (nth j a 0) = (i =? j)).
  { intros i j Hi Hj. rewrite forallb_forall in H2.
    assert (H3 := H2 i (proj2 (in_seq _ _ _) (conj (Nat.le_0_l i) Hi))). cbv beta in H3.
    rewrite forallb_forall in H3.
    assert (H4 := H3 j (proj2 (in_seq _ _ _) (conj (Nat.le_0_l j) Hj))). cbv beta in H4.
    apply andb_prop in H4. destruct H4 as [H4 H6]. apply eqb_prop in H4, H6. auto. }
  split; [apply Nat.leb_le, H1|]. split; intros i j Hi Hj; apply (K i j Hi Hj).
Qed.

Lemma forallb_S f l : forallb f (map S l) = forallb (fun i => f (S i)) l.
Proof. induction l as [|x l IH]; simpl; congruence. Qed.

Definition code_check (a : list char) : bool := forallb (fun i => nth i a 0 <? nth (S i) a 0) (seq 0 (length a - 1)).

Lemma code_check_ok a : code_check a = true -> StronglySorted lt a.
Proof.
  unfold code_check. intros H. apply Sorted_StronglySorted; [exact Nat.lt_trans|].
  induction a as [|x [|y a] IH]; [constructor|repeat constructor|].
  simpl in H. apply andb_prop in H. destruct H as [H1 H2]. constructor.
  - apply IH. simpl. rewrite Nat.sub_0_r. rewrite <- H2. rewrite <- seq_shift, forallb_S. auto.
  - constructor. apply Nat.ltb_lt, H1.
Qed.

(** The default alphabet is right with and without case, in both places; the 62 letters
    and digits and the printable characters of ASCII need an order by code points and
    a LIKE with case. *)
Theorem C51_documented :
  Forall (StronglySorted lt) [default_alphabet; base62; printable] /\
  sorted_alphabet default_alphabet Nat.ltb Nat.eqb /\ sorted_alphabet default_alphabet Nat.ltb nocase_eq /\
  sorted_alphabet default_alphabet nocase_lt nocase_eq /\
  sorted_alphabet base62 Nat.ltb Nat.eqb /\ sorted_alphabet printable Nat.ltb Nat.eqb.
Proof.
  split; [repeat (constructor; [apply code_check_ok; vm_compute; reflexivity|]); constructor|].
  refine (conj _ (conj _ (conj _ (conj _ _)))); apply sorted_check_ok; vm_compute; reflexivity.
Qed.

(** ** False *)

(** The rule of the documentation (mp_tree.rst:138-140): the alphabet is in the order of the
    collation. *)
Definition in_collation_order (a : list char) (clt : char -> char -> bool) : Prop :=
  forall i j, i < length a -> j < length a -> clt (nth i a 0) (nth j a 0) = (i <? j).

(** It is not enough.  With the alphabet 0Aa on SQLite (ORDER BY by code points, LIKE without
    case) root 1 has the path A and root 2 the path a.  Deleting root 1 with its child also
    deletes root 2 with its child. *)
Definition case_calls : list call :=
  [CAddRoot (nd 1 0); CAddRoot (nd 2 0); CAddChild 1 (nd 3 0); CAddChild 2 (nd 4 0); CDelete [1]].

Theorem C51_case_refuted : exists a cfg cs, in_collation_order a Nat.ltb /\ NoDup a /\
  StronglySorted lt a /\ radix cfg = length a /\
  NoDup (flat_map new_ids cs) /\
  let (db, done) := run (s_exec a Nat.ltb nocase_eq cfg) mp_empty cs in
  let (F, done') := run (sp_exec (order_by cfg)) Nil cs in
  done = cs /\ done' = cs /\ db_rows db = [] /\ map nid (preorder F) = [2; 4].
Proof.
  exists [48; 65; 97], (mkCfg 3 1 40 []), case_calls.
  split; [|split; [|split; [|split; [|split]]]].
  - intros i j Hi Hj. simpl in Hi, Hj. do 3 (destruct i as [|i]; [do 3 (destruct j as [|j]; [reflexivity|]); lia|]). lia.
  - repeat constructor; simpl; intuition lia.
  - repeat constructor.
  - reflexivity.
  - repeat constructor; simpl; intuition lia.
  - vm_compute. repeat split; reflexivity.
Qed.

(** Without the rule, the third root gets the path of the second. *)
Definition reversed : list char := rev (seq 48 10).

Theorem C51_order_refuted : exists a cfg cs, NoDup a /\ radix cfg = length a /\ length cs + 1 < length a ^ steplen cfg /\
  let (db, done) := run (s_exec a Nat.ltb Nat.eqb cfg) mp_empty cs in
  let (F, done') := run (sp_exec (order_by cfg)) Nil cs in
  done' = cs /\ length done < length cs /\
  s_exec a Nat.ltb Nat.eqb cfg db (CAddRoot (nd 5 0)) = Err IntegrityError.
Proof.
  exists reversed, (mkCfg 10 2 40 []), [CAddRoot (nd 1 0); CAddRoot (nd 2 0); CAddRoot (nd 3 0)].
  split; [|split; [|split]].
  - vm_compute. repeat constructor; simpl; intuition lia.
  - reflexivity.
  - apply lt_b. vm_compute. reflexivity.
  - vm_compute. repeat split; auto.
Qed.

(** *** Alphabets that are not in the order of code points

    The order of letters of many collations: a A b B ... *)
Definition rank (c : char) : nat :=
  if (97 <=? c) && (c <=? 122) then 100 + 2 * (c - 97)
  else if (65 <=? c) && (c <=? 90) then 101 + 2 * (c - 65) else c.
Definition letters_lt (c d : char) : bool := rank c <? rank d.
Definition aAbB : list char := [97; 65; 98; 66].

(** Python finds b behind B: siblings are shifted that need not be, and the last step is used up.
    Root 3 is at B, root 2 at b was deleted, and a root is added before root 1. *)
Definition full_calls : list call :=
  [CAddRoot (nd 1 0); CAddRoot (nd 2 0); CAddRoot (nd 3 0); CDelete [2]].
Theorem C51_overflow_refuted : exists a clt like b cfg cs, sorted_alphabet a clt like /\
  sorted_alphabet b Nat.ltb Nat.eqb /\ length a = length b /\ radix cfg = length a /\
  let (da, done) := run (s_exec a clt like cfg) mp_empty cs in
  let (db, done') := run (s_exec b Nat.ltb Nat.eqb cfg) mp_empty cs in
  let c := CAddSibling 1 (Some "left") (nd 4 0) in
  done = cs /\ done' = cs /\ s_exec a clt like cfg da c = Err PathOverflow /\
  exists db', s_exec b Nat.ltb Nat.eqb cfg db c = Ok db' /\ map m_pk (s_get_root_nodes Nat.ltb (db_rows db')) = [4; 1; 3].
Proof.
  exists aAbB, letters_lt, Nat.eqb, (seq 48 4), (mkCfg 4 1 40 []), full_calls.
  split; [apply sorted_check_ok; vm_compute; reflexivity|].
  split; [apply sorted_check_ok; vm_compute; reflexivity|]. split; [reflexivity|]. split; [reflexivity|].
  vm_compute. split; [reflexivity|]. split; [reflexivity|]. split; [reflexivity|].
  eexists. split; reflexivity.
Qed.

(** Roots 10, 20, 30 in a sorted class.  The last one gets the value 15, is saved and moved to its
    place, as the change form does: the second one is shifted to the path of the last one,
    which has not been moved away, and the move fails. *)
Definition edit_calls : list call := [CAddRoot (nd 1 10); CAddRoot (nd 2 20); CAddRoot (nd 3 30)].
Theorem C51_edit_refuted : exists a clt like cfg cs n t d, sorted_alphabet a clt like /\ radix cfg = length a /\
  let (db, done) := run (s_exec a clt like cfg) mp_empty cs in
  done = cs /\ get_by_pk (db_rows db) 3 = Ok n /\ get_by_pk (db_rows db) 1 = Ok t /\
  let n' := mkMP (m_pk n) (m_path n) (m_depth n) (m_nc n) d in
  exists db1, s_save_row clt db n' = Ok db1 /\
    s_move a clt like cfg db1 n' t (Some "sorted-sibling") = Err IntegrityError.
Proof.
  exists aAbB, letters_lt, Nat.eqb, (mkCfg 4 2 40 [(0, false)]), edit_calls,
    (mkMP 3 [97; 66] 1 0 [Some 30%Z]), (mkMP 1 [97; 65] 1 0 [Some 10%Z]), [Some 15%Z].
  split; [apply sorted_check_ok; vm_compute; reflexivity|]. split; [reflexivity|].
  vm_compute. split; [reflexivity|]. split; [reflexivity|]. split; [reflexivity|].
  eexists. split; reflexivity.
Qed.

(** ** Examples *)
Definition d36 : mp_cfg := mkCfg 36 4 255 [].

(** The history of Fixture.v with the default alphabet *)
Example C51_example :
  sorted_alphabet default_alphabet nocase_lt nocase_eq /\ radix d36 = length default_alphabet /\
  let (db, done) := run (s_exec default_alphabet nocase_lt nocase_eq d36) mp_empty ex_calls in
  done = ex_calls /\
  map (fun r => (m_pk r, m_path r)) (s_get_tree nocase_lt nocase_eq (db_rows db) None (Some 2)) =
  [(7, [48;48;48;49]); (1, [48;48;48;50]); (3, [48;48;48;50;48;48;48;49]); (5, [48;48;48;50;48;48;48;50]);
   (2, [48;48;48;51]); (4, [48;48;48;51;48;48;48;49]); (9, [48;48;48;51;48;48;48;51])].
Proof.
  split; [apply sorted_check_ok; vm_compute; reflexivity|]. split; [reflexivity|]. vm_compute. split; reflexivity.
Qed.

(** Digits and letters in one step: 35 roots, the 10th at A and the last at Z *)
Example C51_example_letters :
  let cfg := mkCfg 36 1 255 [] in
  let (db, done) := run (s_exec default_alphabet Nat.ltb nocase_eq cfg) mp_empty
    (map (fun i => CAddRoot (nd i 0)) (seq 1 36)) in
  length done = 35 /\
  map m_path (filter (fun r => (m_pk r =? 9) || (m_pk r =? 10) || (m_pk r =? 35)) (db_rows db)) = [[90]; [65]; [57]].
Proof. vm_compute. split; reflexivity. Qed.

Example C51_example_alphabets : let cfg := mkCfg 10 2 40 [] in let a := seq 48 10 in let b := seq 97 10 in
  sorted_alphabet a Nat.ltb nocase_eq /\ sorted_alphabet b Nat.ltb nocase_eq /\ length a = length b /\
  python_order a cfg /\ python_order b cfg /\
  map m_path (db_rows (fst (run (s_exec a Nat.ltb nocase_eq cfg) mp_empty ex_calls))) <>
  map m_path (db_rows (fst (run (s_exec b Nat.ltb nocase_eq cfg) mp_empty ex_calls))).
Proof.
  split; [apply sorted_check_ok; vm_compute; reflexivity|].
  split; [apply sorted_check_ok; vm_compute; reflexivity|]. split; [reflexivity|].
  split; [exact (proj2 (C51_python (seq 48 10) (mkCfg 10 2 40 [])) (code_check_ok (seq 48 10) eq_refl) 2 40 [])|].
  split; [exact (proj2 (C51_python (seq 97 10) (mkCfg 10 2 40 [])) (code_check_ok (seq 97 10) eq_refl) 2 40 [])|].
  vm_compute. discriminate.
Qed.

(** The table of PropsMP.v, with 7 at 01 *)
Example C51_example_reads : stores c10 (db_rows ex_db) ex_F /\ radix c10 = length (seq 48 10) /\
  sorted_alphabet (seq 48 10) Nat.ltb nocase_eq /\
  map (fun r => (m_pk r, m_path r)) (filter (fun r => m_depth r =? 1) (map (text_row (seq 48 10)) (db_rows ex_db))) =
  map (fun r => (m_pk r, text (seq 48 10) (m_path r))) (filter (fun r => m_depth r =? 1) (db_rows ex_db)) /\
  m_path (text_row (seq 48 10) (row ex_db 7)) = [48; 49].
Proof.
  split; [apply ex_stores|]. split; [reflexivity|].
  split; [apply sorted_check_ok; vm_compute; reflexivity|]. vm_compute. split; reflexivity.
Qed.

(** a A b B as in [letters_lt], two letters a step.  Root 4 is moved to the left of root 2, and
    Python does not see that it comes from the right; root 1 is moved to the left of root 3, and
    Python thinks that it comes from the right. *)
Definition mixed_calls : list call :=
  [CAddRoot (nd 1 0); CAddRoot (nd 2 0); CAddRoot (nd 3 0); CAddRoot (nd 4 0); CAddChild 3 (nd 5 0);
   CMove 3 2 (Some "left"); CMove 1 4 (Some "left")].
Example C51_example_mixed : let cfg := mkCfg 4 2 40 [] in
  sorted_alphabet aAbB letters_lt Nat.eqb /\ ~ StronglySorted lt aAbB /\
  length mixed_calls + 1 < length aAbB ^ steplen cfg /\ steplen cfg * length mixed_calls <= maxlen cfg /\
  NoDup (flat_map new_ids mixed_calls) /\
  let (db, done) := run (s_exec aAbB letters_lt Nat.eqb cfg) mp_empty mixed_calls in
  done = mixed_calls /\
  map (fun r => (m_pk r, m_path r)) (s_get_tree letters_lt Nat.eqb (db_rows db) None None) =
  [(3, [97; 98]); (5, [97; 98; 97; 65]); (2, [97; 66]); (1, [65; 65]); (4, [65; 98])].
Proof.
  split; [apply sorted_check_ok; vm_compute; reflexivity|].
  split; [intros H; inversion H as [|x l _ F]; subst; inversion F; lia|].
  split; [apply lt_b; vm_compute; reflexivity|]. split; [apply le_b; vm_compute; reflexivity|].
  split; [repeat constructor; simpl; intuition lia|].
  vm_compute. split; reflexivity.
Qed.

Print Assumptions C51_python.
Print Assumptions C51_same_tree_partial.
Print Assumptions C51_overflow_refuted.
Print Assumptions C51_edit_refuted.
Print Assumptions C51_reads_partial.
Print Assumptions C51_calls_partial.
Print Assumptions C51_histories_partial.
Print Assumptions C51_tree_partial.
Print Assumptions C51_alphabets_partial.
Print Assumptions C51_documented.
Print Assumptions C51_case_refuted.
Print Assumptions C51_order_refuted.
