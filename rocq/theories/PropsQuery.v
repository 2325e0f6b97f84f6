(** C64: how many statements the calls send. *)
From Coq Require Import String List Arith Bool ZArith Lia.
From Verif Require Import Prelude Forest SpecFacts SpecSane SpecKids CommonModel Order History Fixture QueryModel QueryFacts QueryBounds QueryAL QueryMP QueryWide.
From Verif Require SpecPerm MPReads MPModel MPFixModel MPInv PropsMP NSModel NSInv NSReads PropsNS ALModel ALInv PropsAL LTModel PropsLT.
Import ListNotations.
Local Open Scope string_scope.
Local Open Scope list_scope.
Local Open Scope nat_scope.

(** ** The counted calls are the calls of the models *)
Theorem C64_mp_same cfg db t r tg p x : 
  fst (MP.add_root cfg db x) = MPModel.add_root cfg db x /\
  fst (MP.add_child cfg db tg x) = MPModel.add_child cfg db tg x /\
  fst (MP.add_sibling cfg db tg p x) = MPModel.add_sibling cfg db tg p x /\
  fst (MP.move cfg db r tg p) = MPModel.move cfg db r tg p /\
  (forall par, fst (MP.find_problems cfg t par) = Ok (MPFixModel.find_problems cfg t par)).
Proof. auto using mp_add_root, mp_add_child, mp_add_sibling, mp_move, mp_problems. Qed.

Theorem C64_ns_same o db t r n tg q p x :
  fst (NS.add_root o db x) = NSModel.add_root o db x /\
  fst (NS.add_child o db r x) = NSModel.add_child o db r x /\
  fst (NS.add_sibling o db tg p x) = NSModel.add_sibling o db tg p x /\
  fst (NS.move o db n tg p) = NSModel.move o db n tg p /\
  fst (NS.get_parent t n) = NSModel.get_parent t n /\
  fst (NS.get_siblings t r) = NSModel.get_siblings t r /\
  fst (NS.get_first_sibling t r) = NSModel.get_first_sibling t r /\
  fst (NS.get_last_sibling t r) = NSModel.get_last_sibling t r /\
  fst (NS.get_prev_sibling t r) = NSModel.get_prev_sibling t r /\
  fst (NS.get_next_sibling t r) = NSModel.get_next_sibling t r /\
  fst (NS.is_sibling_of t r q) = NSModel.is_sibling_of t r q /\
  fst (NS.is_child_of t r q) = Ok (NSModel.is_child_of t r q).
Proof.
  auto 16 using ns_add_root, ns_add_child, ns_add_sibling, ns_move, ns_get_parent, ns_get_siblings, ns_first_sibling,
    ns_last_sibling, ns_prev_sibling, ns_next_sibling, ns_is_sibling_of, ns_is_child_of.
Qed.

Theorem C64_al_same o t n r tg p x :
  fst (AL.add_root o t x) = ALModel.add_root o t x /\
  fst (AL.add_child o t n x) = ALModel.add_child o t n x /\
  fst (AL.add_sibling o t tg p x) = ALModel.add_sibling o t tg p x /\
  fst (AL.move o t n tg p) = ALModel.move o t n tg p /\
  fst (AL.get_ancestors t r) = ALModel.get_ancestors t r /\
  (forall u, fst (AL.get_depth t n u) = ALModel.get_depth t n u) /\
  (forall par m, fst (AL.get_tree o t par m) = ALModel.get_tree o t par m) /\
  (forall i m, fst (AL.get_descendants o t n i m) = ALModel.get_descendants o t n i m) /\
  fst (AL.is_descendant_of o t r n) = ALModel.is_descendant_of o t r n.
Proof.
  auto 16 using al_add_root, al_add_child, al_add_sibling, al_move, al_get_ancestors, al_get_depth, al_get_tree,
    al_get_descendants, al_is_descendant_of.
Qed.

Theorem C64_lt_same cfg db n tg p x :
  fst (LT.add_root cfg db x) = LTModel.add_root cfg db x /\
  fst (LT.add_child cfg db tg x) = LTModel.add_child cfg db tg x /\
  fst (LT.add_sibling cfg db tg p x) = LTModel.add_sibling cfg db tg p x /\
  fst (LT.move cfg db n tg p) = LTModel.move cfg db n tg p.
Proof. auto using lt_add_root, lt_add_child, lt_add_sibling, lt_move. Qed.

(** ** Nested sets and ltree: a bound for all tables *)
Theorem C64_ns_bounded o db n tg r p x :
  snd (NS.add_root o db x) <= 6 /\ snd (NS.add_child o db r x) <= 10 /\
  snd (NS.add_sibling o db tg p x) <= (if NSModel.is_root (NSModel.o_row tg) then 5 else 8) /\
  snd (NS.move o db n tg p) <= 13.
Proof.
  split; [apply ns_add_root_n|]. split; [apply ns_add_child_n|]. split; [apply ns_add_sibling_n|]. apply ns_move_n.
Qed.

Theorem C64_ns_reads t r n :
  snd (NS.get_children t r) = (if NSModel.is_leaf r then 0 else 1) /\
  snd (NS.get_ancestors t r) = (if NSModel.is_root r then 0 else 1) /\
  snd (NS.get_parent t n) = (if NSModel.is_root (NSModel.o_row n) then 0 else match NSModel.o_up n with Some _ => 0 | None => 1 end) /\
  snd (NS.get_root t r) = (if NSModel.is_root r then 0 else 1) /\
  snd (NS.get_siblings t r) <= 2 /\ snd (NS.get_first_sibling t r) <= 2 /\ snd (NS.get_last_sibling t r) <= 2 /\
  snd (NS.get_prev_sibling t r) <= 4 /\ snd (NS.get_next_sibling t r) <= 4 /\ snd (NS.is_sibling_of t r r) <= 2.
Proof.
  unfold NS.get_children, NS.get_ancestors, NS.get_parent, NS.get_root.
  split; [destruct (NSModel.is_leaf r); auto|]. split; [destruct (NSModel.is_root r); auto|].
  split; [destruct (NSModel.is_root _); [reflexivity|]; destruct (NSModel.o_up n); reflexivity|].
  split; [unfold NSModel.is_root; destruct (_ =? _)%Z; reflexivity|].
  assert (K : forall A (f : NSModel.ns_table -> counted A) m, (forall v, within (f v) m) -> within (andthen (NS.siblings t r) f) (S m)).
  { intros A f m H. apply then_any with 1 m; auto. apply ns_siblings_1. }
  do 3 (split; [apply K; intros; apply within_query|]).
  split; [|split].
  - apply then_any with 2 2; [apply K; intros; apply within_query| |lia]. intros l _.
    destruct (NSModel.pk_index _ _) as [[|i]|]; try apply within_free. apply K. intros l'. bnd.
  - apply then_any with 2 2; [apply K; intros; apply within_query| |lia]. intros l _.
    destruct (NSModel.pk_index _ _) as [i|]; try apply within_free. destruct (_ <? _); [|apply within_free]. apply K. intros l'. bnd.
  - apply K. intros. apply within_query.
Qed.

Theorem C64_lt_bounded cfg db n tg p x :
  snd (LT.add_root cfg db x) <= 15 /\ snd (LT.add_child cfg db tg x) <= 17 /\
  snd (LT.add_sibling cfg db tg p x) <= 14 /\ snd (LT.move cfg db n tg p) <= 14.
Proof.
  split; [apply lt_add_root_n|]. split; [apply lt_add_child_n|]. split; [apply lt_add_sibling_n|]. apply lt_move_n.
Qed.

(** Nested sets: dump_bulk asks for the parent of every node below the first level. *)
Section NS.
Import NSModel.

Lemma isort_len {A} le (l : list A) : length (isort le l) = length l.
Proof. apply Permutation.Permutation_length, isort_perm. Qed.

Lemma parents_count t F top l : NSInv.stores t F -> (forall r, In r l -> In r t /\ (n_depth r = top \/ is_root r = false)) ->
  (exists ups, fst (NS.dump_parents t top l) = Ok ups) /\
  snd (NS.dump_parents t top l) = length (filter (fun r => negb (n_depth r =? top)%Z) l).
Proof.
  intros S. induction l as [|r l IH]; intros H; cbn [NS.dump_parents filter].
  - split; [exists []; auto|auto].
  - destruct IH as [(ups & E) N]; [intros; apply H; right; auto|]. destruct (H r (or_introl eq_refl)) as [Hr Hd].
    destruct (Z.eqb_spec (n_depth r) top) as [_|D]; cbn [negb].
    + rewrite then_ok. destruct (NS.dump_parents t top l) as [x k]. cbn [fst snd] in *. subst x k. cbn. split; [eauto|lia].
    + destruct Hd as [Hd|Hd]; [congruence|]. destruct (PropsNS.C20_parent t F r S Hr) as (q & Eq & Pq).
      unfold NS.get_parent. cbn [o_row fresh o_up]. rewrite Hd. unfold get_parent in Eq. cbn [o_row fresh o_up] in Eq. rewrite Hd in Eq.
      unfold get_parent. cbn [o_row fresh o_up]. rewrite Hd. destruct (query_parent t r) as [q'|]; cbn [bind] in Eq |- *; [|discriminate].
      rewrite then_assoc. destruct (NS.dump_parents t top l) as [x k]. cbn [fst snd] in *. subst x k. cbn. split; [eauto|lia].
Qed.

Theorem C64_ns_dump t F : NSInv.stores t F ->
  snd (NS.dump_bulk t None) = 1 + (size F - length (roots F)).
Proof.
  intros S. unfold NS.dump_bulk.
  assert (D : forall r, In r t -> (n_depth r =? 1)%Z = is_root r).
  { intros r Hr. destruct (PropsNS.C20_ancestors t F r S Hr) as (L & _ & _ & E & I & _).
    destruct (is_root r) eqn:R; [|].
    - apply Z.eqb_eq. rewrite E, (proj1 I) by auto. reflexivity.
    - apply Z.eqb_neq. intros E1. destruct L; [assert (X := proj2 I eq_refl); congruence|]. rewrite E1 in E. cbn [length] in E. lia. }
  assert (H : forall r, In r (get_tree t None None) -> In r t /\ (n_depth r = 1%Z \/ is_root r = false)).
  { intros r Hr. assert (Hr' := proj2 (PropsNS.C20_tree t F None S) r Hr). split; auto. specialize (D r Hr').
    destruct (is_root r) eqn:R; [left; apply Z.eqb_eq; congruence|auto]. }
  destruct (parents_count t F 1%Z _ S H) as [(ups & E) N].
  change (snd (andthen (query (Ok (get_tree t None None))) (fun l => NS.dump_parents t 1 l)) = 1 + (size F - length (roots F))).
  unfold query. cbn [andthen]. destruct (NS.dump_parents t 1 (get_tree t None None)) as [x k]. cbn [fst snd] in *. subst x k.
  f_equal.
  assert (T : length (get_tree t None None) = size F).
  { rewrite <- (map_length NSReads.row_node). assert (X := proj1 (PropsNS.C20_tree t F None S)). cbn [option_map NSReads.levels prune_opt] in X. rewrite X. apply size_preorder. }
  assert (R : length (filter is_root (get_tree t None None)) = length (roots F)).
  { destruct (PropsNS.C20_roots t F S) as (R & _). rewrite <- R, map_length. unfold get_root_nodes, get_tree.
    unfold order_rows. rewrite isort_len.
    rewrite (Permutation.Permutation_length (SpecPerm.perm_filter is_root _ _ (isort_perm _ _))).
    rewrite filter_filter. reflexivity. }
  rewrite <- T, <- R. rewrite (filter_ext_in _ (fun r => negb (is_root r))).
  - generalize (get_tree t None None). induction l as [|a l IH]; cbn [filter length]; auto.
    assert (X := filter_length_le is_root l). destruct (is_root a); cbn [negb length]; lia.
  - intros r Hr. rewrite D; auto. apply (proj1 (H r Hr)).
Qed.
End NS.

(** ** Materialized paths: one statement for each sibling that makes room *)
Section MP.
Import MPModel.
Variable cfg : mp_cfg.
Hypothesis radix2 : 2 <= radix cfg.
Hypothesis step1 : 1 <= steplen cfg.
Notation stores := (MPInv.stores cfg).

Lemma sib_count t F r : stores t F -> In r t -> length (get_siblings cfg t r) = length (siblings_of (m_pk r) F).
Proof. intros S Hr. destruct (PropsMP.C07_siblings cfg radix2 step1 t F r S Hr) as [E _]. rewrite <- E, map_length. auto. Qed.

Lemma last_In {A} (l : list A) x : last_opt l = Some x -> In x l.
Proof. unfold last_opt. intros E. apply in_rev. destruct (rev l); [discriminate|]. injection E as <-. left. auto. Qed.
Lemma tops_In t r : In r (get_root_nodes t) -> In r t /\ m_depth r = 1.
Proof.
  intros H. apply (Permutation.Permutation_in _ (isort_perm _ _)) in H. apply filter_In in H.
  destruct H as [H E]. apply Nat.eqb_eq in E. auto.
Qed.
Lemma kids_In t n r : In r (MPModel.get_children cfg t n) -> In r t.
Proof.
  unfold MPModel.get_children. destruct (is_leaf n); [intros []|]. intros H.
  apply (Permutation.Permutation_in _ (isort_perm _ _)) in H. apply filter_In in H. tauto.
Qed.

(** The siblings of a child are the children. *)
Lemma kid_siblings t F n r k : stores t F -> In n t -> kid_list (Some (m_pk n)) F = Some k ->
  MPModel.get_last_child cfg t n = Some r -> length (get_siblings cfg t r) = length k.
Proof.
  intros S Hn Ek Hr. apply last_In in Hr. assert (Hr' := kids_In _ _ _ Hr). rewrite (sib_count t F r S Hr').
  destruct (PropsMP.C07_children cfg radix2 step1 t F n S Hn) as (k' & Ek' & Em & _). rewrite Ek in Ek'. injection Ek' as Ek'. rewrite <- Ek' in Em.
  assert (Hk : In (MPReads.node_of r) (kl (Some (m_pk n)) F)).
  { rewrite (kl_kid_list _ _ _ Ek), <- Em. apply in_map; auto. }
  assert (P := kl_parent _ _ _ (PropsMP.stores_wf _ _ _ S) Hk). cbn [MPReads.node_of nid] in P.
  rewrite (siblings_kl _ _ _ P), (kl_kid_list _ _ _ Ek). auto.
Qed.
Lemma top_siblings t F r : stores t F -> get_last_root_node t = Some r -> length (get_siblings cfg t r) = length (roots F).
Proof.
  intros S Hr. apply last_In in Hr. destruct (tops_In _ _ Hr) as [Hi _]. rewrite (sib_count t F r S Hi).
  destruct (PropsMP.C07_roots cfg radix2 step1 t F S) as [E _].
  assert (Hk : In (MPReads.node_of r) (kl None F)).
  { change (kl None F) with (roots F). rewrite <- E. apply in_map; auto. }
  assert (P := kl_parent _ _ _ (PropsMP.stores_wf _ _ _ S) Hk). cbn [MPReads.node_of nid] in P.
  rewrite (siblings_kl _ _ _ P). reflexivity.
Qed.

Theorem C64_mp_adds db F tg p x : stores (db_rows db) F -> In tg (db_rows db) ->
  snd (MP.add_root cfg db x) <= (if is_sorted cfg then 5 + length (roots F) else 2) /\
  snd (MP.add_child cfg db tg x) <= (if is_sorted cfg then 6 + length (kl (Some (m_pk tg)) F) else 4) /\
  snd (MP.add_sibling cfg db tg p x) <= 4 + length (siblings_of (m_pk tg) F).
Proof.
  intros S Ht. split; [|split].
  - apply add_root_n. intros r Hr. rewrite (top_siblings _ _ _ S Hr). auto.
  - apply add_child_n. intros n r En Er.
    destruct (PropsMP.C07_children cfg radix2 step1 _ F tg S Ht) as (k & Ek & _).
    assert (n = tg) as -> by (destruct S as (f & L & _ & <- & W); rewrite (MPInv.get_by_pk_lay cfg _ f _ L W Ht) in En; congruence).
    rewrite (kid_siblings _ _ _ _ _ S Ht Ek Er), (kl_kid_list _ _ _ Ek). auto.
  - rewrite <- (sib_count _ F tg S Ht). apply add_sibling_n.
Qed.

(** The siblings at the place where a branch is put *)
Definition there (F : forest node) (target : nat) (p : pos) : list node :=
  match p with
  | FirstChild | LastChild | SortedChild => kl (Some target) F
  | _ => siblings_of target F
  end.

Theorem C64_mp_move db F n tg p P : stores (db_rows db) F -> In tg (db_rows db) ->
  prepare_pos_move (is_sorted cfg) p = Ok P ->
  snd (MP.move cfg db n tg p) <= 13 + length (there F (m_pk tg) P).
Proof.
  intros S Ht EP. apply move_n. intros q Eq. assert (q = P) as -> by congruence.
  intros t1 nd s np p1 u E H.
  assert (Sib : length (get_siblings cfg (db_rows db) tg) = length (siblings_of (m_pk tg) F)) by (apply sib_count; auto).
  destruct (PropsMP.C07_children cfg radix2 step1 _ F tg S Ht) as (k & Ek & _).
  unfold MP.move_to_child_vars in E. unfold there.
  destruct P; try (cbn in E; injection E as <- <- <- <- <- <-; lia);
    (destruct (m_pk tg =? m_pk n); [discriminate E|]);
    (destruct (is_leaf tg) eqn:Lf;
      [cbn in E; injection E as <- <- <- <- <- <-; destruct H; discriminate|]);
    apply then_inv in E; destruct E as (r & Er & E & _); cbn in E; injection E as <- <- <- <- <- <-;
    cbn [query fst] in Er; destruct (MPModel.get_last_child cfg (db_rows db) tg) as [r'|] eqn:L; [|discriminate Er| |discriminate Er| |discriminate Er];
    cbn in Er; injection Er as ->; rewrite (kid_siblings _ _ _ _ _ S Ht Ek L), (kl_kid_list _ _ _ Ek); auto.
Qed.

Theorem C64_mp_problems t F : stores t F -> forall par, snd (MP.find_problems cfg t par) <= 1 + 2 * size F.
Proof.
  intros (f & L & _ & <- & _) par. assert (P := MPInv.lay_pks cfg _ _ L). apply Permutation.Permutation_length in P.
  rewrite map_length in P. unfold ids in P. rewrite map_length, size_preorder in P. rewrite <- P. apply find_problems_n.
Qed.

Theorem C64_mp_reads t n :
  snd (MP.get_children cfg t n) = (if is_leaf n then 0 else 1) /\
  snd (MP.get_first_child cfg t n) = (if is_leaf n then 0 else 1) /\ snd (MP.get_last_child cfg t n) = (if is_leaf n then 0 else 1) /\
  snd (MP.get_root cfg t n) = (if is_root n then 0 else 1) /\ snd (MP.get_parent cfg t n) = (if length (m_path n) / steplen cfg <=? 1 then 0 else 1) /\
  snd (MP.get_ancestors cfg t n) = (if is_root n then 0 else 1).
Proof.
  unfold MP.get_children, MP.get_first_child, MP.get_last_child, MP.get_root, MP.get_parent, MP.get_ancestors.
  destruct (is_leaf n), (is_root n), (_ <=? 1); cbn; auto 10.
Qed.
End MP.

(** No number of statements is enough for add_sibling on every table. *)
Theorem C64_mp_refuted : forall k, exists cfg db F target p x db' r,
  2 <= MPModel.radix cfg /\ 1 <= MPModel.steplen cfg /\ MPInv.stores cfg (MPModel.db_rows db) F /\
  MPModel.add_sibling cfg db target p x = Ok (db', r) /\ k < snd (MP.add_sibling cfg db target p x).
Proof.
  intros k. set (x := MPModel.mkNew (S (S k)) 0 []).
  assert (H : ~ In (MPModel.new_pk x) (seq 1 (S k))) by (rewrite in_seq; cbn; lia).
  destruct (wide_many (S k) x ltac:(lia) H eq_refl) as (F & db' & r & S & E & N).
  exists (wide_cfg (Datatypes.S k)), (MPModel.mkDB (wide (Datatypes.S k)) []), F. do 5 eexists. split; [cbn; lia|]. split; [cbn; lia|]. split; [exact S|]. split; [exact E|]. lia.
Qed.

(** ** Adjacency lists *)
Section AL.
Import ALModel.
Variable o : ordering.

Theorem C64_al_adds t n tg p x :
  snd (AL.add_root o t x) = (if is_sorted o then 1 else 2) /\
  snd (AL.add_child o t n x) = (if is_sorted o then 1 else 2) /\
  snd (AL.add_sibling o t tg p x) <= (if is_sorted o then 1 else 4).
Proof. split; [apply al_add_n|]. split; [apply al_add_child_n|]. apply al_add_sibling_n. Qed.

(** get_tree() asks once and once for every node which has children and is not at the last level. *)
Theorem C64_al_tree t F lv : ALInv.stores o t F -> lv <> Some 0 ->
  snd (AL.get_tree o t None (option_map Z.of_nat lv)) = 1 + inner (prune_opt lv F).
Proof. intros (W & _ & so & Fit & _). apply (count_tree o so t F W Fit). Qed.

(** The ancestors and the depth: one statement for each ancestor. *)
Theorem C64_al_up t F r A : ALInv.stores o t F -> In r t -> ancestors_of (a_pk r) F = Some A ->
  snd (AL.get_ancestors t r) = length A /\ snd (AL.get_depth t (fresh r) false) = length A.
Proof.
  intros (W & _ & so & Fit & _) Hr E. split; [apply (count_ancestors so t F W Fit r A Hr E)|apply (count_depth_n so t F W Fit r A Hr E)].
Qed.

(** A branch: the depth, whether it is a leaf, and once for every node of it that has children. *)
Theorem C64_al_branch t F r A l lv : ALInv.stores o t F -> In r t -> ancestors_of (a_pk r) F = Some A ->
  children_of (a_pk r) F = Some l -> lv <> Some 0 ->
  snd (AL.get_tree o t (Some (fresh r)) (option_map Z.of_nat lv)) =
  length A + 1 + match l with Nil => 0 | _ => S (inner (prune_opt lv l)) end.
Proof. intros (W & _ & so & Fit & _). apply (count_branch o so t F W Fit). Qed.

(** A move reads the whole branch. *)
Theorem C64_al_move t F r tg p A l : ALInv.stores o t F -> In r t -> ancestors_of (a_pk r) F = Some A ->
  children_of (a_pk r) F = Some l ->
  snd (AL.move o t (fresh r) tg p) <= length A + inner l + 9.
Proof.
  intros S Hr EA El. assert (B := C64_al_branch t F r A l None S Hr EA El ltac:(discriminate)). cbn [option_map prune_opt] in B.
  eapply Nat.le_trans; [apply al_move_n with (m := length A + 1 + match l with Nil => 0 | _ => Datatypes.S (inner l) end)|].
  - intros x. unfold within, AL.is_descendant_of, AL.get_descendants. rewrite then_assoc.
    destruct (AL.get_tree o t (Some (fresh r)) None) as [[v|e] k]; cbn in *; lia.
  - destruct l; cbn [inner]; lia.
Qed.
End AL.

(** ** Examples *)
(** The statements of calls on the tree of Fixture.v, with the bounds of the theorems *)
Example C64_mp_example : let db := PropsMP.ex_db in let r := PropsMP.row db in
  MPInv.stores PropsMP.c10 (MPModel.db_rows db) ex_F /\ In (r 7) (MPModel.db_rows db) /\
  snd (MP.add_sibling PropsMP.c10 db (r 7) (Some "first-sibling") (MPModel.mkNew 50 0 [])) = 5 /\
  length (siblings_of 7 ex_F) = 3 /\
  snd (MP.move PropsMP.c10 db (r 2) (r 7) (Some "left")) = 9 /\
  snd (MP.add_child PropsMP.s10 PropsMP.so_db (PropsMP.row PropsMP.so_db 1) (MPModel.mkNew 50 0 [Some 1%Z])) = 6 /\
  snd (MP.find_problems PropsMP.c10 (MPModel.db_rows db) None) = 16 /\ size ex_F = 9.
Proof. split; [apply PropsMP.ex_stores|]. split; [vm_compute; tauto|]. vm_compute. auto 8. Qed.
Example C64_ns_example : let db := PropsNS.ex_db in let r i := NSModel.fresh (PropsNS.row db i) in
  NSInv.stores (NSModel.ns_rows db) ex_F /\
  snd (NS.dump_bulk (NSModel.ns_rows db) None) = 7 /\ size ex_F = 9 /\ length (roots ex_F) = 3 /\
  snd (NS.move [] db (r 9) (r 3) (Some "right")) = 9 /\
  snd (NS.get_next_sibling (NSModel.ns_rows db) (PropsNS.row db 3)) = 4.
Proof. split; [apply PropsNS.ex_stores|]. vm_compute. auto 8. Qed.
Example C64_al_example : let t := PropsAL.ex_t in let r := PropsAL.row t in
  ALInv.stores [] t ex_F /\ In (r 4) t /\
  snd (AL.get_tree [] t None None) = 5 /\ inner ex_F = 4 /\
  snd (AL.get_tree [] t None (Some 2%Z)) = 3 /\ inner (prune_opt (Some 2) ex_F) = 2 /\
  snd (AL.get_tree [] t (Some (ALModel.fresh (r 4))) None) = 3 /\
  snd (AL.move [] t (ALModel.fresh (r 9)) (r 3) (Some "right")) = 8.
Proof. split; [apply PropsAL.ex_stores|]. split; [vm_compute; tauto|]. vm_compute. auto 8. Qed.
Example C64_lt_example : let db := PropsLT.ex_db in let r := PropsLT.row db in
  snd (LT.move PropsLT.c0 db (r 9) (r 3) (Some "left")) = 4.
Proof. vm_compute. auto. Qed.
(** The tree of the tests (/repo/tests/test_treebeard.py:48-71): get_tree() of an adjacency
    list sends the four statements that the tests allow, three of max_depth=2. *)
Example C64_al_tests :
  let base := Cons 1 Nil (Cons 2 (Cons 21 Nil (Cons 22 Nil (Cons 23 (Cons 231 Nil Nil) (Cons 24 Nil Nil)))) (Cons 3 Nil (Cons 4 (Cons 41 Nil Nil) Nil))) in
  1 + inner base = 4 /\ 1 + inner (prune_opt (Some 2) base) = 3 /\ 1 + inner (prune_opt (Some 1) base) = 1.
Proof. vm_compute. auto. Qed.

Print Assumptions C64_mp_same.
Print Assumptions C64_ns_same.
Print Assumptions C64_al_same.
Print Assumptions C64_lt_same.
Print Assumptions C64_ns_bounded.
Print Assumptions C64_ns_reads.
Print Assumptions C64_lt_bounded.
Print Assumptions C64_ns_dump.
Print Assumptions C64_mp_adds.
Print Assumptions C64_mp_move.
Print Assumptions C64_mp_problems.
Print Assumptions C64_mp_reads.
Print Assumptions C64_mp_refuted.
Print Assumptions C64_al_adds.
Print Assumptions C64_al_tree.
Print Assumptions C64_al_up.
Print Assumptions C64_al_branch.
Print Assumptions C64_al_move.
