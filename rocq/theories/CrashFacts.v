(** The committed states of the deletes (C40). *)
From Coq Require Import String List Arith ZArith Lia Bool Permutation Sorted.
From Verif Require Import Prelude Forest SpecFacts SpecSane CommonModel Order History CrashModel.
From Verif Require MPModel MPFixModel MPCheck MPInv NSModel NSInv NSReads NSCheck NSDelete.
Import ListNotations.

Lemma commits_app {A} (l1 l2 : list (list (A -> A))) : forall s x, In x (commits s (l1 ++ l2)) ->
  In x (commits s l1) \/ In x (commits (fold_left (fun s g => fold_left (fun s f => f s) g s) l1 s) l2).
Proof.
  induction l1 as [|g l1 IH]; intros s x H; cbn [app commits fold_left] in *; auto.
  destruct H as [H|H]; [left; left; auto|]. apply IH in H. destruct H; auto. left. right. auto.
Qed.

(** ** Materialized paths *)
Section MP.
Import MPModel MPFixModel MPCheck MPInv.
Variable cfg : mp_cfg.
Hypothesis radix2 : 2 <= radix cfg.
Hypothesis step1 : 1 <= steplen cfg.

Definition key (r : mprow) := (m_pk r, m_path r, m_depth r, m_data r).

Lemma upd_nc_keys p g t : map key (map (upd_nc p g) t) = map key t.
Proof. rewrite map_map. apply map_ext. intros r. unfold upd_nc. destruct (peq _ _); reflexivity. Qed.

Lemma updates_keys L (g : path -> nat -> nat) : forall t s,
  In s (commits t (map (fun s => [s]) (map (fun p => map (upd_nc p (g p))) L))) -> map key s = map key t.
Proof.
  induction L as [|p L IH]; intros t s; cbn [map commits fold_left]; [intros [<-|[]]; auto|].
  intros [<-|H]; auto. apply IH in H. rewrite H. apply upd_nc_keys.
Qed.

Lemma singles_fold {A} (l : list (A -> A)) : forall s,
  fold_left (fun s g => fold_left (fun s f => f s) g s) (map (fun f => [f]) l) s = fold_left (fun s f => f s) l s.
Proof. induction l as [|f l IH]; intros s; auto. cbn [map fold_left]. apply IH. Qed.

Lemma mp_delete_states t sel s : In s (mp_delete_commits cfg t sel) ->
  s = delete_queryset cfg t sel \/ map key s = map key t.
Proof.
  unfold mp_delete_commits, delete_queryset, delete_statements. generalize (minimal_removed cfg [] (isort depth_path_le (filter sel t))). intros rm.
  set (U := map _ (parents_of_removed _ _)). intros H. rewrite map_app in H. apply commits_app in H.
  destruct H as [H|H]; [right; eapply (updates_keys _ (fun p n => n - lost_children cfg rm p)); exact H|].
  rewrite singles_fold in H. cbn [map commits fold_left] in H. destruct H as [H|[H|[]]].
  - right. rewrite <- H. clear H. subst U. eapply (updates_keys (parents_of_removed cfg rm) (fun p n => n - lost_children cfg rm p)).
    set (L := parents_of_removed cfg rm). clearbody L. revert t. induction L as [|p L IH]; intros t; cbn [map fold_left commits]; [simpl; auto|].
    right. apply IH.
  - left. rewrite <- H. unfold run_statements. rewrite fold_left_app. reflexivity.
Qed.

Lemma paths_key s t : map key s = map key t -> map m_path s = map m_path t.
Proof.
  intros H. assert (G : forall l, map m_path l = map (fun x => snd (fst (fst x))) (map key l)) by (intros; rewrite map_map; auto).
  rewrite !G, H. auto.
Qed.

Lemma paths_ok_path t s : map m_path s = map m_path t -> paths_ok cfg t -> paths_ok cfg s.
Proof.
  intros E P.
  assert (R : forall r, In r s -> exists r', In r' t /\ m_path r' = m_path r).
  { intros r Hr. assert (In (m_path r) (map m_path t)) by (rewrite <- E; apply in_map; auto).
    apply in_map_iff in H. destruct H as (r' & ? & ?). eauto. }
  assert (R' : forall r, In r t -> exists r', In r' s /\ m_path r' = m_path r).
  { intros r Hr. assert (In (m_path r) (map m_path s)) by (rewrite E; apply in_map; auto).
    apply in_map_iff in H. destruct H as (r' & ? & ?). eauto. }
  constructor.
  - intros r Hr. destruct (R r Hr) as (r' & H & <-). apply (po_chars _ _ P); auto.
  - intros r Hr. destruct (R r Hr) as (r' & H & <-). apply (po_len _ _ P); auto.
  - rewrite E. apply P.
  - intros r Hr. destruct (R r Hr) as (r' & H & <-). apply (po_step _ _ P); auto.
  - intros r Hr. destruct (R r Hr) as (r' & H & <-). destruct (po_par _ _ P r' H) as [|(q & Hq & Eq)]; auto.
    right. destruct (R' q Hq) as (q' & H1 & H2). exists q'. split; auto. congruence.
Qed.

Lemma count_path t s p : map m_path s = map m_path t -> count_children cfg s p = count_children cfg t p.
Proof.
  intros E. unfold count_children. set (Q := fun q : path => ppre p q && (length q =? length p + steplen cfg)).
  assert (G : forall l, length (filter (fun r => Q (m_path r)) l) = length (filter Q (map m_path l))).
  { induction l as [|x l IH]; auto. cbn [map filter]. destruct (Q (m_path x)); cbn [length]; rewrite IH; auto. }
  change (length (filter (fun r => Q (m_path r)) s) = length (filter (fun r => Q (m_path r)) t)). rewrite !G, E. auto.
Qed.

(** A stored table is determined by the primary keys, paths and data of its rows. *)
Definition ident (r : mprow) := (m_pk r, m_path r, m_data r).
Lemma stores_determined s t : (exists F, stores cfg s F) -> (exists F, stores cfg t F) -> map ident s = map ident t -> s = t.
Proof.
  rewrite !(stores_iff cfg radix2 step1). intros (_ & D1 & C1 & _) (_ & D2 & C2 & _) E.
  assert (Ep : map m_path s = map m_path t).
  { assert (G : forall l, map m_path l = map (fun x => snd (fst x)) (map ident l)) by (intros; rewrite map_map; auto).
    rewrite !G, E. auto. }
  assert (K : forall q, count_children cfg s q = count_children cfg t q) by (intros; apply count_path; auto).
  assert (C1' : forall r, In r s -> m_nc r = count_children cfg t (m_path r)) by (intros; rewrite C1, K; auto).
  clear K C1 Ep. set (cc := count_children cfg t) in *. assert (C2' : forall r, In r t -> m_nc r = cc (m_path r)) by exact C2.
  clear C2. clearbody cc. unfold depths_ok in *.
  revert t E D2 C2'. induction s as [|x s IH]; intros [|y t] E D2 C2; try discriminate; auto. cbn [map] in E. injection E as E1 E2 E3 E4. f_equal.
  - destruct x, y. cbn in *. subst. f_equal.
    + specialize (D1 _ (or_introl eq_refl)). specialize (D2 _ (or_introl eq_refl)). cbn in *. congruence.
    + specialize (C1' _ (or_introl eq_refl)). specialize (C2 _ (or_introl eq_refl)). cbn in *. congruence.
  - apply IH; auto; intros; [apply D1|apply C1'|apply D2|apply C2]; simpl; auto.
Qed.

Lemma key_ident s t : map key s = map key t -> map ident s = map ident t.
Proof.
  intros H. assert (G : forall l, map ident l = map (fun x => (fst (fst (fst x)), snd (fst (fst x)), snd x)) (map key l)) by (intros; rewrite map_map; auto).
  rewrite !G, H. auto.
Qed.

Lemma ident_pk s t : map ident s = map ident t -> map m_pk s = map m_pk t.
Proof.
  intros H. assert (G : forall l, map m_pk l = map (fun x => fst (fst x)) (map ident l)) by (intros; rewrite map_map; auto).
  rewrite !G, H. auto.
Qed.
Lemma ident_path s t : map ident s = map ident t -> map m_path s = map m_path t.
Proof.
  intros H. assert (G : forall l, map m_path l = map (fun x => snd (fst x)) (map ident l)) by (intros; rewrite map_map; auto).
  rewrite !G, H. auto.
Qed.

(** fix_tree turns every table with the same primary keys, paths and data as a stored one into it. *)
Lemma fix_back s t F sig : stores cfg t F -> map ident s = map ident t -> fix_tree cfg (mkDB s sig) false None = Ok (mkDB t sig).
Proof.
  intros St E. assert (X : exists F, stores cfg t F) by eauto. assert (X' := X). rewrite (stores_iff cfg radix2 step1) in X'.
  destruct X' as (P & _ & _ & N).
  destruct (fix_tree_ok cfg radix2 step1 (mkDB s sig)) as (db' & E1 & E2 & E3 & F' & S').
  { cbn. eapply paths_ok_path; [|exact P]. apply ident_path. auto. }
  { cbn. rewrite (ident_pk _ _ E). auto. }
  rewrite E1. f_equal. destruct db' as [t' sig']. cbn in *. subst sig'. f_equal.
  apply stores_determined; eauto. rewrite <- E. exact E3.
Qed.

(** fix_tree itself: its intermediate state is fixed by running it again. *)
Lemma fix_states t s sig : paths_ok cfg t -> NoDup (map m_pk t) -> In s (mp_fix_commits cfg t None) ->
  map ident s = map ident t /\ fix_tree cfg (mkDB s sig) false None = fix_tree cfg (mkDB t sig) false None.
Proof.
  intros P N H.
  assert (E : map ident s = map ident t).
  { unfold mp_fix_commits in H. cbn [commits fold_left] in H. destruct H as [<-|[<-|[<-|[]]]]; auto.
    - unfold fix_depth. rewrite map_map. apply map_ext. intros; reflexivity.
    - unfold fix_numchild, fix_depth. rewrite !map_map. apply map_ext. intros; reflexivity. }
  split; auto. destruct (fix_tree_ok cfg radix2 step1 (mkDB t sig) P N) as ([t' sig'] & E1 & E2 & E3 & F' & S').
  rewrite E1. cbn in *. subst sig'. apply (fix_back s t' F'); auto. rewrite E. symmetry. exact E3.
Qed.
End MP.

(** ** Nested sets *)
Section NS.
Import NSModel NSInv NSReads NSCheck NSDelete.
Local Open Scope Z_scope.

(** Two tables with the same rows but for the values of lft and rgt, which are in the same order. *)
Record as_in (phi : nsrow -> nsrow) (t : ns_table) : Prop := {
  ai_row : forall x, In x t -> n_pk (phi x) = n_pk x /\ n_tree (phi x) = n_tree x /\ n_depth (phi x) = n_depth x /\ n_data (phi x) = n_data x;
  ai_ll : forall x y, In x t -> In y t -> n_tree x = n_tree y -> (n_lft (phi x) < n_lft (phi y) <-> n_lft x < n_lft y);
  ai_rr : forall x y, In x t -> In y t -> n_tree x = n_tree y -> (n_rgt (phi x) < n_rgt (phi y) <-> n_rgt x < n_rgt y);
  ai_lr : forall x y, In x t -> In y t -> n_tree x = n_tree y -> (n_lft (phi x) < n_rgt (phi y) <-> n_lft x < n_rgt y);
  ai_rl : forall x y, In x t -> In y t -> n_tree x = n_tree y -> (n_rgt (phi x) < n_lft (phi y) <-> n_rgt x < n_lft y);
  ai_one : forall x, In x t -> (n_lft (phi x) = 1 <-> n_lft x = 1);
  ai_small : forall x, In x t -> n_rgt (phi x) - n_lft (phi x) <= n_rgt x - n_lft x }.

Definition shape (t s : ns_table) : Prop := exists phi, as_in phi t /\ s = map phi t.

Lemma shape_refl t : shape t t.
Proof. exists (fun x => x). split; [|rewrite map_id; auto]. constructor; intros; try tauto; lia. Qed.

Lemma shape_trans a b c : shape a b -> shape b c -> shape a c.
Proof.
  intros (f & [f1 f2 f3 f4 f5 f6 f7] & ->) (g & [g1 g2 g3 g4 g5 g6 g7] & ->). exists (fun x => g (f x)). split; [|apply map_map].
  assert (M : forall x, In x a -> In (f x) (map f a)) by (intros; apply in_map; auto).
  assert (T : forall x y, In x a -> In y a -> n_tree x = n_tree y -> n_tree (f x) = n_tree (f y)).
  { intros x y Hx Hy E. destruct (f1 x Hx) as (_ & E1 & _). destruct (f1 y Hy) as (_ & E2 & _). congruence. }
  constructor.
  - intros x Hx. destruct (f1 x Hx) as (A1 & A2 & A3 & A4). destruct (g1 (f x) (M x Hx)) as (B1 & B2 & B3 & B4).
    repeat split; congruence.
  - intros. rewrite g2, f2; auto. tauto.
  - intros. rewrite g3, f3; auto. tauto.
  - intros. rewrite g4, f4; auto. tauto.
  - intros. rewrite g5, f5; auto. tauto.
  - intros. rewrite g6, f6; auto. tauto.
  - intros x Hx. specialize (g7 _ (M x Hx)). specialize (f7 x Hx). lia.
Qed.

(** Rows that do not touch a range. *)
Definition avoids (x : nsrow) (g : Z * Z * Z) : Prop :=
  let '(T, l, r) := g in n_tree x = T -> 2 <= l /\ l <= r /\ (n_lft x < l \/ r < n_lft x) /\ (n_rgt x < l \/ r < n_rgt x).
Definition before_range (x y : Z * Z * Z) : Prop :=
  fst (fst x) < fst (fst y) \/ (fst (fst x) = fst (fst y) /\ snd x < snd (fst y)).

Definition close_row (T l r : Z) (x : nsrow) : nsrow :=
  if alter_sel T l x then alter_row l (- (r - l + 1)) x else x.

Lemma close_cases T l r x : avoids x (T, l, r) -> n_lft x < n_rgt x ->
  let y := close_row T l r x in
  n_pk y = n_pk x /\ n_tree y = n_tree x /\ n_depth y = n_depth x /\ n_data y = n_data x /\
  (n_tree x <> T -> n_lft y = n_lft x /\ n_rgt y = n_rgt x) /\
  (n_tree x = T -> (n_lft x < l /\ n_lft y = n_lft x \/ r < n_lft x /\ n_lft y = n_lft x - (r - l + 1)) /\
                   (n_rgt x < l /\ n_rgt y = n_rgt x \/ r < n_rgt x /\ n_rgt y = n_rgt x - (r - l + 1))).
Proof.
  intros A R y. subst y. unfold close_row, alter_sel, avoids in *. destruct (Z.leb_spec l (n_rgt x)) as [H|H], (Z.eqb_spec (n_tree x) T) as [E|E];
    cbn [andb]; try (repeat split; auto; intros; try congruence; lia).
  specialize (A E). unfold alter_row. cbn [n_pk n_tree n_depth n_data n_lft n_rgt]. repeat split; auto; try congruence.
  - destruct (Z.leb_spec l (n_lft x)); lia.
  - lia.
Qed.

Lemma close_shape db T l r : (forall x, In x (ns_rows db) -> avoids x (T, l, r)) ->
  (forall x, In x (ns_rows db) -> n_lft x < n_rgt x) -> shape (ns_rows db) (ns_rows (close_gap db l r T)).
Proof.
  intros A R. exists (close_row T l r). split; [|reflexivity].
  assert (C : forall x, In x (ns_rows db) -> _) by (intros x Hx; exact (close_cases T l r x (A x Hx) (R x Hx))). cbn beta zeta in C.
  assert (L : forall x, In x (ns_rows db) -> n_tree x = T -> 2 <= l /\ l <= r).
  { intros x Hx E. specialize (A x Hx). cbn in A. tauto. }
  constructor.
  - intros x Hx. specialize (C x Hx). tauto.
  - intros x y Hx Hy E. assert (Cx := C x Hx). assert (Cy := C y Hy). destruct (Z.eq_dec (n_tree x) T) as [Ex|Ex]; [assert (Lx := L x Hx Ex)|]; intuition lia.
  - intros x y Hx Hy E. assert (Cx := C x Hx). assert (Cy := C y Hy). destruct (Z.eq_dec (n_tree x) T) as [Ex|Ex]; [assert (Lx := L x Hx Ex)|]; intuition lia.
  - intros x y Hx Hy E. assert (Cx := C x Hx). assert (Cy := C y Hy). destruct (Z.eq_dec (n_tree x) T) as [Ex|Ex]; [assert (Lx := L x Hx Ex)|]; intuition lia.
  - intros x y Hx Hy E. assert (Cx := C x Hx). assert (Cy := C y Hy). destruct (Z.eq_dec (n_tree x) T) as [Ex|Ex]; [assert (Lx := L x Hx Ex)|]; intuition lia.
  - intros x Hx. assert (Cx := C x Hx). destruct (Z.eq_dec (n_tree x) T) as [Ex|Ex]; [assert (Lx := L x Hx Ex)|]; intuition lia.
  - intros x Hx. assert (Cx := C x Hx). destruct (Z.eq_dec (n_tree x) T) as [Ex|Ex]; [assert (Lx := L x Hx Ex)|]; assert (Rx := R x Hx); intuition lia.
Qed.

Lemma close_states rg : forall db,
  StronglySorted (fun x y => before_range y x) rg ->
  (forall x g, In x (ns_rows db) -> In g rg -> avoids x g) -> (forall x, In x (ns_rows db) -> n_lft x < n_rgt x) ->
  forall s, In s (commits db (map (fun x => [fun d => let '(tree, lft, rgt) := x in close_gap d lft rgt tree]) rg)) ->
  shape (ns_rows s) (ns_rows (fold_left close1 rg db)).
Proof.
  induction rg as [|[[T l] r] rg IH]; intros db SS A R s; cbn [map commits fold_left].
  { intros [<-|[]]. apply shape_refl. }
  inversion SS as [|? ? SS' H1]; subst. rewrite Forall_forall in H1.
  assert (A' : forall x g, In x (ns_rows (close1 db (T, l, r))) -> In g rg -> avoids x g).
  { intros y [[T' l'] r'] Hy Hg. cbn [close1] in Hy. unfold close_gap, alter_gap in Hy. cbn [ns_rows] in Hy. apply in_map_iff in Hy.
    destruct Hy as (x & <- & Hx). fold (close_row T l r x).
    assert (Cx := close_cases T l r x (A x (T, l, r) Hx (or_introl eq_refl)) (R x Hx)). cbn beta zeta in Cx.
    assert (Ag := A x (T', l', r') Hx (or_intror Hg)). assert (Ah := A x (T, l, r) Hx (or_introl eq_refl)).
    assert (B := H1 _ Hg). unfold before_range in B. cbn [fst snd] in B. cbn [avoids] in *. intros E.
    destruct Cx as (_ & E2 & _ & _ & C1 & C2). rewrite E2 in E. specialize (Ag E).
    destruct (Z.eq_dec (n_tree x) T) as [Ex|Ex].
    - specialize (C2 Ex). specialize (Ah Ex). lia.
    - destruct (C1 Ex) as [-> ->]. lia. }
  assert (R' : forall x, In x (ns_rows (close1 db (T, l, r))) -> n_lft x < n_rgt x).
  { intros y Hy. cbn [close1] in Hy. unfold close_gap, alter_gap in Hy. cbn [ns_rows] in Hy. apply in_map_iff in Hy.
    destruct Hy as (x & <- & Hx). fold (close_row T l r x).
    assert (Cx := close_cases T l r x (A x (T, l, r) Hx (or_introl eq_refl)) (R x Hx)). cbn beta zeta in Cx.
    assert (Ah := A x (T, l, r) Hx (or_introl eq_refl)). cbn [avoids] in Ah. specialize (R x Hx).
    destruct (Z.eq_dec (n_tree x) T) as [Ex|Ex]; intuition lia. }
  intros [<-|H].
  - eapply shape_trans; [|apply (IH (close1 db (T, l, r)) SS' A' R' (close1 db (T, l, r)))].
    + cbn [close1]. apply close_shape; auto. intros x Hx. apply A; simpl; auto.
    + destruct rg; simpl; auto.
  - apply (IH (close1 db (T, l, r)) SS' A' R'). exact H.
Qed.

(** The ranges of a delete. *)
Lemma rngs_before S T f : forall b, StronglySorted before_range (rngs S T b f).
Proof.
  induction f as [|a k IHk r IHr]; intros b; cbn [rngs]; [constructor|]. apply SS_app; auto.
  - destruct (S (nid a)); auto. repeat constructor.
  - intros x y Hx Hy. apply rngs_in in Hy. right. destruct (S (nid a)).
    + destruct Hx as [<-|[]]. cbn [fst snd]. lia.
    + apply rngs_in in Hx. lia.
Qed.

Lemma rngs_all_before S F : forall ts, StronglySorted Z.lt ts -> StronglySorted before_range (rngs_all S ts F).
Proof.
  induction F as [|a k _ r IH]; intros [|T ts] ST; cbn [rngs_all]; try constructor.
  inversion ST; subst. apply SS_app; auto; [apply rngs_before|].
  intros x y Hx Hy. apply rngs_in in Hx. apply rngs_all_tree in Hy. rewrite Forall_forall in H2. apply H2 in Hy.
  left. lia.
Qed.

Lemma ranges_in l : forall last g, In g (delete_ranges last l) -> exists r, In r l /\ g = (n_tree r, n_lft r, n_rgt r).
Proof.
  induction l as [|x l IH]; intros last g; cbn [delete_ranges]; [intros []|].
  destruct (match last with Some p => _ | None => false end).
  - intros H. apply IH in H. destruct H as (r & ? & ?). exists r. simpl. auto.
  - intros [<-|H]; [exists x; simpl; auto|]. apply IH in H. destruct H as (r & ? & ?). exists r. simpl. auto.
Qed.

(** The row with lft 1 encloses all others of its tree. *)
Lemma root_encloses t F x r : stores t F -> In x t -> In r t -> n_tree x = n_tree r -> n_lft x = 1 -> r <> x -> encloses x r.
Proof.
  intros St Hx Hr Et E1 Ne. assert (Wn := stores_well_nested t F St).
  assert (Rx := wn_real _ _ Wn x Hx). assert (Rr := wn_real _ _ Wn r Hr).
  assert (Nl : n_lft r <> 1).
  { intros E. destruct (wn_nested _ _ Wn x r) as [[H|H]|[H|H]]; auto; unfold encloses in *; lia. }
  destruct (root_read t F r St Hr) as (y & L & G1 & G2 & G3 & G4).
  destruct (ancestors_read t F r St Hr) as (L' & A1 & A2 & A3 & A4 & _).
  assert (EL : L' = L) by congruence. rewrite EL in A2, A4. clear EL.
  unfold get_root in G1. destruct (Z.eqb_spec (n_lft r) 1); [congruence|].
  destruct (filter _ t) as [|z [|? ?]] eqn:Ef; try discriminate. injection G1 as ->.
  assert (Hxf : In x [y]) by (rewrite <- Ef; apply filter_In; rewrite Et, E1, !Z.eqb_refl; auto).
  destruct Hxf as [->|[]].
  assert (Ir : is_root r = false) by (unfold is_root; apply Z.eqb_neq; auto).
  destruct L as [|a L]; [exfalso; assert (is_root r = true) by (apply A4; auto); congruence|].
  cbn [hd] in G4. unfold get_ancestors in A2. rewrite Ir in A2.
  assert (In (row_node x) (map row_node (order_rows (filter (fun s => (n_tree s =? n_tree r) && (n_lft s <? n_lft r) && (n_rgt r <? n_rgt s)) t)))).
  { rewrite A2, G4. simpl. auto. }
  apply in_map_iff in H. destruct H as (z & Ez & Hz). unfold order_rows in Hz. apply (Permutation_in _ (isort_perm _ _)) in Hz.
  apply filter_In in Hz. destruct Hz as [Hz Bz].
  assert (z = x).
  { destruct St as (W & ts & I & P). apply (row_eq t F ts W I P); auto. unfold row_node in Ez. congruence. }
  subst z. apply enclosesb_spec. exact Bz.
Qed.

(** ** Reading tables of the same shape *)
Lemma insert_map {A B} (le : A -> A -> bool) (le' : B -> B -> bool) f x l :
  (forall y, In y l -> le' (f x) (f y) = le x y) -> insert le' (f x) (map f l) = map f (insert le x l).
Proof.
  induction l as [|y l IH]; intros H; auto. cbn [map insert]. rewrite (H y) by (simpl; auto).
  destruct (le x y); auto. cbn [map]. f_equal. apply IH. intros; apply H; simpl; auto.
Qed.

Lemma isort_map {A B} (le : A -> A -> bool) (le' : B -> B -> bool) f l :
  (forall x y, In x l -> In y l -> le' (f x) (f y) = le x y) -> isort le' (map f l) = map f (isort le l).
Proof.
  induction l as [|x l IH]; intros H; auto. cbn [map isort]. rewrite IH by (intros; apply H; simpl; auto).
  apply insert_map. intros y Hy. apply (Permutation_in _ (isort_perm _ _)) in Hy. apply H; simpl; auto.
Qed.

Lemma filter_map_in {A B} (f : A -> B) (P : B -> bool) (Q : A -> bool) l :
  (forall x, In x l -> P (f x) = Q x) -> filter P (map f l) = map f (filter Q l).
Proof.
  induction l as [|x l IH]; intros H; auto. cbn [map filter]. rewrite (H x) by (simpl; auto).
  destruct (Q x); cbn [map]; rewrite IH by (intros; apply H; simpl; auto); auto.
Qed.

Section Shape.
Variables (t : ns_table) (phi : nsrow -> nsrow).
Hypothesis AI : as_in phi t.

Lemma tree_phi x : In x t -> n_tree (phi x) = n_tree x. Proof. intros H. apply (ai_row _ _ AI); auto. Qed.
Lemma pk_phi x : In x t -> n_pk (phi x) = n_pk x. Proof. intros H. apply (ai_row _ _ AI); auto. Qed.
Lemma depth_phi x : In x t -> n_depth (phi x) = n_depth x. Proof. intros H. apply (ai_row _ _ AI); auto. Qed.
Lemma node_phi x : In x t -> row_node (phi x) = row_node x.
Proof. intros H. unfold row_node. rewrite pk_phi by auto. f_equal. apply (ai_row _ _ AI); auto. Qed.

Lemma order_phi l : incl l t -> order_rows (map phi l) = map phi (order_rows l).
Proof.
  intros H. apply isort_map. intros x y Hx Hy. apply H in Hx, Hy. unfold le_key. f_equal. unfold pair_lt, row_key. cbn [fst snd].
  rewrite !tree_phi by auto. destruct (Z.ltb_spec (n_tree y) (n_tree x)); auto. destruct (Z.eqb_spec (n_tree y) (n_tree x)) as [E|E]; auto.
  cbn [orb andb]. apply eq_true_iff_eq. rewrite !Z.ltb_lt. apply (ai_ll _ _ AI); auto.
Qed.

Lemma encloses_phi x y : In x t -> In y t -> (encloses (phi x) (phi y) <-> encloses x y).
Proof.
  intros Hx Hy. unfold encloses. rewrite !tree_phi by auto. destruct (Z.eq_dec (n_tree x) (n_tree y)) as [E|E]; [|tauto].
  rewrite (ai_ll _ _ AI), (ai_rr _ _ AI); auto. tauto.
Qed.
Lemma enclosesb_phi x y : In x t -> In y t -> enclosesb (phi x) (phi y) = enclosesb x y.
Proof. intros Hx Hy. apply eq_true_iff_eq. rewrite !enclosesb_spec. apply encloses_phi; auto. Qed.

Lemma map_node l : incl l t -> map row_node (map phi l) = map row_node l.
Proof. intros H. rewrite map_map. apply map_ext_in. intros. apply node_phi. auto. Qed.

Lemma order_incl P : incl (order_rows (filter P t)) t.
Proof. intros x Hx. apply (Permutation_in _ (isort_perm _ _)) in Hx. apply filter_In in Hx. tauto. Qed.

Lemma get_tree_phi : map row_node (get_tree (map phi t) None None) = map row_node (get_tree t None None).
Proof.
  unfold get_tree. cbn [depth_ok]. rewrite (filter_map_in phi _ (fun _ => true)) by auto.
  rewrite order_phi by (intros x Hx; apply filter_In in Hx; tauto). apply map_node, order_incl.
Qed.

Lemma root_phi x : In x t -> is_root (phi x) = is_root x.
Proof. intros Hx. unfold is_root. apply eq_true_iff_eq. rewrite !Z.eqb_eq. apply (ai_one _ _ AI); auto. Qed.

Lemma roots_phi : map row_node (get_root_nodes (map phi t)) = map row_node (get_root_nodes t).
Proof.
  unfold get_root_nodes. rewrite (filter_map_in phi _ is_root) by (intros; apply root_phi; auto).
  rewrite order_phi by (intros x Hx; apply filter_In in Hx; tauto). apply map_node, order_incl.
Qed.

Lemma ancestors_phi x : In x t -> map row_node (get_ancestors (map phi t) (phi x)) = map row_node (get_ancestors t x).
Proof.
  intros Hx. unfold get_ancestors. rewrite root_phi by auto. destruct (is_root x); auto.
  rewrite (filter_map_in phi _ (fun s => enclosesb s x)).
  - rewrite order_phi by (intros y Hy; apply filter_In in Hy; tauto). rewrite map_node by apply order_incl. reflexivity.
  - intros y Hy. apply enclosesb_phi; auto.
Qed.

Lemma descendant_phi x y : In x t -> In y t -> is_descendant_of (phi x) (phi y) = is_descendant_of x y.
Proof.
  intros Hx Hy. assert (E := enclosesb_phi y x Hy Hx). unfold is_descendant_of, enclosesb in *.
  rewrite (Z.eqb_sym (n_tree (phi x))), (Z.eqb_sym (n_tree x)). auto.
Qed.

Lemma filter_phi l (P : nsrow -> bool) : incl l t -> (forall x, In x l -> P (phi x) = P x) -> filter P (map phi l) = map phi (filter P l).
Proof. intros H E. apply filter_map_in. auto. Qed.

Lemma children_phi x : well_nested 0 (map phi t) -> NoDup (map n_pk t) -> In x t ->
  map row_node (get_children (map phi t) (phi x)) = map row_node (get_children t x).
Proof.
  intros Wn U Hx.
  assert (Real : forall y, In y t -> n_lft y < n_rgt y).
  { intros y Hy. apply (ai_lr _ _ AI); auto. apply (wn_real _ _ Wn). apply in_map. auto. }
  unfold get_children, get_descendants. destruct (is_leaf x) eqn:Lx.
  - assert (is_leaf (phi x) = true) as ->; auto.
    unfold is_leaf in *. apply Z.eqb_eq in Lx. apply Z.eqb_eq. assert (S := ai_small _ _ AI x Hx).
    assert (Rx := wn_real _ _ Wn (phi x) ltac:(apply in_map; auto)). lia.
  - assert (Q : forall y, In y t -> (n_tree (phi y) =? n_tree (phi x)) && ((n_lft (phi x) <=? n_lft (phi y)) && (n_lft (phi y) <=? n_rgt (phi x) - 1)) && depth_ok None (n_depth (phi x)) (phi y) =
      (n_tree y =? n_tree x) && ((n_lft x <=? n_lft y) && (n_lft y <=? n_rgt x - 1)) && depth_ok None (n_depth x) y).
    { intros y Hy. cbn [depth_ok]. rewrite !tree_phi by auto. destruct (Z.eqb_spec (n_tree y) (n_tree x)) as [E|E]; auto.
      cbn [andb]. f_equal. apply eq_true_iff_eq. rewrite !andb_true_iff, !Z.leb_le.
      assert (A1 := ai_ll _ _ AI y x Hy Hx E). assert (A2 := ai_lr _ _ AI y x Hy Hx E). lia. }
    destruct (is_leaf (phi x)) eqn:Lp.
    + cbn [filter map]. symmetry. unfold get_tree. rewrite Lx.
      assert (G : forall l, incl l t -> (forall y, In y l -> y = x) -> map row_node (filter (fun r => n_depth r =? n_depth x + 1)
                   (filter (fun r => negb (n_pk r =? n_pk x)%nat) l)) = []).
      { induction l as [|y l IH]; intros Hi He; auto. cbn [filter]. rewrite (He y) by (simpl; auto). rewrite Nat.eqb_refl. cbn [negb].
        apply IH; [intros z Hz; apply Hi; simpl; auto|intros; apply He; simpl; auto]. }
      apply G; [apply order_incl|]. intros y Hy. apply (Permutation_in _ (isort_perm _ _)) in Hy. apply filter_In in Hy.
      destruct Hy as [Hy B]. rewrite <- Q in B by auto. cbn [depth_ok] in B. rewrite andb_true_r in B.
      rewrite !andb_true_iff, Z.eqb_eq, !Z.leb_le in B. destruct B as (B1 & B2 & B3).
      unfold is_leaf in Lp. apply Z.eqb_eq in Lp.
      destruct (Nat.eq_dec (n_pk y) (n_pk x)) as [E|E]; [eapply NoDup_map_inj; [exact U| | |]; auto|]. exfalso.
      assert (Ne : phi y <> phi x) by (intros Ep; apply E; rewrite <- (pk_phi y), <- (pk_phi x) by auto; congruence).
      assert (Hpx : In (phi x) (map phi t)) by (apply in_map; auto). assert (Hpy : In (phi y) (map phi t)) by (apply in_map; auto).
      assert (R1 := wn_real _ _ Wn _ Hpx). assert (R2 := wn_real _ _ Wn _ Hpy).
      destruct (wn_nested _ _ Wn (phi y) (phi x) Hpy Hpx Ne B1) as [[H|H]|[H|H]]; unfold encloses in *; lia.
    + unfold get_tree. rewrite Lx, Lp. rewrite (filter_map_in phi _ _ t Q).
      rewrite order_phi by (intros y Hy; apply filter_In in Hy; tauto).
      rewrite filter_phi; [|apply order_incl|].
      2: { intros y Hy. rewrite !pk_phi by (try apply order_incl in Hy; auto). auto. }
      rewrite filter_phi.
      * rewrite map_node; [|intros y Hy; apply filter_In in Hy; destruct Hy as [Hy _]; apply filter_In in Hy; destruct Hy as [Hy _]; apply order_incl in Hy; auto].
        rewrite depth_phi, pk_phi by auto. reflexivity.
      * intros y Hy. apply filter_In in Hy. destruct Hy as [Hy _]. apply order_incl in Hy. auto.
      * intros y Hy. apply filter_In in Hy. destruct Hy as [Hy _]. apply order_incl in Hy. rewrite !depth_phi by auto. auto.
Qed.

Lemma nested_phi : NoDup (map n_pk t) -> well_nested 0 (map phi t) -> well_nested 0 t.
Proof.
  intros U [W1 W2 W3 W4].
  assert (M : forall x, In x t -> In (phi x) (map phi t)) by (intros; apply in_map; auto).
  assert (Inj : forall x y, In x t -> In y t -> phi x = phi y -> x = y).
  { intros x y Hx Hy E. eapply NoDup_map_inj; [exact U| | |]; auto. rewrite <- (pk_phi x), <- (pk_phi y) by auto. congruence. }
  assert (Tr : forall x y, In x t -> In y t -> n_tree x = n_tree y -> n_tree (phi x) = n_tree (phi y)).
  { intros. rewrite !tree_phi; auto. }
  constructor.
  - intros r Hr. apply (ai_lr _ _ AI); auto.
  - intros r s Hr Hs Ne Et. destruct (W2 (phi r) (phi s)) as [H|[H|H]]; auto.
    + left. destruct H as [H|H]; [left|right]; apply (ai_rl _ _ AI); auto.
    + right. left. apply encloses_phi; auto.
    + right. right. apply encloses_phi; auto.
  - intros r s Hr Hs Et H1 H2. apply Inj; auto. apply W3; auto.
    + intros y Hy. apply in_map_iff in Hy. destruct Hy as (x & <- & Hx). rewrite encloses_phi by auto. auto.
    + intros y Hy. apply in_map_iff in Hy. destruct Hy as (x & <- & Hx). rewrite encloses_phi by auto. auto.
  - intros r Hr. rewrite <- (depth_phi r), (W4 (phi r)) by auto.
    rewrite (filter_map_in phi _ (fun s => enclosesb s r)), map_length; auto. intros x Hx. apply enclosesb_phi; auto.
Qed.
End Shape.

Lemma ns_delete_states db F sel s : stores (ns_rows db) F -> In s (ns_delete_commits db sel) ->
  s = db \/ shape (ns_rows s) (ns_rows (delete_queryset db sel)).
Proof.
  intros St. assert (Wn := stores_well_nested _ F St). unfold ns_delete_commits, ns_delete_transactions, delete_queryset. assert (St' := St).
  destruct St' as (W & ts & I & P). set (t := ns_rows db) in *.
  set (S := fun i => existsb (fun r => (n_pk r =? i)%nat && sel r) t).
  assert (ND : NoDup ts) by (apply sorted_NoDup, I).
  assert (Hsel : forall r, In r t -> sel r = S (n_pk r)).
  { intros r Hr. unfold S. apply eq_true_iff_eq. rewrite existsb_exists. split.
    - intros E. exists r. rewrite Nat.eqb_refl, E. auto.
    - intros (x & Hx & E). apply andb_true_iff in E. destruct E as [E1 E2]. apply Nat.eqb_eq in E1.
      assert (x = r) by (apply (row_eq t F ts W I P); auto). subst. auto. }
  assert (Er : delete_ranges None (order_rows (filter sel t)) = rngs_all S ts F).
  { rewrite (filter_ext_In sel (fun r => S (n_pk r)) t Hsel), (query t F ts I P).
    apply (del_layout S ts F None ND (proj1 I)). discriminate. }
  assert (Rg : forall g, In g (rngs_all S ts F) -> exists x, In x t /\ g = (n_tree x, n_lft x, n_rgt x)).
  { rewrite <- Er. intros g Hg. apply ranges_in in Hg. destruct Hg as (x & Hx & E). exists x. split; auto. apply order_incl in Hx. auto. }
  rewrite Er. set (R := rngs_all S ts F) in *.
  assert (Es : sort_ranges R = rev R) by (apply sort_rev, rngs_all_sorted, I).
  assert (Ss : StronglySorted (fun x y => before_range y x) (rev R)) by (apply SS_rev, rngs_all_before, I).
  assert (Rw : rngs_all S ts F = R) by reflexivity. clearbody R. destruct R as [|g0 R]; cbn [commits].
  { intros [H|[]]. left. auto. }
  intros [H|H]; [left; auto|right]. rewrite Es in *. cbn [fold_left] in H.
  eapply close_states in H; [exact H|exact Ss| |].
  - intros x g Hx Hg. cbn [ns_rows] in Hx. fold t in Hx. apply filter_In in Hx. destruct Hx as [Hx Nx]. rewrite <- in_rev in Hg.
    apply negb_true_iff in Nx. rewrite existsb_false in Nx. specialize (Nx g Hg).
    destruct (Rg g Hg) as (y & Hy & ->). cbn [avoids in_del_range] in *. intros Et. rewrite Et, Z.eqb_refl, andb_true_r in Nx.
    assert (Ry := wn_real _ _ Wn y Hy). assert (Rx := wn_real _ _ Wn x Hx).
    assert (Out : n_lft x < n_lft y \/ n_rgt y < n_lft x).
    { apply andb_false_iff in Nx. rewrite !Z.leb_gt in Nx. lia. }
    assert (Ne : x <> y) by (intros ->; lia).
    split; [|split; [lia|split; [lia|]]].
    + destruct (Z.eq_dec (n_lft y) 1) as [E1|E1].
      * exfalso. destruct (root_encloses t F y x St Hy Hx (eq_sym Et) E1 Ne). lia.
      * assert (B : 1 <= n_lft y); [|lia]. apply (in_t t F ts P) in Hy. apply (layout_bounds ts F y) in Hy. lia.
    + destruct (wn_nested _ _ Wn x y Hx Hy Ne Et) as [[H'|H']|[H'|H']]; unfold encloses in *; lia.
  - intros x Hx. cbn [ns_rows] in Hx. apply filter_In in Hx. apply (wn_real _ _ Wn). tauto.
Qed.
End NS.
