(** Theorems about UPDATE statements in different databases (C80). *)
From Coq Require Import List Arith Lia Bool ZArith Permutation.
From Verif Require Import Prelude Forest PathTab CommonModel Order Fixture MPModel MPFixModel MPInv SqlModel PropsMP.
From Verif Require NSModel.
Import ListNotations.
Local Open Scope list_scope.

(** [sql sem]: one of the two readings of several assignments. *)
Inductive sql {row : Type} : (list (assign row) -> row -> row) -> Prop :=
| sql_std : sql set_standard
| sql_my : sql set_mysql.

Section MP.
Variable cfg : mp_cfg.
Notation steplen := (steplen cfg).

(** All paths consist of whole steps. *)
Definition whole_steps (t : mp_table) : Prop := forall r, In r t -> Nat.divide steplen (length (m_path r)).

Lemma div_whole n k : 1 <= n -> div_store Decimal (k * n) n = k.
Proof. intros H. cbn [div_store]. replace (2 * (k * n) + n) with (n + k * (2 * n)) by lia. rewrite Nat.div_add by lia. rewrite Nat.div_small by lia. lia. Qed.

Lemma store_whole d n a : 1 <= n -> Nat.divide n a -> div_store d a n = a / n.
Proof. intros H [k ->]. destruct d; auto. rewrite div_whole, Nat.div_mul by lia. auto. Qed.

Lemma equal_whole d n a k : 1 <= n -> Nat.divide n a -> div_equal d a n k = (a / n =? k).
Proof.
  intros H [q ->]. destruct d; auto. cbn [div_equal]. rewrite Nat.div_mul by lia.
  destruct (Nat.eqb_spec q k) as [->|N]; [apply Nat.eqb_refl|]. apply Nat.eqb_neq. intros E. apply N. apply (Nat.mul_cancel_r q k n); lia.
Qed.

(** *** C80: the new paths and depths of a branch are the same in all databases *)
Theorem C80_branch sem d old new t : sql sem -> 1 <= steplen ->
  (d = Whole \/ (whole_steps t /\ Nat.divide steplen (length old) /\ Nat.divide steplen (length new))) ->
  sql_newpath cfg sem d old new t = map (set_row cfg old new) t.
Proof.
  intros S H D. unfold sql_newpath. apply map_ext_in. intros r Hr. unfold set_row.
  destruct (ppre old (m_path r)) eqn:P; auto.
  assert (E : div_store d (length (new ++ skipn (length old) (m_path r))) steplen = length (new ++ skipn (length old) (m_path r)) / steplen).
  { destruct D as [->|(W & Do & Dn)]; auto. apply store_whole; auto. rewrite app_length, skipn_length.
    apply Nat.divide_add_r; auto. apply Nat.divide_sub_r; auto. }
  unfold newpath_kwargs. destruct S; destruct (length old =? length new); cbn [app fold_left set_standard set_mysql];
    unfold set_standard, set_mysql, set_path, set_depth, concat_substr; cbn [app fold_left m_pk m_path m_depth m_nc m_data];
    replace (length old + 1 - 1) with (length old) by lia; rewrite ?E; reflexivity.
Qed.

(** In tables that store a forest, also with the decimal division. *)
Theorem C80_stored sem d old new t F : 2 <= radix cfg -> 1 <= steplen -> sql sem -> stores cfg t F ->
  Nat.divide steplen (length old) -> Nat.divide steplen (length new) ->
  sql_newpath cfg sem d old new t = map (set_row cfg old new) t.
Proof.
  intros R H S St Do Dn. apply C80_branch; auto. right. split; auto. intros r Hr.
  destruct St as (f & L & _). destruct (lay_in cfg t f r L Hr) as (x & Hx & ->). destruct L as (W & _).
  destruct (k_len cfg H f x W Hx) as [n E]. eexists. exact E.
Qed.

Theorem C80_rewrite sem old new t : sql sem -> sql_rewrite sem old new t = map (rewrite_row old new) t.
Proof.
  intros S. apply map_ext. intros r. unfold rewrite_row. destruct (ppre old (m_path r)); auto.
  destruct S; cbn; unfold set_path, concat_substr; replace (length old + 1 - 1) with (length old) by lia; auto.
Qed.

(** *** Repairs *)
Theorem C80_fix_depth d parent t : 1 <= steplen -> d = Whole \/ whole_steps t -> sql_fix_depth cfg d parent t = fix_depth cfg parent t.
Proof.
  intros H D. apply map_ext_in. intros r Hr. destruct (below parent r); auto. cbn [andb].
  assert (E : div_store d (length (m_path r)) steplen = length (m_path r) / steplen) by (destruct D as [->|W]; auto; apply store_whole; auto).
  assert (E' : div_equal d (length (m_path r)) steplen (m_depth r) = (length (m_path r) / steplen =? m_depth r)) by (destruct D as [->|W]; auto; apply equal_whole; auto).
  rewrite E, E'. destruct (Nat.eqb_spec (length (m_path r) / steplen) (m_depth r)) as [->|N]; cbn [negb]; auto. destruct r; auto.
Qed.

Lemma set_nc_same r : set_nc r (m_nc r) = r.
Proof. destruct r; auto. Qed.

Theorem C80_fix_numchild parent t : sql_fix_numchild cfg parent t = fix_numchild cfg parent t.
Proof.
  apply map_ext. intros r. unfold wrong_nc. destruct (below parent r); auto. cbn [andb].
  destruct (Nat.eqb_spec (m_nc r) (count_children cfg t (m_path r))) as [E|N]; auto. cbn [negb]. rewrite <- E, set_nc_same. auto.
Qed.

Lemma writes ks t : NoDup (map fst ks) ->
  fold_left write_nc ks t = map (fun r => match find (fun x => fst x =? m_pk r) ks with Some x => set_nc r (snd x) | None => r end) t.
Proof.
  revert t. induction ks as [|[k v] ks IH]; intros t N; cbn [fold_left find]; [rewrite map_id; auto|].
  inversion N as [|? ? N1 N2]; subst. rewrite IH by auto. unfold write_nc. rewrite map_map. apply map_ext. intros r. cbn [fst snd].
  rewrite (Nat.eqb_sym k). destruct (Nat.eqb_spec (m_pk r) k) as [E|E]; auto. cbn [m_pk set_nc].
  destruct (find _ ks) as [x|] eqn:Ef; auto. exfalso. apply find_some in Ef. destruct Ef as [Hx Ex]. apply Nat.eqb_eq in Ex.
  apply N1. cbn [fst]. apply in_map_iff. exists x. split; auto. cbn [set_nc m_pk] in Ex. congruence.
Qed.

(** With MySQL the same rows are written one by one. *)
Theorem C80_fix_numchild_mysql parent t : NoDup (map m_pk t) -> mysql_fix_numchild cfg parent t = fix_numchild cfg parent t.
Proof.
  intros N. rewrite <- C80_fix_numchild. unfold mysql_fix_numchild. rewrite writes.
  2:{ rewrite map_map. cbn [fst]. clear - N. generalize (wrong_nc cfg parent t). intros sel. induction t as [|r t IH]; [constructor|]. inversion N as [|? ? N1 N2]; subst.
      cbn [filter]. destruct (sel r); auto. cbn [map]. constructor; auto. intros X. apply N1. apply in_map_iff in X. destruct X as (y & <- & Hy). apply filter_In in Hy. apply in_map. tauto. }
  apply map_ext_in. intros r Hr.
  assert (U : forall y, In y t -> m_pk y = m_pk r -> y = r).
  { intros y Hy E. destruct (In_nth t y r Hy) as (i & Hi & Ei). destruct (In_nth t r r Hr) as (j & Hj & Ej).
    assert (i = j). { rewrite NoDup_nth with (d := m_pk r) in N. apply N; rewrite ?map_length; auto. rewrite !map_nth, Ei, Ej. auto. } congruence. }
  destruct (find _ _) as [x|] eqn:Ef.
  - apply find_some in Ef. destruct Ef as [Hx Ex]. apply Nat.eqb_eq in Ex. apply in_map_iff in Hx. destruct Hx as (y & <- & Hy). apply filter_In in Hy. destruct Hy as [Hy Hw].
    cbn [fst snd] in *. rewrite (U y Hy Ex) in *. rewrite Hw. auto.
  - destruct (wrong_nc cfg parent t r) eqn:Hw; auto. exfalso.
    assert (X := find_none _ _ Ef (m_pk r, count_children cfg t (m_path r))). cbn in X. rewrite Nat.eqb_refl in X. discriminate X.
    apply in_map_iff. exists r. split; auto. apply filter_In. auto.
Qed.

(** find_problems counts the same children. *)
Theorem C80_count d t n : 1 <= steplen -> d = Whole \/ whole_steps t -> sql_real_numchild cfg d t n = real_numchild cfg t n.
Proof.
  intros H D. unfold sql_real_numchild, real_numchild. f_equal. apply filter_ext_in. intros r Hr. f_equal.
  destruct D as [->|W]; auto. apply equal_whole; auto.
Qed.
End MP.

(** The comment in the source: in the other order MySQL computes the depth from the new path.
    By the standard the order makes no difference. *)
Theorem C80_other_order : exists cfg old new r,
  set_mysql (rev (newpath_kwargs cfg Whole old new)) r <> set_standard (rev (newpath_kwargs cfg Whole old new)) r /\
  m_depth (set_mysql (rev (newpath_kwargs cfg Whole old new)) r) <> m_depth (set_standard (newpath_kwargs cfg Whole old new) r).
Proof.
  exists c10, [0; 1; 0; 2], [0; 3], (mkMP 1 [0; 1; 0; 2; 0; 1] 3 0 []). vm_compute. split; discriminate.
Qed.
Theorem C80_any_order cfg d old new r :
  set_standard (rev (newpath_kwargs cfg d old new)) r = set_standard (newpath_kwargs cfg d old new) r.
Proof. unfold newpath_kwargs. destruct (length old =? length new); reflexivity. Qed.

(** With a path that is no whole number of steps fix_tree and find_problems do different things
    in different databases. *)
Theorem C80_depth_refuted : exists cfg t, 1 <= steplen cfg /\ sql_fix_depth cfg Decimal None t <> sql_fix_depth cfg Whole None t.
Proof. exists c10, [mkMP 1 [0; 1; 0] 1 0 []]. split; [vm_compute; lia|]. vm_compute. discriminate. Qed.

Theorem C80_count_refuted : exists cfg t n, 1 <= steplen cfg /\ In n t /\ sql_real_numchild cfg Decimal t n <> sql_real_numchild cfg Whole t n.
Proof.
  exists c10, [mkMP 1 [0; 1] 1 1 []; mkMP 2 [0; 1; 0; 1; 1] 2 0 []], (mkMP 1 [0; 1] 1 1 []). split; [vm_compute; lia|]. split; [left; auto|]. vm_compute. discriminate.
Qed.

(** *** C80: nested sets. The assignments are about different columns, so also their order does not
    matter. *)
Lemma fold_perm {A B} (f : B -> A -> B) l l' : Permutation l l' -> (forall a b acc, In a l -> In b l -> f (f acc a) b = f (f acc b) a) ->
  forall acc, fold_left f l acc = fold_left f l' acc.
Proof.
  induction 1 as [|x l l' P IH|x y l|l1 l2 l3 P1 IH1 P2 IH2]; intros C acc; auto.
  - cbn. apply IH. intros. apply C; right; auto.
  - cbn. rewrite C; cbn; auto.
  - rewrite IH1 by auto. apply IH2. intros a b acc' Ha Hb. apply C; eapply Permutation_in; try apply Permutation_sym; eauto.
Qed.

Theorem C80_ns_gap sem start offset l t cond : sql sem -> Permutation (gap_kwargs start offset) l ->
  sql_set sem cond l t = map (fun r => if cond r then NSModel.alter_row start offset r else r) t.
Proof.
  intros S P. apply map_ext. intros r. destruct (cond r); auto.
  destruct S; unfold set_standard, set_mysql; rewrite <- (fold_perm _ _ _ P); try reflexivity;
    intros a b acc Ha Hb; cbn in Ha, Hb; destruct Ha as [<-|[<-|[]]]; destruct Hb as [<-|[<-|[]]]; reflexivity.
Qed.

Theorem C80_ns_jump sem tree jump dd l t cond : sql sem -> Permutation (jump_kwargs tree jump dd) l ->
  sql_set sem cond l t = map (fun r => if cond r then NSModel.jump_row tree jump dd r else r) t.
Proof.
  intros S P. apply map_ext. intros r. destruct (cond r); auto.
  destruct S; unfold set_standard, set_mysql; rewrite <- (fold_perm _ _ _ P); try reflexivity;
    intros a b acc Ha Hb; cbn in Ha, Hb; destruct Ha as [<-|[<-|[<-|[<-|[]]]]]; destruct Hb as [<-|[<-|[<-|[<-|[]]]]]; reflexivity.
Qed.

Example C80_example :
  stores c10 (db_rows ex_db) ex_F /\
  set_mysql (newpath_kwargs c10 Decimal [0; 1; 0; 2] [0; 3]) (mkMP 6 [0; 1; 0; 2; 0; 1] 3 0 []) = mkMP 6 [0; 3; 0; 1] 2 0 [].
Proof. split; [apply ex_stores|]. reflexivity. Qed.

Print Assumptions C80_branch.
Print Assumptions C80_stored.
Print Assumptions C80_rewrite.
Print Assumptions C80_fix_depth.
Print Assumptions C80_fix_numchild.
Print Assumptions C80_fix_numchild_mysql.
Print Assumptions C80_count.
Print Assumptions C80_other_order.
Print Assumptions C80_any_order.
Print Assumptions C80_depth_refuted.
Print Assumptions C80_count_refuted.
Print Assumptions C80_ns_gap.
Print Assumptions C80_ns_jump.
