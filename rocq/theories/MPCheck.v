(** When a table stores a forest, in terms of its rows only; find_problems and the
    quick fix_tree. *)
From Coq Require Import List Arith ZArith Lia Bool Permutation Sorted.
From Verif Require Import Prelude Forest NumConv SpecFacts PathTab PathMove CommonModel Order MPModel MPStep
  MPInv MPCount MPShift MPReorder MPAdd MPReads MPFixModel.
Import ListNotations.

Section Check.
Variable cfg : mp_cfg.
Hypothesis radix2 : 2 <= radix cfg.
Hypothesis step1 : 1 <= steplen cfg.
Notation R := (radix cfg).
Notation w := (steplen cfg).
Notation mkrow := (mkrow cfg).
Notation kpwf := (kpwf cfg).
Notation kvalid := (kvalid cfg).
Notation lay := (lay cfg).
Notation stores := (stores cfg).

(** ** Specification in terms of rows *)

(** The paths are those of a forest: characters of the alphabet, a positive number
    of steps, unique, no step is zero, and parents are present. *)
Record paths_ok (t : mp_table) : Prop := {
  po_chars : forall r, In r t -> Forall (fun c => c < R) (m_path r);
  po_len : forall r, In r t -> exists n, length (m_path r) = S n * w;
  po_uniq : NoDup (map m_path t);
  po_step : forall r, In r t -> 1 <= undigits R (last_step cfg (m_path r));
  po_par : forall r, In r t -> length (m_path r) = w \/
             exists r', In r' t /\ m_path r' = get_parent_path cfg (m_path r) }.

Definition depths_ok (t : mp_table) : Prop :=
  forall r, In r t -> m_depth r = length (m_path r) / w.

Definition counts_ok (t : mp_table) : Prop :=
  forall r, In r t -> m_nc r = count_children cfg t (m_path r).

(** ** Building the forest *)
Lemma max_row (t : mp_table) : t <> [] -> exists r, In r t /\ forall x, In x t -> plt (m_path r) (m_path x) = false.
Proof.
  induction t as [|a t IH]; [congruence|]. intros _. destruct t as [|b t].
  - exists a. split; simpl; auto. intros x [<-|[]]. apply llt_irr. apply irr.
  - destruct IH as (r & Hr & H); [congruence|].
    destruct (plt (m_path r) (m_path a)) eqn:E.
    + exists a. split; [left; auto|]. intros x [<-|Hx]; [apply llt_irr; apply irr|].
      destruct (plt (m_path a) (m_path x)) eqn:E2; auto.
      rewrite <- (H x Hx). symmetry. eapply llt_trans; eauto using irr, ltb_tr', ltb_tot'.
    + exists r. split; [right; auto|]. intros x [<-|Hx]; auto.
Qed.

Lemma parent_split p : w <= length p -> p = get_parent_path cfg p ++ last_step cfg p /\
  length (last_step cfg p) = w /\ length (get_parent_path cfg p) = length p - w.
Proof.
  intros H. unfold get_parent_path, last_step. rewrite firstn_skipn. split; auto.
  rewrite skipn_length, firstn_length. lia.
Qed.

Definition of_row (r : mprow) : path * payload := (m_path r, (mkNode (m_pk r) (m_data r), m_nc r)).

Lemma of_row_mk r : m_depth r = length (m_path r) / w -> mkrow (of_row r) = r.
Proof. destruct r; simpl. unfold MPInv.mkrow, of_row. simpl. intros ->. auto. Qed.

Lemma build t : paths_ok t -> depths_ok t -> exists f, lay t f.
Proof.
  remember (length t) as n eqn:En. revert t En. induction n as [|n IH]; intros t En P D.
  - destruct t; [|discriminate]. exists Nil. repeat split; constructor.
  - destruct (max_row t) as (r & Hr & Mx); [destruct t; [discriminate|congruence]|].
    apply in_split in Hr. destruct Hr as (t1 & t2 & ->).
    set (t' := t1 ++ t2) in *.
    assert (Sub : forall x, In x t' -> In x (t1 ++ r :: t2)).
    { intros x Hx. unfold t' in Hx. rewrite in_app_iff in *. simpl. tauto. }
    assert (Hrin : In r (t1 ++ r :: t2)) by (rewrite in_app_iff; simpl; auto).
    assert (Un : NoDup (map m_path t') /\ ~ In (m_path r) (map m_path t')).
    { assert (U := po_uniq _ P). rewrite map_app in U. simpl in U.
      unfold t'. rewrite map_app. split; [eapply NoDup_remove_1|eapply NoDup_remove_2]; eauto. }
    assert (Lt : forall x, In x t' -> plt (m_path x) (m_path r) = true).
    { intros x Hx. destruct (plt (m_path x) (m_path r)) eqn:E; auto.
      exfalso. apply (proj2 Un). apply in_map_iff. exists x. split; auto.
      apply (@llt_total _ Nat.ltb irr ltb_tot'); auto. }
    assert (Hw : forall x, In x (t1 ++ r :: t2) -> w <= length (m_path x)).
    { intros x Hx. destruct (po_len _ P x Hx) as [k E]. rewrite E. simpl. lia. }
    assert (P' : paths_ok t').
    { constructor.
      - intros x Hx. apply (po_chars _ P); auto.
      - intros x Hx. apply (po_len _ P); auto.
      - apply Un.
      - intros x Hx. apply (po_step _ P); auto.
      - intros x Hx. destruct (po_par _ P x (Sub x Hx)) as [E|(y & Hy & E)]; auto.
        right. exists y. split; auto. rewrite in_app_iff in Hy. simpl in Hy.
        unfold t'. rewrite in_app_iff. destruct Hy as [Hy|[<-|Hy]]; auto. exfalso.
        destruct (parent_split (m_path x)) as (E1 & E2 & _); [apply Hw; auto|].
        assert (X : plt (m_path r) (m_path x) = true).
        { rewrite E1, <- E. apply llt_self_app; [apply irr|]. intros E0. rewrite E0 in E2. simpl in E2. lia. }
        rewrite (Mx x) in X; [discriminate|auto]. }
    assert (D' : depths_ok t') by (intros x Hx; apply D; auto).
    destruct (IH t') as [f L]; auto.
    { rewrite app_length in En. unfold t'. rewrite app_length. simpl in En. lia. }
    destruct (parent_split (m_path r)) as (E1 & E2 & E3); [apply Hw; auto|].
    set (q := get_parent_path cfg (m_path r)) in *. set (s := last_step cfg (m_path r)) in *.
    assert (Vs : vseg cfg s).
    { split; auto. split; [|apply (po_step _ P); auto].
      assert (F := po_chars _ P r Hrin). rewrite E1, Forall_app in F. tauto. }
    assert (Hin : exists pa l f', At q pa l (fapp l (Cons (s, snd (of_row r)) Nil Nil)) f f' /\ pold pa = pnew pa).
    { destruct (po_par _ P r Hrin) as [E|(y & Hy & E)].
      - exists None, f, (fapp f (Cons (s, snd (of_row r)) Nil Nil)).
        replace q with (@nil nat); [split; [apply At_top|auto]|].
        symmetry. apply length_zero_iff_nil. lia.
      - assert (Hy' : In y t').
        { rewrite in_app_iff in Hy. simpl in Hy. unfold t'. rewrite in_app_iff.
          destruct Hy as [Hy|[<-|Hy]]; auto. exfalso. fold q in E.
          assert (X : length (m_path r) = length q) by congruence. assert (X2 := Hw r Hrin). lia. }
        destruct (lay_in cfg _ _ _ L Hy') as ([p a] & Hx & ->).
        change (m_path (mkrow (p, a))) with p in E. fold q in E. subst p.
        destruct (@row_kids _ _ _ _ _ Hx) as [l Hl].
        destruct (Hl a (fapp l (Cons (s, snd (of_row r)) Nil Nil))) as [f' HA].
        exists (Some (a, a)), l, f'. auto. }
    destruct Hin as (pa & l & f' & HA & Ep). exists f'.
    assert (W : kpwf f) by apply L.
    assert (Wl := k_At_pwf_l cfg _ _ _ _ _ _ HA W).
    assert (W' : kpwf (fapp l (Cons (s, snd (of_row r)) Nil Nil))).
    { apply pwf_fapp. split; auto. split; [simpl; repeat split; auto|].
      intros [s1 b] y Hx [<-|[]]. simpl.
      assert (X : plt (q ++ s1) (m_path r) = true).
      { change (q ++ s1) with (m_path (mkrow (q ++ s1, b))). apply Lt.
        eapply lay_in_rev; eauto. eapply k_root_in; eauto. }
      rewrite E1 in X. unfold plt in X. rewrite llt_pre in X by apply irr. auto. }
    split; [eapply k_At_pwf; eauto|]. split.
    { eapply kvalid_At; [eassumption|apply L|]. apply kvalid_fapp. split.
      - eapply kvalid_At_l; [eassumption|apply L].
      - apply kvalid_cons. repeat split; auto; try apply Vs; constructor. }
    assert (Pm : Permutation (rows f') (rows f ++ [of_row r])).
    { replace l with (fapp l Nil) in HA at 1 by apply fapp_nil_r.
      assert (X : Permutation (rows f') (rows f ++ subrows (q ++ s) (snd (of_row r)) Nil)) by (eapply At_insert_rows; eauto using irr, ltb_tr', ltb_tot'). rewrite X. unfold subrows. simpl.
      rewrite <- E1. reflexivity. }
    rewrite Pm, map_app. simpl. rewrite of_row_mk by (apply D; auto).
    destruct L as (_ & _ & PL). rewrite <- PL. unfold t'.
    rewrite <- Permutation_cons_append. symmetry. apply Permutation_middle.
Qed.

(** *** The counts *)
Lemma nc_from_At (f : kf) : (forall q a l, At q (Some (a, a)) l l f f -> snd a = length (roots l)) -> nc_ok f.
Proof.
  induction f as [|[s a] k IHk r IHr]; simpl; auto. intros H. split; [|split].
  - apply (H s a k). apply At_par.
  - apply IHk. intros q b l HA. apply (H (s ++ q) b l). apply (At_down (s, a) r HA).
  - apply IHr. intros q b l HA. apply (H q b l). apply At_right. auto.
Qed.

Lemma count_lay t f q a l : lay t f -> At q (Some (a, a)) l l f f ->
  count_children cfg t q = length (roots l).
Proof.
  intros (W & V & P) HA. unfold count_children.
  rewrite (Permutation_length (Permutation_filter _ P)), filter_map, map_length.
  rewrite <- (map_length (pre q) (roots l)), <- (k_children cfg step1 _ _ _ _ _ _ HA W). auto.
Qed.

Lemma At_of_row (f : kf) p a : In (p, a) (rows f) -> exists l, At p (Some (a, a)) l l f f.
Proof.
  intros H. destruct (@row_kids _ _ _ _ _ H) as [l Hl]. destruct (Hl a l) as [f' HA].
  assert (f = f') by (eapply At_same; eauto). subst f'. eauto.
Qed.

Lemma lay_counts t f : lay t f -> (counts_ok t <-> nc_ok f).
Proof.
  intros L. split.
  - intros C. apply nc_from_At. intros q a l HA.
    assert (Hin : In (mkrow (q, a)) t) by (eapply lay_in_rev; eauto; eapply k_At_in; eauto).
    assert (E := C _ Hin). simpl in E. rewrite E. simpl. eapply count_lay; eauto.
  - intros N r Hr. destruct (lay_in cfg _ _ _ L Hr) as ([p a] & Hx & ->). simpl.
    destruct (At_of_row f p a Hx) as [l HA]. rewrite (count_lay t f p a l L HA).
    apply (nc_At_par _ _ _ _ _ _ _ HA N).
Qed.

(** *** A table that stores a forest has the properties *)
Lemma lay_paths t f : lay t f -> paths_ok t /\ depths_ok t.
Proof.
  intros L. assert (W : kpwf f) by apply L. assert (V : kvalid f) by apply L. split; [constructor|].
  - intros r Hr. destruct (lay_in cfg _ _ _ L Hr) as (x & Hx & ->). apply (kvalid_digits cfg _ _ V Hx).
  - intros r Hr. destruct (lay_in cfg _ _ _ L Hr) as (x & Hx & ->). apply (k_len cfg step1 _ _ W Hx).
  - destruct L as (_ & _ & P). rewrite (Permutation_map m_path P), map_map.
    apply (k_NoDup cfg step1 _ W).
  - intros r Hr. destruct (locate cfg radix2 step1 _ _ _ L Hr) as (q & s & pa & l1 & a & c & l2 & n & -> & Ep & H & En & Ed & Eq).
    simpl. assert (Hs : In (s, a) (roots (fapp l1 (Cons (s, a) c l2)))).
    { rewrite roots_fapp, in_app_iff. simpl. auto. }
    assert (Vs := kvalid_roots cfg _ _ (kvalid_At_l cfg _ _ _ _ _ _ H V) Hs). simpl in Vs.
    rewrite last_step_app by (auto; apply Vs). apply Vs.
  - intros r Hr. destruct (locate cfg radix2 step1 _ _ _ L Hr) as (q & s & pa & l1 & a & c & l2 & n & -> & Ep & H & En & Ed & Eq).
    simpl. assert (Hs : In (s, a) (roots (fapp l1 (Cons (s, a) c l2)))).
    { rewrite roots_fapp, in_app_iff. simpl. auto. }
    assert (Vs := kvalid_roots cfg _ _ (kvalid_At_l cfg _ _ _ _ _ _ H V) Hs). simpl in Vs.
    destruct pa as [[b b']|].
    + right. exists (mkrow (q, b)). split; [eapply lay_in_rev; eauto; eapply k_At_in; eauto|].
      simpl. rewrite get_parent_path_app; auto; apply Vs.
    + left. rewrite (proj1 Eq eq_refl). simpl. apply Vs.
  - intros r Hr. destruct (lay_in cfg _ _ _ L Hr) as (x & Hx & ->). auto.
Qed.

(** The exact meaning of [stores] (up to the forest) in terms of rows. *)
Theorem stores_iff t : (exists F, stores t F) <->
  paths_ok t /\ depths_ok t /\ counts_ok t /\ NoDup (map m_pk t).
Proof.
  split.
  - intros (F & f & L & N & <- & I). destruct (lay_paths t f L). split; [auto|]. split; [auto|]. split.
    + apply (lay_counts t f L). auto.
    + rewrite (lay_pks cfg _ _ L). auto.
  - intros (P & D & C & U). destruct (build t P D) as [f L]. exists (kerase f), f.
    repeat split; auto; try apply L.
    + apply (lay_counts t f L). auto.
    + unfold wf_ids. rewrite <- (lay_pks cfg _ _ L). auto.
Qed.

(** ** find_problems *)

Definition unproblematic (t : mp_table) (n : mprow) : Prop :=
  Forall (fun c => c < R) (m_path n) /\ length (m_path n) mod w = 0 /\
  (exists p, get_parent cfg t n = Ok p) /\ m_depth n = length (m_path n) / w /\
  real_numchild cfg t n = m_nc n.

Lemma problem_none t n : problem_of cfg t n = None <-> unproblematic t n.
Proof.
  unfold problem_of, unproblematic.
  destruct (existsb (fun c => negb (c <? R)) (m_path n)) eqn:E1.
  - split; [discriminate|]. intros (H & _). apply existsb_exists in E1. destruct E1 as (c & Hc & E1).
    rewrite Forall_forall in H. apply H in Hc. apply negb_true_iff, Nat.ltb_ge in E1. lia.
  - assert (F : Forall (fun c => c < R) (m_path n)).
    { apply Forall_forall. intros c Hc. rewrite existsb_false in E1. apply E1 in Hc.
      apply negb_false_iff, Nat.ltb_lt in Hc. auto. }
    destruct (Nat.eqb_spec (length (m_path n) mod w) 0) as [E2|E2]; cbn [negb].
    2:{ split; [discriminate|]. tauto. }
    destruct (get_parent cfg t n) as [p|e].
    2:{ split; [discriminate|]. intros (_ & _ & [p H] & _). discriminate. }
    destruct (Nat.eqb_spec (m_depth n) (length (m_path n) / w)) as [E3|E3]; cbn [negb].
    2:{ split; [discriminate|]. tauto. }
    destruct (Nat.eqb_spec (real_numchild cfg t n) (m_nc n)) as [E4|E4]; cbn [negb].
    2:{ split; [discriminate|]. tauto. }
    split; auto. intros _. repeat split; eauto.
Qed.

Lemma find_problems_nil t parent : find_problems cfg t parent = [] <->
  forall n, In n t -> below parent n = true -> unproblematic t n.
Proof.
  unfold find_problems. split.
  - intros E n Hn Hb. apply problem_none. destruct (problem_of cfg t n) as [p|] eqn:Ep; auto. exfalso.
    assert (H : In (m_pk n, p) (flat_map (fun n => match problem_of cfg t n with Some p => [(m_pk n, p)] | None => [] end)
       (filter (below parent) t))).
    { apply in_flat_map. exists n. rewrite filter_In, Ep. simpl. auto. }
    rewrite E in H. destruct H.
  - intros H. assert (H' : forall n, In n (filter (below parent) t) -> problem_of cfg t n = None).
    { intros n Hn. apply filter_In in Hn. apply problem_none. apply H; tauto. }
    induction (filter (below parent) t) as [|a l IH]; simpl; auto.
    rewrite H' by (left; auto). apply IH. intros n Hn. apply H'. right; auto.
Qed.

(** Which rows a range query sees, once all paths are well formed. *)
Lemma range_children t n : (forall r, In r t -> Forall (fun c => c < R) (m_path r)) ->
  (forall r, In r t -> length (m_path r) mod w = 0) -> In n t ->
  m_depth n = length (m_path n) / w -> real_numchild cfg t n = count_children cfg t (m_path n).
Proof.
  intros Hc Hl Hn Hd. unfold real_numchild, count_children. f_equal. apply filter_ext_In. intros r Hr.
  assert (Cr := Hc r Hr). assert (Lr := Hl r Hr). assert (Ln := Hl n Hn).
  rewrite Hd. apply Nat.mod_divides in Lr; [|lia]. apply Nat.mod_divides in Ln; [|lia].
  destruct Lr as [kr Er], Ln as [kn En].
  assert (E : (length (m_path r) / w =? length (m_path n) / w + 1) = (length (m_path r) =? length (m_path n) + w)).
  { rewrite Er, En, !(Nat.mul_comm w), !Nat.div_mul by lia.
    destruct (Nat.eqb_spec kr (kn + 1)) as [->|Ne]; symmetry; [apply Nat.eqb_eq; lia|].
    apply Nat.eqb_neq. intros X. apply Ne. apply (Nat.mul_cancel_r _ _ w); lia. }
  rewrite E. destruct (Nat.eqb_spec (length (m_path r)) (length (m_path n) + w)) as [Elen|]; [|rewrite !andb_false_r; auto].
  rewrite !andb_true_r. apply in_range_prefix; auto.
Qed.

Lemma get_by_path_ok t p r : get_by_path t p = Ok r -> In r t /\ m_path r = p.
Proof.
  unfold get_by_path. destruct (filter (fun r => peq (m_path r) p) t) as [|x [|y l]] eqn:E; try discriminate.
  intros H. injection H as ->. assert (Hin : In r (filter (fun r => peq (m_path r) p) t)) by (rewrite E; left; auto).
  apply filter_In in Hin. destruct Hin as [H1 H2]. apply peq_iff in H2. auto.
Qed.

Lemma get_by_path_some t p : NoDup (map m_path t) -> (exists r, In r t /\ m_path r = p) ->
  exists r, get_by_path t p = Ok r.
Proof.
  intros U (r & Hr & <-). exists r. unfold get_by_path.
  apply in_split in Hr. destruct Hr as (t1 & t2 & ->). rewrite map_app in U. simpl in U.
  apply NoDup_remove_2 in U. rewrite filter_app. simpl. rewrite peq_refl.
  rewrite !filter_none; auto; intros x Hx; apply peq_false; intros E; apply U; rewrite <- E;
    rewrite <- map_app; apply in_map; apply in_app_iff; auto.
Qed.

Lemma basepath_parent p k : length p = S k * w -> get_basepath cfg p k = get_parent_path cfg p.
Proof. intros E. unfold get_basepath, get_parent_path. rewrite E. f_equal. simpl. lia. Qed.

(** find_problems finds nothing exactly if the table stores a forest, for tables
    without empty paths and zero steps (those are not detected, see MPRefuted). *)
Theorem find_problems_exact_partial t :
  NoDup (map m_path t) -> NoDup (map m_pk t) ->
  (forall r, In r t -> m_path r <> [] /\ 1 <= undigits R (last_step cfg (m_path r))) ->
  (find_problems cfg t None = [] <-> exists F, stores t F).
Proof.
  intros U1 U2 Z. rewrite find_problems_nil, stores_iff. split.
  - intros H. assert (Un : forall n, In n t -> unproblematic t n) by (intros n Hn; apply H; auto). clear H.
    assert (Len : forall r, In r t -> exists n, length (m_path r) = S n * w).
    { intros r Hr. destruct (Un r Hr) as (_ & Hm & _). apply Nat.mod_divides in Hm; [|lia].
      destruct Hm as [k Ek]. destruct k as [|k].
      - exfalso. apply (proj1 (Z r Hr)). apply length_zero_iff_nil. lia.
      - exists k. lia. }
    split; [constructor; auto|].
    + intros r Hr. apply (Un r Hr).
    + intros r Hr. apply (Z r Hr).
    + intros r Hr. destruct (Len r Hr) as [[|k] Ek]; [left; lia|right].
      destruct (Un r Hr) as (_ & _ & [p Hp] & _). unfold get_parent in Hp.
      rewrite Ek, Nat.div_mul in Hp by lia.
      destruct (Nat.leb_spec (S (S k)) 1); [lia|].
      rewrite Nat.sub_succ, Nat.sub_0_r in Hp. rewrite (basepath_parent _ _ Ek) in Hp.
      destruct (get_by_path t (get_parent_path cfg (m_path r))) as [r'|] eqn:E; [|discriminate].
      apply get_by_path_ok in E. eauto.
    + split; [intros r Hr; apply (Un r Hr)|]. split; auto.
      intros r Hr. destruct (Un r Hr) as (_ & _ & _ & D & C). rewrite <- C.
      apply range_children; auto; intros x Hx; apply (Un x Hx).
  - intros (P & D & C & _) n Hn _. repeat split.
    + apply (po_chars _ P); auto.
    + destruct (po_len _ P n Hn) as [k ->]. apply Nat.mod_mul. lia.
    + destruct (po_len _ P n Hn) as [k Ek]. unfold get_parent. rewrite Ek, Nat.div_mul by lia.
      destruct (Nat.leb_spec (S k) 1); eauto.
      destruct (po_par _ P n Hn) as [E|E]; [exfalso; destruct k; [lia|]; simpl in Ek; lia|].
      rewrite Nat.sub_succ, Nat.sub_0_r, (basepath_parent _ _ Ek).
      destruct (get_by_path_some t _ U1 E) as [r' ->]. simpl. eauto.
    + apply D; auto.
    + rewrite (C n Hn). apply range_children; auto.
      * apply (po_chars _ P).
      * intros r Hr. destruct (po_len _ P r Hr) as [k ->]. apply Nat.mod_mul. lia.
Qed.

(** On a consistent table nothing is reported, also when restricted to a branch. *)
Theorem find_problems_clean t F parent : stores t F -> find_problems cfg t parent = [].
Proof.
  intros St. assert (X : exists F, stores t F) by eauto.
  assert (H : find_problems cfg t None = []).
  { assert (Y := X). rewrite stores_iff in Y. destruct Y as (P & D & C & U).
    apply find_problems_exact_partial; auto; [apply P|].
    intros r Hr. split; [|apply (po_step _ P r Hr)]. intros E.
    destruct (po_len _ P r Hr) as [k Ek]. rewrite E in Ek. simpl in Ek. lia. }
  rewrite find_problems_nil in *. intros n Hn _. apply H; auto.
Qed.

(** ** fix_tree without fix_paths *)
Lemma fixed_paths t : map m_path (fix_numchild cfg None (fix_depth cfg None t)) = map m_path t.
Proof. unfold fix_numchild, fix_depth. rewrite !map_map. auto. Qed.
Lemma fixed_pks t : map m_pk (fix_numchild cfg None (fix_depth cfg None t)) = map m_pk t.
Proof. unfold fix_numchild, fix_depth. rewrite !map_map. auto. Qed.

Lemma count_paths t t' p : map m_path t = map m_path t' -> count_children cfg t p = count_children cfg t' p.
Proof.
  intros E. unfold count_children.
  assert (G : forall l, length (filter (fun r => ppre p (m_path r) && (length (m_path r) =? length p + w)) l)
     = length (filter (fun x => ppre p x && (length x =? length p + w)) (map m_path l))).
  { intros l. rewrite filter_map, map_length. auto. }
  rewrite !G, E. auto.
Qed.

Lemma paths_ok_ext t t' : map m_path t = map m_path t' -> paths_ok t -> paths_ok t'.
Proof.
  intros E P.
  assert (G : forall r', In r' t' -> exists r, In r t /\ m_path r = m_path r').
  { intros r' Hr'. apply (in_map m_path) in Hr'. rewrite <- E in Hr'. apply in_map_iff in Hr'.
    destruct Hr' as (r & Er & Hr). eauto. }
  assert (G' : forall r, In r t -> exists r', In r' t' /\ m_path r' = m_path r).
  { intros r' Hr'. apply (in_map m_path) in Hr'. rewrite E in Hr'. apply in_map_iff in Hr'.
    destruct Hr' as (r & Er & Hr). eauto. }
  constructor.
  - intros r' Hr'. destruct (G r' Hr') as (r & Hr & <-). apply (po_chars _ P); auto.
  - intros r' Hr'. destruct (G r' Hr') as (r & Hr & <-). apply (po_len _ P); auto.
  - rewrite <- E. apply P.
  - intros r' Hr'. destruct (G r' Hr') as (r & Hr & <-). apply (po_step _ P); auto.
  - intros r' Hr'. destruct (G r' Hr') as (r & Hr & <-).
    destruct (po_par _ P r Hr) as [H|(y & Hy & H)]; auto.
    right. destruct (G' y Hy) as (y' & Hy' & Ey). exists y'. split; auto. congruence.
Qed.

(** C10: whatever depth and numchild are, they are right afterwards; primary keys, paths
    and data of all rows are untouched. *)
Theorem fix_tree_ok db : paths_ok (db_rows db) -> NoDup (map m_pk (db_rows db)) ->
  exists db', fix_tree cfg db false None = Ok db' /\ db_sig db' = db_sig db /\
    map (fun r => (m_pk r, m_path r, m_data r)) (db_rows db')
      = map (fun r => (m_pk r, m_path r, m_data r)) (db_rows db) /\
    exists F, stores (db_rows db') F.
Proof.
  intros P U. eexists. split; [reflexivity|]. simpl. split; auto. split.
  { unfold fix_numchild, fix_depth. rewrite !map_map. auto. }
  apply stores_iff. set (t := db_rows db) in *.
  set (t' := fix_numchild cfg None (fix_depth cfg None t)).
  assert (E := fixed_paths t). fold t' in E.
  split; [apply (paths_ok_ext t); auto|]. split; [|split].
  - intros r Hr. unfold t', fix_numchild, fix_depth in Hr. rewrite map_map in Hr.
    apply in_map_iff in Hr. destruct Hr as (x & <- & Hx). auto.
  - intros r Hr. rewrite (count_paths t' (fix_depth cfg None t)).
    + unfold t', fix_numchild in Hr. apply in_map_iff in Hr. destruct Hr as (x & <- & Hx). auto.
    + rewrite E. unfold fix_depth. rewrite map_map. auto.
  - unfold t'. rewrite fixed_pks. auto.
Qed.

(** On a consistent table fix_tree changes nothing (also for one branch), so it is idempotent. *)
Theorem fix_tree_id db F parent : stores (db_rows db) F -> fix_tree cfg db false parent = Ok db.
Proof.
  intros St. assert (X : exists F, stores (db_rows db) F) by eauto. rewrite stores_iff in X.
  destruct X as (P & D & C & U). unfold fix_tree. destruct db as [t sig]. simpl in *. f_equal. f_equal.
  assert (E : fix_depth cfg parent t = t).
  { unfold fix_depth. rewrite <- (map_id t) at 2. apply map_ext_in. intros r Hr.
    destruct (below parent r); auto. rewrite <- (D r Hr). destruct r; auto. }
  rewrite E. unfold fix_numchild. rewrite <- (map_id t) at 2. apply map_ext_in. intros r Hr.
  destruct (below parent r); auto. rewrite <- (C r Hr). destruct r; auto.
Qed.

(** With a parent only the rows of that branch are touched, and they are right afterwards. *)
Theorem fix_tree_branch db p : paths_ok (db_rows db) ->
  exists db', fix_tree cfg db false (Some p) = Ok db' /\
    map (fun r => (m_pk r, m_path r, m_data r)) (db_rows db')
      = map (fun r => (m_pk r, m_path r, m_data r)) (db_rows db) /\
    (forall r, In r (db_rows db') -> ppre (m_path p) (m_path r) = true ->
       m_depth r = length (m_path r) / w /\ m_nc r = count_children cfg (db_rows db') (m_path r)) /\
    (forall r, ppre (m_path p) (m_path r) = false -> (In r (db_rows db') <-> In r (db_rows db))).
Proof.
  intros P. eexists. split; [reflexivity|]. simpl. set (t := db_rows db) in *.
  set (t1 := fix_depth cfg (Some p) t). set (t' := fix_numchild cfg (Some p) t1).
  assert (E1 : map m_path t1 = map m_path t).
  { unfold t1, fix_depth. rewrite map_map. apply map_ext. intros r. destruct (below (Some p) r); auto. }
  assert (E2 : map m_path t' = map m_path t1).
  { unfold t', fix_numchild. rewrite map_map. apply map_ext. intros r. destruct (below (Some p) r); auto. }
  split; [|split].
  - unfold t', t1, fix_numchild, fix_depth. rewrite !map_map. apply map_ext. intros r.
    destruct (below (Some p) r) eqn:E; simpl in E.
    + simpl. rewrite E. auto.
    + simpl. rewrite E. auto.
  - intros r Hr Hb. rewrite (count_paths t' t1) by auto. unfold t', fix_numchild in Hr.
    apply in_map_iff in Hr. destruct Hr as (x & Ex & Hx). unfold t1, fix_depth in Hx.
    apply in_map_iff in Hx. destruct Hx as (y & Ey & Hy).
    assert (m_path x = m_path r /\ m_path y = m_path x) as [X1 X2].
    { subst. destruct (below (Some p) y); simpl; match goal with |- context [if ?b then _ else _] => destruct b end; simpl; auto. }
    unfold below in *. rewrite X2, X1, Hb in Ey. rewrite X1, Hb in Ex. rewrite <- Ex, <- Ey. split; reflexivity.
  - intros r Hb. unfold t', t1, fix_numchild, fix_depth. rewrite map_map. rewrite in_map_iff. split.
    + intros (x & Ex & Hx). simpl in Ex. destruct (ppre (m_path p) (m_path x)) eqn:E; simpl in Ex.
      * rewrite E in Ex. subst r. simpl in Hb. congruence.
      * rewrite E in Ex. subst. auto.
    + intros Hr. exists r. simpl. rewrite Hb. simpl. rewrite Hb. auto.
Qed.
End Check.

(** ** A table determines the forest it stores *)
Section Unique.
Variable cfg : mp_cfg.
Hypothesis radix2 : 2 <= radix cfg.
Hypothesis step1 : 1 <= steplen cfg.
Notation w := (steplen cfg).

Lemma rows_split_filter s (a : payload) (k r : kf) : kpwf cfg (Cons (s, a) k r) ->
  filter (fun x => ppre s (fst x)) (map (pre s) (rows k) ++ rows r) = map (pre s) (rows k) /\
  filter (fun x => negb (ppre s (fst x))) (map (pre s) (rows k) ++ rows r) = rows r.
Proof.
  intros (H1 & H2 & H3 & H4). simpl in *.
  assert (A : forall x, In x (map (pre s) (rows k)) -> ppre s (fst x) = true).
  { intros x Hx. apply in_map_iff in Hx. destruct Hx as (y & <- & _). simpl. apply ppre_app. }
  assert (B : forall x, In x (rows r) -> ppre s (fst x) = false).
  { intros x Hx. destruct (ppre s (fst x)) eqn:E; auto. exfalso.
    apply ppre_iff in E. destruct E as [y E]. destruct (rows_top _ _ Hx) as (sa & Hsa & z & Ez).
    rewrite Ez in E. apply app_eq_len in E.
    - destruct E as [E _]. rewrite Forall_forall in H4. assert (X := H4 _ Hsa). rewrite E in X.
      rewrite llt_irr in X by apply irr. discriminate.
    - rewrite H1. apply (roots_len Nat.ltb w _ _ H3 Hsa). }
  rewrite !filter_app. split.
  - rewrite (filter_all _ _ A), (filter_none _ _ B), app_nil_r. auto.
  - rewrite filter_none, filter_all; auto.
    + intros x Hx. rewrite B; auto.
    + intros x Hx. rewrite A; auto.
Qed.

Lemma pre_inj (s : path) (l l' : list (path * payload)) : map (pre s) l = map (pre s) l' -> l = l'.
Proof.
  revert l'. induction l as [|[p a] l IH]; intros [|[p' a'] l']; simpl; try discriminate; auto.
  unfold pre at 1 3. simpl. intros E. injection E as E1 -> E2. apply app_inv_head in E1. subst. f_equal; auto.
Qed.

Lemma rows_determine (f f' : kf) : kpwf cfg f -> kpwf cfg f' -> rows f = rows f' -> f = f'.
Proof.
  revert f'. induction f as [|[s a] k IHk r IHr]; intros [|[s' a'] k' r'] W W' E; simpl in E; try discriminate; auto.
  injection E as <- <- E.
  destruct (rows_split_filter s a k r W) as [A B]. destruct (rows_split_filter s a k' r' W') as [A' B'].
  rewrite E in A, B. rewrite A' in A. rewrite B' in B. apply pre_inj in A.
  destruct W as (_ & W1 & W2 & _), W' as (_ & W1' & W2' & _).
  rewrite (IHk k'), (IHr r'); auto.
Qed.

Theorem stores_functional t F F' : stores cfg t F -> stores cfg t F' -> F = F'.
Proof.
  intros (f & (W & V & P) & _ & <- & _) (f' & (W' & V' & P') & _ & <- & _).
  f_equal. apply rows_determine; auto.
  assert (Pm : Permutation (map (mkrow cfg) (rows f)) (map (mkrow cfg) (rows f'))) by (rewrite <- P, <- P'; auto).
  apply (Permutation_map of_row) in Pm. rewrite !map_map in Pm.
  assert (I : forall x, of_row (mkrow cfg x) = x) by (intros [p [[i d] n]]; reflexivity).
  rewrite (map_ext _ (fun x => x) I), (map_ext _ (fun x => x) I), !map_id in Pm.
  eapply psorted_eq; [apply irr|eauto using ltb_tr'|apply ltb_tot'|apply (k_sorted cfg step1 f W)|apply (k_sorted cfg step1 f' W')|exact Pm].
Qed.
End Unique.
