(** fix_tree(fix_paths=True) on a tree whose steps are right changes nothing (C82). *)
From Coq Require Import List Arith ZArith Lia Bool Permutation Sorted.
From Verif Require Import Prelude Forest NumConv SpecFacts SpecSane SpecKids SpecPerm PathTab PathMove CommonModel Order MPModel MPStep
  MPInv MPCount MPShift MPReorder MPAdd MPReads MPFixModel MPCheck MPFixLevel MPFixPaths BulkDump.
Import ListNotations.
Local Open Scope nat_scope.

(** Every list of siblings is in the order of [o], and no two siblings are equal in it. *)
Definition strictly (o : ordering) (F : forest node) : Prop :=
  forall q L, kid_list q F = Some L -> StronglySorted (fun x y => ~ in_order o (ndata y) (ndata x)) L.

(** No two siblings are equal in the order of [o]. *)
Definition no_ties (o : ordering) (F : forest node) : Prop :=
  forall q L x y, kid_list q F = Some L -> In x L -> In y L ->
    in_order o (ndata x) (ndata y) -> in_order o (ndata y) (ndata x) -> x = y.

Lemma ss_map {A B} (R : B -> B -> Prop) (f : A -> B) l : StronglySorted R (map f l) -> StronglySorted (fun x y => R (f x) (f y)) l.
Proof.
  induction l as [|a l IH]; cbn; intros H; constructor; inversion H as [|? ? H1 H2]; subst; auto.
  rewrite Forall_forall in *. intros x Hx. apply H2, in_map, Hx.
Qed.

Lemma sorted_same {A} (le lt : A -> A -> Prop) : (forall x y, lt x y -> ~ le y x) -> forall l m,
  Permutation l m -> StronglySorted le l -> StronglySorted lt m -> l = m.
Proof.
  intros N l. induction l as [|a l IH]; intros m P Sl Sm.
  - apply Permutation_nil in P. auto.
  - destruct m as [|b m]; [apply Permutation_sym, Permutation_nil in P; discriminate|].
    inversion Sl as [|? ? Sl' Fl]; subst. inversion Sm as [|? ? Sm' Fm]; subst. rewrite Forall_forall in Fl, Fm.
    assert (E : a = b).
    { destruct (Permutation_in a P (or_introl eq_refl)) as [H|H]; auto.
      destruct (Permutation_in b (Permutation_sym P) (or_introl eq_refl)) as [H'|H']; auto.
      exfalso. apply (N b a); auto. }
    subst b. f_equal. apply IH; auto. eapply Permutation_cons_inv; eauto.
Qed.

Section Again.
Variable cfg : mp_cfg.
Hypothesis radix2 : 2 <= radix cfg.
Hypothesis step1 : 1 <= steplen cfg.
Notation R := (radix cfg).
Notation w := (steplen cfg).
Notation mkrow := (mkrow cfg).
Notation kpwf := (kpwf cfg).
Notation kvalid := (kvalid cfg).
Notation lay := (lay cfg).
Notation seg := (seg cfg).
Notation tops := (tops cfg).
Notation top := (nat * (payload * kf))%type.
Notation item q := (fun t : top => mkrow (q ++ seg (fst t), fst (snd t))).

Variable db : mp_db.
Variable f : kf.
Hypothesis HL : lay (db_rows db) f.
Hypothesis HW : wf_ids (kerase f).
(* The nodes whose children are numbered and in order; with a node its children. *)
Variable B : option nat -> Prop.
Hypothesis HB : forall q L n, B q -> kid_list q (kerase f) = Some L -> In n L -> B (Some (nid n)).
Hypothesis HC : forall q L i n, B q -> kid_list q (kerase f) = Some L -> nth_error L i = Some n ->
  exists r p, In r (db_rows db) /\ m_pk r = nid n /\ m_path r = p ++ seg (S i) /\
    match q with
    | None => p = []
    | Some j => exists r', In r' (db_rows db) /\ m_pk r' = j /\ m_path r' = p
    end.
Hypothesis HS : order_by cfg = [] \/ forall q L, B q -> kid_list q (kerase f) = Some L ->
  StronglySorted (fun x y => ~ in_order (order_by cfg) (ndata y) (ndata x)) L.
Notation up o := (option_map (fun a : payload => nid (fst a)) o).

Lemma pks_apart : NoDup (map m_pk (db_rows db)).
Proof. rewrite (lay_pks cfg _ _ HL). exact HW. Qed.

Lemma At_kids q o (l : kf) : At q (pd o) l l f f ->
  kid_list (up o) (kerase f) = Some (roots (kerase l)) /\
  match o with None => q = [] | Some a => In (mkrow (q, a)) (db_rows db) end.
Proof.
  intros HA. destruct o as [a|]; cbn [option_map pd] in *; unfold kid_list; cbn [kids_of].
  - rewrite (kid_allk f a l HW (At_allk _ _ _ _ _ _ HA)). split; auto. apply (lay_in_rev cfg _ f); auto. eapply k_At_in; eauto.
  - inversion HA; subst; auto.
Qed.

Lemma same_row r r' : In r (db_rows db) -> In r' (db_rows db) -> m_pk r = m_pk r' -> r = r'.
Proof. intros H H' E. eapply NoDup_map_inj; eauto. apply pks_apart. Qed.

Lemma level_numbered q o (l : kf) : B (up o) -> At q (pd o) l l f f -> map fst (tops l) = seq 1 (length (tops l)).
Proof.
  intros Ho HA. destruct (At_kids q o l HA) as [HK HP].
  assert (Vl : kvalid l) by (apply (kvalid_At_l cfg _ _ _ _ _ _ HA); apply HL).
  assert (E : forall i t, nth_error (tops l) i = Some t -> fst t = S i).
  { intros i t Et.
    assert (Er : nth_error (roots l) i = Some (seg (fst t), fst (snd t))) by (rewrite (tops_roots cfg radix2 step1 l Vl), nth_error_map, Et; auto).
    assert (En : nth_error (roots (kerase l)) i = Some (fst (fst (snd t)))) by (rewrite kerase_roots, nth_error_map, Er; auto).
    destruct (HC _ _ _ _ Ho HK En) as (r & p & Hr & Ek & Ep & Hp).
    assert (Ht : In (mkrow (q ++ seg (fst t), fst (snd t))) (db_rows db)).
    { apply (lay_in_rev cfg _ f); auto. eapply k_root_in; eauto. eapply nth_error_In; eauto. }
    assert (X : r = mkrow (q ++ seg (fst t), fst (snd t))) by (apply same_row; auto).
    assert (Eq : p = q).
    { destruct o as [a|]; cbn [option_map] in Hp; [|subst; auto]. destruct Hp as (r' & Hr' & Ek' & <-).
      rewrite (same_row r' (mkrow (q, a)) Hr' HP); auto. }
    rewrite X, Eq in Ep. change (q ++ seg (fst t) = q ++ seg (S i)) in Ep. apply app_inv_head in Ep.
    apply (f_equal (undigits R)) in Ep. rewrite !seg_val in Ep by auto. auto. }
  clear - E. apply nth_ext with (d := 0) (d' := 0); [rewrite map_length, seq_length; auto|].
  intros i Hi. rewrite map_length in Hi. rewrite seq_nth by auto.
  destruct (nth_error (tops l) i) as [t|] eqn:Et; [|apply nth_error_None in Et; lia].
  rewrite (nth_error_nth _ _ 0 (eq_trans (nth_error_map fst i (tops l)) (f_equal (option_map fst) Et))). apply E. auto.
Qed.

Lemma level_same q o (l : kf) n : B (up o) -> At q (pd o) l l f f -> length q = n * w ->
  sort_rows cfg (filter (fun r => ppre q (m_path r) && (m_depth r =? S n)) (db_rows db)) = map (item q) (tops l).
Proof.
  intros Ho HA Eq. destruct (level_items cfg radix2 step1 db f q o l n HL HA Eq) as (T & PT & Ar & Ts & ->).
  destruct (is_sorted cfg) eqn:Es; [|rewrite Ts by auto; auto].
  destruct HS as [H|H]; [unfold is_sorted in Es; rewrite H in Es; discriminate|].
  destruct (At_kids q o l HA) as [HK _]. specialize (H _ _ Ho HK).
  assert (Vl : kvalid l) by (apply (kvalid_At_l cfg _ _ _ _ _ _ HA); apply HL).
  rewrite kerase_roots, (tops_roots cfg radix2 step1 l Vl), map_map in H. apply ss_map in H. cbn [fst snd] in H.
  unfold arranged in Ar. rewrite Es in Ar. destruct Ar as [_ Ar]. apply ss_map in Ar.
  f_equal. eapply sorted_same; [|exact PT|exact Ar|exact H].
  intros x y N Q. apply N. apply in_order_col. exact Q.
Qed.

Lemma items_same q n T : forall i s queue, map fst T = seq (S i) (length T) -> (forall t, In t T -> okey cfg (fst t)) ->
  (forall t, In t T -> assoc (tpk t) (fx_paths s) = Some (q ++ seg (fst t))) ->
  fix_items cfg q (S n) i (map (item q) T) s queue = Ok (s, queue ++ ents cfg q n T).
Proof.
  induction T as [|t T IH]; intros i s queue E K P; cbn [map fix_items].
  - unfold ents. cbn. rewrite app_nil_r. auto.
  - cbn [map length seq] in E. injection E as E1 E2.
    assert (Pt := P t (or_introl eq_refl)). unfold fix_item.
    change (m_pk (mkrow (q ++ seg (fst t), fst (snd t)))) with (tpk t). rewrite Pt. cbn [opt_res bind].
    rewrite (last_q cfg radix2 step1) by (apply K; left; auto). cbn [bind]. rewrite E1, Nat.eqb_refl. cbn [bind]. rewrite Pt. cbn [opt_res bind].
    rewrite (IH (S i) s) by (auto; intros; (apply K || apply P); right; auto).
    unfold ents, full. cbn [filter]. change (m_nc (mkrow (q ++ seg (S i), fst (snd t)))) with (snd (fst (snd t))).
    destruct (snd (fst (snd t)) =? 0); cbn [negb map]; [auto|]. rewrite <- app_assoc. reflexivity.
Qed.

Lemma level_quiet q o (l : kf) n queue : B (up o) -> At q (pd o) l l f f -> length q = n * w ->
  fix_level cfg db q (S n) queue = Ok (db, queue ++ ents cfg q n (tops l)).
Proof.
  intros Ho HA Eq. unfold fix_level. rewrite (level_same q o l n Ho HA Eq).
  assert (Vl : kvalid l) by (apply (kvalid_At_l cfg _ _ _ _ _ _ HA); apply HL).
  assert (K : forall t, In t (tops l) -> okey cfg (fst t)) by (apply (tops_okey cfg l Vl)).
  rewrite (positions_ok cfg radix2 step1) by auto. cbn [bind].
  rewrite items_same; [reflexivity|apply (level_numbered q o l Ho HA)|exact K|].
  intros t Ht. cbn [fx_paths]. rewrite map_map.
  change (fun x : top => (m_pk (mkrow (q ++ seg (fst x), fst (snd x))), m_path (mkrow (q ++ seg (fst x), fst (snd x)))))
    with (fun x : top => (tpk x, q ++ seg (fst x))).
  apply (assoc_map tpk (fun x => q ++ seg (fst x)) (tops l) t); auto.
  assert (HI : forall t, In t (tops l) -> In (item q t) (db_rows db)).
  { intros t' Ht'. apply (lay_in_rev cfg _ f); auto. eapply k_root_in; eauto.
    rewrite (tops_roots cfg radix2 step1 l Vl). apply in_map_iff. exists t'. auto. }
  assert (NF : NoDup (map fst (tops l))) by (rewrite (level_numbered q o l Ho HA); apply seq_NoDup).
  clear - HI NF radix2 HL HW. induction (tops l) as [|a T IH]; cbn; constructor.
  - cbn in NF. inversion NF as [|? ? N1 N2]; subst. rewrite in_map_iff. intros (b & E & Hb). apply N1.
    assert (X : item q b = item q a).
    { eapply NoDup_map_inj; [exact pks_apart| | |]; try (apply HI; cbn; auto). exact E. }
    apply (f_equal m_path) in X. change (q ++ seg (fst b) = q ++ seg (fst a)) in X. apply app_inv_head in X.
    apply (f_equal (undigits R)) in X. rewrite !seg_val in X by auto. rewrite <- X. apply in_map. auto.
  - cbn in NF. inversion NF; subst. apply IH; auto. intros; apply HI; cbn; auto.
Qed.

Lemma loop_quiet fuel : forall Q,
  (forall p d, In (p, d) Q -> exists o l n, B (up o) /\ At p (pd o) l l f f /\ d = S n /\ length p = n * w) ->
  fix_loop cfg fuel db Q = Ok db \/ fix_loop cfg fuel db Q = Err OutOfFuel.
Proof.
  induction fuel as [|fuel IH]; intros [|[p d] Q] H; cbn [fix_loop]; auto.
  destruct (H p d (or_introl eq_refl)) as (o & l & n & Ho & HA & -> & Ep). rewrite (level_quiet p o l n Q Ho HA Ep). cbn [bind].
  apply IH. intros p' d' Hp. apply in_app_iff in Hp. destruct Hp as [Hp|Hp]; [apply H; right; auto|].
  unfold ents in Hp. apply in_map_iff in Hp. destruct Hp as (t & E & Ht). injection E as <- <-.
  apply filter_In in Ht. destruct Ht as [Ht _].
  assert (Vl : kvalid l) by (apply (kvalid_At_l cfg _ _ _ _ _ _ HA); apply HL).
  assert (Hr : In (p ++ seg (fst t), fst (snd t)) (rows f)).
  { eapply k_root_in; eauto. rewrite (tops_roots cfg radix2 step1 l Vl). apply in_map_iff. exists t. auto. }
  destruct (At_of_row f _ _ Hr) as [l' Hl']. exists (Some (fst (snd t))), l', (S n). split.
  { apply (HB _ _ (fst (fst (snd t))) Ho (proj1 (At_kids p o l HA))). rewrite kerase_roots, (tops_roots cfg radix2 step1 l Vl), map_map.
    apply in_map_iff. exists t. auto. }
  split; auto. split; [lia|].
  rewrite app_length, (seg_len cfg radix2 step1), Ep; [lia|]. apply (tops_okey cfg l Vl t Ht).
Qed.
End Again.

(** A tree with the steps 1, 2, 3, ... in the right order stays as it is. *)
Theorem fix_quiet cfg db F : 2 <= radix cfg -> 1 <= steplen cfg -> stores cfg (db_rows db) F ->
  consecutive cfg (db_rows db) F -> order_by cfg = [] \/ strictly (order_by cfg) F -> fix_tree cfg db true None = Ok db.
Proof.
  intros R S St C O. assert (I := fix_tree_id cfg R S db F None St). unfold fix_tree in *. injection I as I. rewrite I.
  assert (Et : fix_numchild cfg None (fix_depth cfg None (db_rows db)) = db_rows db) by (destruct db; injection I; auto).
  rewrite Et. assert (H := fix_paths_ok cfg R S db F St). destruct St as (f & L & N & E & W). subst F.
  destruct (loop_quiet cfg R S db f L W (fun _ => True)) with (fuel := Datatypes.S (length (db_rows db))) (Q := [([], 1)] : list (path * nat)) as [Q|Q]; auto.
  - intros q K i n _. apply C.
  - destruct O as [O|O]; auto. right. intros q K _. apply O.
  - intros p d [X|[]]. injection X as <- <-. exists None, f, 0. split; auto. split; [apply At_top|auto].
  - rewrite Q in H. destruct H as [H _]. discriminate.
Qed.

(** The same for the branch below a node. *)
Theorem fix_quiet_branch cfg db F p c : 2 <= radix cfg -> 1 <= steplen cfg -> stores cfg (db_rows db) F ->
  In p (db_rows db) -> kids_of (Some (m_pk p)) F = Some c ->
  (forall j, j = m_pk p \/ In j (ids c) -> kids_consecutive cfg (db_rows db) F j) ->
  order_by cfg = [] \/ strictly (order_by cfg) c -> fix_tree cfg db true (Some p) = Ok db.
Proof.
  intros R S St Hp Hc C O. assert (I := fix_tree_id cfg R S db F (Some p) St). unfold fix_tree in *. injection I as I. rewrite I.
  assert (Et : fix_numchild cfg (Some p) (fix_depth cfg (Some p) (db_rows db)) = db_rows db) by (destruct db; injection I; auto).
  rewrite Et. assert (H := fix_paths_branch cfg R S db F p St Hp). destruct St as (f & L & N & E & W). subst F.
  assert (K : forall j K, j = m_pk p \/ In j (ids c) -> kid_list (Some j) (kerase f) = Some K ->
    kid_list (if j =? m_pk p then None else Some j) c = Some K).
  { intros j K D Ej. unfold kid_list in *. destruct (Nat.eqb_spec j (m_pk p)) as [->|Nj]; [rewrite Hc in Ej; exact Ej|].
    destruct D as [D|D]; [contradiction|]. cbn [kids_of] in *. rewrite (children_below _ c j _ W Hc D) in Ej. exact Ej. }
  destruct (loop_quiet cfg R S db f L W (fun q => match q with None => False | Some j => j = m_pk p \/ In j (ids c) end))
    with (fuel := Datatypes.S (length (db_rows db))) (Q := [(m_path p, m_depth p + 1)] : list (path * nat)) as [Q|Q]; auto.
  - intros [j|] M n Hj Ej Hn; [|contradiction]. right. specialize (K j M Hj Ej).
    apply (kl_in (if j =? m_pk p then None else Some j)). rewrite (kl_kid_list _ _ _ K). auto.
  - intros [j|] M i n Hj Ej En; [|contradiction]. destruct (C j Hj M i n Ej En) as (r & r' & H1 & H2 & H3 & H4 & H5).
    exists r, (m_path r'). split; auto. split; auto. split; auto. exists r'. auto.
  - destruct O as [O|O]; auto. right. intros [j|] M Hj Ej; [|contradiction]. apply (O _ _ (K j M Hj Ej)).
  - intros q d [X|[]]. injection X as <- <-.
    destruct (lay_in cfg _ _ _ L Hp) as ([q a] & Hx & Ep). destruct (At_of_row f _ _ Hx) as [l Hl].
    destruct (k_At_len cfg S _ _ _ _ _ _ Hl (proj1 L)) as [n Hn].
    exists (Some a), l, n. subst p. cbn in *. split; auto. split; auto. rewrite Hn, Nat.div_mul by lia. split; [lia|auto].
  - rewrite Q in H. destruct H as [H _]. discriminate.
Qed.

Lemma kids_nodup F q L : wf_ids F -> kid_list q F = Some L -> NoDup L.
Proof.
  unfold kid_list. intros W E. destruct (kids_of q F) as [l|] eqn:K; [|discriminate]. injection E as <-.
  apply (NoDup_map_inv nid). apply wf_roots. eapply wf_kids; eauto.
Qed.

Lemma sorted_strictly o F G : wf_ids G -> no_ties o F -> same_kids F G ->
  (forall q L, kid_list q G = Some L -> StronglySorted (fun x y => in_order o (ndata x) (ndata y)) L) -> strictly o G.
Proof.
  intros W N Sm H q L E. assert (Hs := H q L E). assert (ND := kids_nodup G q L W E).
  specialize (Sm q). rewrite E in Sm. destruct (kid_list q F) as [M|] eqn:EF; [|contradiction].
  assert (K : forall x y, In x L -> In y L -> in_order o (ndata x) (ndata y) -> in_order o (ndata y) (ndata x) -> x = y).
  { intros x y Hx Hy. apply (N q M x y EF); eapply Permutation_in; try apply Permutation_sym; eauto. }
  clear - Hs ND K. induction Hs as [|a L _ IH Ha]; constructor.
  - inversion ND; subst. apply IH; auto. intros; apply K; cbn; auto.
  - rewrite Forall_forall in *. intros y Hy Q. inversion ND; subst. assert (a = y) by (apply K; cbn; auto). subst. auto.
Qed.
