(** Calls of all kinds on ltree paths: one after another, and in different trees (C73). *)
From Coq Require Import String List Arith Lia Bool ZArith Permutation.
From Verif Require Import Prelude Forest SpecFacts CommonModel Order History ConcModel ConcRun ConcAlone ConcLocal ConcCalls ConcTrees.
From Verif Require Import LTModel LTInv LTReads LTHist ConcLTModel ConcLTAll.
From Verif Require ConcLT ConcNSTrees ConcTreesPath SpecPerm.
Import ListNotations.
Local Open Scope nat_scope.

Notation lprog := (prog ltrow).
Notation rooted := ConcTreesPath.rooted.
Notation label0 := ConcTreesPath.label0.

(** ** One call after another *)
Section Serial.
Variable cfg : lt_cfg.
Notation keyed := (keyed ltrow l_pk).

Lemma keyed_reads A (f : lt_table -> res A) c : (forall a, keyed (c a)) -> keyed (reads f c).
Proof. intros H t. destruct (f t); cbn; auto. Qed.
Lemma keyed_raise A (r : res A) c : (forall a, keyed (c a)) -> keyed (or_raise r c).
Proof. intros H. destruct r; cbn; auto. Qed.
Lemma keyed_update cond g c : keyed c -> keyed (lt_update cfg cond g c).
Proof. intros H t. destruct (forallb _ t); cbn; auto. Qed.
Lemma keyed_right start c : keyed c -> keyed (lt_right cfg start c).
Proof. intros H. unfold lt_right. apply keyed_update, keyed_update. auto. Qed.
Lemma keyed_path n : forall prefix b a moved c, (forall np mv, keyed (c np mv)) -> keyed (lt_new_path cfg n prefix b a moved c).
Proof.
  induction n as [|n IH]; intros prefix b a moved c H; cbn [lt_new_path]; cbv zeta;
    (destruct (match falsy (label_of b), falsy (label_of a) with Some _, Some _ => _ | _, _ => _ end); [exact I|]); intros t;
    (destruct (generate_path prefix _ _ _) as [p|e]; [auto|]); destruct e; try exact I;
    (destruct b as [start|]; [|exact I]); cbn [else_raise]; apply keyed_right, keyed_reads; intros start'; [exact I|auto].
Qed.
Lemma keyed_insert x np : keyed (lt_insert cfg x np).
Proof. unfold lt_insert. destruct (fits_ltree cfg np); cbn; auto. Qed.
Lemma keyed_sibling target p x : keyed (lt_sibling cfg target p x).
Proof.
  unfold lt_sibling. apply keyed_raise. intros P. apply keyed_reads. intros [b a]. apply keyed_path. intros np _. apply keyed_insert.
Qed.
Lemma keyed_rewrite nd np : keyed (lt_rewrite cfg nd np).
Proof.
  unfold lt_rewrite. apply keyed_update. unfold lt_save. destruct (fits_ltree cfg _); [|exact I]. intros t. destruct (existsb _ t); cbn; auto.
  split; auto. intros r E. apply Nat.eqb_eq in E. auto.
Qed.
Lemma all_keyed c : keyed (lt_tx cfg c).
Proof.
  destruct c as [x|k x|k p x|n q p|l]; cbn [lt_tx].
  - unfold lt_add_root_by. apply keyed_reads. intros [lr|].
    + destruct (is_sorted cfg); [apply keyed_sibling|]. apply keyed_reads. intros np. apply keyed_insert.
    + apply keyed_raise. intros np. apply keyed_insert.
  - unfold lt_add_child_by. apply keyed_reads. intros nd [r|]; [|exact I]. cbn [else_raise]. apply keyed_reads. intros leaf.
    destruct (is_sorted cfg && negb leaf).
    + apply keyed_reads. intros last. apply keyed_sibling.
    + apply keyed_reads. intros [|].
      * apply keyed_raise. intros np. apply keyed_insert.
      * apply keyed_reads. intros last. apply keyed_reads. intros np. apply keyed_insert.
  - unfold lt_add_sibling. apply keyed_reads. intros r. apply keyed_sibling.
  - unfold lt_move. apply keyed_reads. intros nd. apply keyed_reads. intros target. apply keyed_raise. intros P.
    destruct (match P with FirstChild | LastChild | SortedChild => true | _ => false end && _); [exact I|]. destruct (is_descendant_of target nd); [exact I|].
    apply keyed_reads. intros [b a]. apply keyed_path. intros np [|].
    + apply keyed_reads. intros nd'. apply keyed_rewrite.
    + apply keyed_rewrite.
  - unfold lt_delete. intros t. destruct (paths_to_remove _ []); cbn; auto.
Qed.

Hypothesis label2 : 2 <= label_max cfg.

Theorem lt_all_serial t F calls order : stores_unordered cfg t F ->
  NoDup (flat_map new_ids calls) -> (forall i, In i (flat_map new_ids calls) -> ~ In i (ids F)) ->
  NoDup order -> (forall i, In i order -> i < length calls) ->
  exists schedule, let W := play l_pk lt_same (all_begin t (map (lt_tx cfg) calls)) schedule in
    (w_rows W, w_log W) = one_by_one (lt_exec_rows cfg) calls t order /\
    (forall i, i < length calls -> nth_error (w_txs W) i = Some None <-> In i order) /\
    stores_unordered cfg (w_rows W) (fold_left (sp_call (lt_order cfg)) (succeeded calls (w_log W)) F).
Proof.
  intros St N Fr No Hl.
  assert (Rd : forall i c, In i order -> nth_error calls i = Some c -> all_ready t c).
  { intros i c Hi Hc k Hk H. apply nth_error_In in Hc. apply (Fr k); [apply in_flat_map; eauto|]. apply (ids_iff cfg t F k St). auto. }
  assert (Eo : one_by_one (ConcAlone.alone ltrow l_pk lt_same) (map (lt_tx cfg) calls) t order = one_by_one (lt_exec_rows cfg) calls t order).
  { apply (one_by_one_same ltrow call l_pk lt_same (lt_exec_rows cfg) (lt_tx cfg) (fun t => exists F, stores_unordered cfg t F) all_ready new_apart); auto.
    - intros t1 c [F1 S1] R. apply (all_same_call cfg label2 t1 F1); auto.
    - intros t1 c t2 [F1 S1] R E. eexists. eapply exec_result; eauto.
    - intros t1 c d t2 [F1 S1] Rc Rd' A E. apply (exec_stays_ready cfg label2 t1 F1 c d t2); auto.
    - apply calls_apart. auto.
    - eauto. }
  assert (X : stores_unordered cfg (fst (one_by_one (lt_exec_rows cfg) calls t order))
    (fold_left (sp_call (lt_order cfg)) (succeeded calls (snd (one_by_one (lt_exec_rows cfg) calls t order))) F)).
  { apply (one_by_one_rel ltrow calls N (lt_exec_rows cfg) (lt_order cfg) (stores_unordered cfg) all_ready); auto.
    - intros t1 F1 c t2. apply exec_result. auto.
    - intros t1 c d t2 [F1 S1]. apply (exec_stays_ready cfg label2 t1 F1); auto. }
  assert (Nt : NoDup (map l_pk t)) by (destruct St as (_ & G & St & _); apply (ConcLT.stores_ok cfg t G St)).
  rewrite <- Eo in *. destruct (serial_begin ltrow l_pk lt_same lt_same_pk t (map (lt_tx cfg) calls) order) as (s & Hs); auto.
  - apply Forall_forall. intros p Hp. apply in_map_iff in Hp. destruct Hp as (c & <- & _). apply all_keyed.
  - rewrite map_length. auto.
  - exists s. rewrite map_length in Hs. cbv zeta in *. destruct Hs as [H1 H2]. split; [exact H1|]. split; [exact H2|]. rewrite <- H1 in X. exact X.
Qed.
End Serial.

(** ** What the calls read and write *)
Section Domain.
Variable cfg : lt_cfg.
Variable D : ltrow -> bool.
Variable K : nat -> bool.
Hypothesis Dtr : forall r r', D r = true -> label0 r' = label0 r -> D r' = true.
Notation local := (local ltrow l_pk lt_same rooted D K).
Notation local_at := (local_at ltrow l_pk lt_same rooted D K).
Notation home := (home ltrow l_pk rooted D K).
Notation mine := (mine ltrow l_pk D K).

(** A path in the domain. *)
Definition inside (p : lpath) : Prop := p <> [] /\ forall r, firstn 1 (l_path r) = firstn 1 p -> D r = true.

Lemma row_inside r : D r = true -> rooted r -> inside (l_path r).
Proof. intros Dr T. split; auto. intros r' E. apply (Dtr r); auto. Qed.
Lemma inside_app p z : inside p -> inside (p ++ z).
Proof. intros [A B]. destruct p as [|a p]; [congruence|]. split; [discriminate|]. intros r E. apply B. rewrite E. reflexivity. Qed.
Lemma inside_is p r : inside p -> l_path r = p -> D r = true.
Proof. intros [_ B] <-. apply B. auto. Qed.
Lemma inside_pre p r : inside p -> ppre p (l_path r) = true -> D r = true.
Proof. intros I H. apply ppre_iff in H. destruct H as [z E]. apply (inside_is (p ++ z)); auto. apply inside_app. auto. Qed.
Lemma inside_first p q : inside p -> q <> [] -> firstn 1 q = firstn 1 p -> inside q.
Proof. intros [A B] N E. split; auto. intros r H. apply B. congruence. Qed.

(** A node below a root, in the domain. *)
Definition spot (r : ltrow) : Prop := D r = true /\ 2 <= length (l_path r).

Lemma spot_rooted r : spot r -> rooted r.
Proof. intros [_ L] E. rewrite E in L. cbn in L. lia. Qed.
Lemma spot_parent r : spot r -> inside (parent_path (l_path r)).
Proof.
  intros S. assert (R := spot_rooted r S). destruct S as [Dr L]. apply (inside_first (l_path r)); [apply row_inside; auto| |];
    unfold parent_path; destruct (l_path r) as [|a [|b p]]; cbn in L; try lia; [discriminate|reflexivity].
Qed.
Lemma append_first d q : 2 <= d -> 2 <= length q -> firstn 1 (append_A d q) = firstn 1 q.
Proof.
  intros Hd Lq. unfold append_A. destruct d as [|[|d]]; try lia. destruct q as [|a q]; [cbn in Lq; lia|]. reflexivity.
Qed.
Lemma append_len d q : 1 <= d -> d <= length q -> length (append_A d q) = length q.
Proof.
  intros Hd Lq. unfold append_A. rewrite !app_length, firstn_length, skipn_length. cbn [length]. lia.
Qed.

(** What is read depends on rows of the domain only. *)
Definition here {A} (f : lt_table -> A) (t : lt_table) : Prop := forall t', home t' -> filter D t' = filter D t -> f t' = f t.

Lemma here_filter (s : ltrow -> bool) t : home t -> (forall r, s r = true -> D r = true) -> here (filter s) t.
Proof.
  intros Ht M t' H' E. assert (M' : forall r, rooted r -> s r = true -> mine r) by (intros r _ Er; left; auto).
  rewrite (sel_dom ltrow l_pk rooted D K s t' H' M'), (sel_dom ltrow l_pk rooted D K s t Ht M'), E. auto.
Qed.
Lemma reads_at A (f : lt_table -> res A) c t : here f t -> (forall a, f t = Ok a -> local_at (filter D t) (c a)) -> local_at (filter D t) (reads f c).
Proof.
  intros S L t1 H1 E1. rewrite (S t1 H1 E1). split.
  - destruct (f t); cbn [or_raise ConcLocal.local_at]; auto.
  - intros t2 H2 E2. rewrite (S t2 H2 E2). auto.
Qed.
Lemma here_pk k t : home t -> K k = true -> here (fun t => get_by_pk t k) t.
Proof.
  intros Ht Kk t' H' E. unfold get_by_pk. rewrite (key_dom ltrow l_pk rooted D K k t' H' Kk), (key_dom ltrow l_pk rooted D K k t Ht Kk), E. auto.
Qed.
Lemma pk_row k t r : home t -> K k = true -> get_by_pk t k = Ok r -> In r t /\ D r = true /\ l_pk r = k /\ rooted r.
Proof.
  intros Ht Kk E. unfold get_by_pk in E. destruct (filter _ t) as [|a l] eqn:El; [discriminate|]. injection E as ->.
  apply (key_row ltrow l_pk rooted D K k t r Ht Kk). rewrite El. auto.
Qed.
Lemma at_local p t : home t -> local p -> local_at (filter D t) p.
Proof. intros Ht L. apply local_local_at; auto. exact lt_same_pk. Qed.

(** *** Statements that write *)

(** UPDATE of rows of the domain: the transaction goes on with the rows that it leaves. *)
Lemma forallb_dom (f : ltrow -> bool) t : home t -> (forall r, f r = false -> D r = true) -> forallb f t = forallb f (filter D t).
Proof.
  intros H M. clear H. induction t as [|a t IH]; cbn; auto. destruct (f a) eqn:E.
  - destruct (D a); cbn; rewrite ?E; auto.
  - rewrite (M a E). cbn. rewrite E. auto.
Qed.
Lemma update_at cond g c t : home t -> (forall r, cond r = true -> D r = true /\ (rooted r -> inside (g (l_path r)))) ->
  (let t1 := map (fun r => if cond r then mkLT (l_pk r) (g (l_path r)) (l_data r) else r) t in home t1 -> local_at (filter D t1) c) ->
  local_at (filter D t) (lt_update cfg cond g c).
Proof.
  intros Ht U L. cbv zeta in L.
  assert (U' : forall r, cond r = true -> l_pk (mkLT (l_pk r) (g (l_path r)) (l_data r)) = l_pk r /\
    (rooted r -> mine r /\ rooted (mkLT (l_pk r) (g (l_path r)) (l_data r)) /\ (D r = true -> D (mkLT (l_pk r) (g (l_path r)) (l_data r)) = true))).
  { intros r Er. destruct (U r Er) as [Dr Ir]. split; auto. intros Rr. specialize (Ir Rr). split; [left; auto|]. split; [apply Ir|]. intros _. apply (inside_is (g (l_path r))); auto. }
  assert (Fd : forall u, home u -> forallb (fun r => negb (cond r) || fits_ltree cfg (g (l_path r))) u = forallb (fun r => negb (cond r) || fits_ltree cfg (g (l_path r))) (filter D u)).
  { intros u Hu. apply forallb_dom; auto. intros r E. apply orb_false_iff in E. destruct E as [E _]. apply negb_false_iff in E. apply U. auto. }
  intros t1 H1 E1. rewrite (Fd t1 H1), E1. split.
  - destruct (forallb _ (filter D t)); [|exact I]. split; auto.
    destruct (map_home ltrow l_pk rooted D K cond (fun r => mkLT (l_pk r) (g (l_path r)) (l_data r)) t Ht U') as [A B]. rewrite <- B. apply L. exact A.
  - intros t2 H2 E2. rewrite (Fd t2 H2), E2. auto.
Qed.

(** Rows keep their keys and the lengths of their paths. *)
Definition same_shape (t1 t : lt_table) : Prop := forall r1, In r1 t1 -> exists r, In r t /\ l_pk r1 = l_pk r /\ length (l_path r1) = length (l_path r).
Lemma shape_refl t : same_shape t t.
Proof. intros r H. eauto. Qed.
Lemma shape_trans t2 t1 t : same_shape t2 t1 -> same_shape t1 t -> same_shape t2 t.
Proof. intros A B r Hr. destruct (A r Hr) as (r1 & H1 & E1 & L1). destruct (B r1 H1) as (r0 & H0 & E0 & L0). exists r0. repeat split; auto; congruence. Qed.
Lemma shape_map cond g t : (forall r, cond r = true -> length (g (l_path r)) = length (l_path r)) ->
  same_shape (map (fun r => if cond r then mkLT (l_pk r) (g (l_path r)) (l_data r) else r) t) t.
Proof.
  intros G r1 H. apply in_map_iff in H. destruct H as (r & <- & Hr). exists r. split; auto. destruct (cond r) eqn:E; cbn; auto.
Qed.

Lemma right_at start c t : home t -> spot start -> (forall t1, home t1 -> same_shape t1 t -> local_at (filter D t1) c) -> local_at (filter D t) (lt_right cfg start c).
Proof.
  intros Ht S L. assert (Ip := spot_parent start S). destruct S as [Ds Ls]. unfold lt_right. cbv zeta.
  assert (U : forall r, ppre (parent_path (l_path start)) (l_path r) && negb (plt (l_path r) (l_path start)) = true -> length (l_path start) <= length (l_path r) ->
    D r = true /\ (rooted r -> inside (append_A (length (l_path start)) (l_path r))) /\ length (append_A (length (l_path start)) (l_path r)) = length (l_path r)).
  { intros r Er Lr. apply andb_true_iff in Er. destruct Er as [Er _]. assert (Dr := inside_pre _ r Ip Er). split; auto.
    assert (La := append_len (length (l_path start)) (l_path r) ltac:(lia) Lr). split; auto. intros Rr.
    apply (inside_first (l_path r)); [apply row_inside; auto| |apply append_first; lia]. intros E. rewrite E in La. cbn in La. lia. }
  apply update_at; auto.
  { intros r Er. apply andb_true_iff in Er. destruct Er as [Er Lr]. apply Nat.eqb_eq in Lr. destruct (U r Er ltac:(lia)) as (X & Y & _). auto. }
  intros t1 H1. apply update_at; auto.
  { intros r Er. apply andb_true_iff in Er. destruct Er as [Er Lr]. apply Nat.ltb_lt in Lr. destruct (U r Er ltac:(lia)) as (X & Y & _). auto. }
  intros t2 H2. apply L; auto. apply (shape_trans t2 t1); apply shape_map; intros r Er; apply andb_true_iff in Er; destruct Er as [Er Lr].
  - apply Nat.ltb_lt in Lr. apply U; auto. lia.
  - apply Nat.eqb_eq in Lr. apply U; auto. lia.
Qed.

Lemma insert_local x np : K (nid x) = true -> inside np -> local (lt_insert cfg x np).
Proof.
  intros Kx In. unfold lt_insert. destruct (fits_ltree cfg np); [|exact I]. split; [apply (inside_is np); auto|]. split; auto. split; [apply In|]. split; [|exact I].
  intros r' _ Sm. unfold lt_same in Sm. cbn in Sm. apply orb_true_iff in Sm. destruct Sm as [Sm|Sm].
  - apply Nat.eqb_eq in Sm. right. rewrite <- Sm. auto.
  - apply peq_iff in Sm. left. apply (inside_is np); auto.
Qed.
Lemma save_local row c : D row = true -> K (l_pk row) = true -> rooted row -> local c -> local (lt_save cfg row c).
Proof.
  intros Dr Kr Rr L. unfold lt_save. destruct (fits_ltree cfg _); [|exact I].
  assert (M : forall r, rooted r -> (l_pk r =? l_pk row) = true -> mine r) by (intros r _ E; apply Nat.eqb_eq in E; right; congruence).
  intros t H. split.
  - destruct (existsb _ t).
    + split; auto. intros r E. split; [apply Nat.eqb_eq in E; auto|]. intros T. split; [apply M; auto|]. auto.
    + split; auto. split; auto. split; auto. split; auto. intros r' _ Sm. unfold lt_same in Sm. apply orb_true_iff in Sm. destruct Sm as [Sm|Sm].
      * apply Nat.eqb_eq in Sm. right. rewrite <- Sm. auto.
      * apply peq_iff in Sm. left. apply (inside_is (l_path row)); auto. apply row_inside; auto.
  - intros t' H' E. rewrite (exists_dom ltrow l_pk rooted D K _ t' H' M), (exists_dom ltrow l_pk rooted D K _ t H M), E. auto.
Qed.
Lemma rewrite_at nd np t : home t -> D nd = true -> rooted nd -> K (l_pk nd) = true -> inside np -> local_at (filter D t) (lt_rewrite cfg nd np).
Proof.
  intros Ht Dn Rn Kn In. unfold lt_rewrite. cbv zeta. apply update_at; auto.
  - intros r Er. apply andb_true_iff in Er. split; [apply (inside_pre (l_path nd)); [apply row_inside; auto|tauto]|]. intros _. apply inside_app. auto.
  - intros t1 H1. apply at_local; auto. apply save_local; auto; [apply (inside_is np); auto|apply In|exact I].
Qed.

(** *** The place of a new node *)

(** A neighbour is None, or a node below a root. *)
Definition spot_opt (b : option ltrow) (t : lt_table) : Prop :=
  match b with None => True | Some s => spot s /\ K (l_pk s) = true /\ forall r, In r t -> l_pk r = l_pk s -> 2 <= length (l_path r) end.

Lemma path_at n : forall prefix b a moved c t, home t -> inside prefix -> spot_opt b t ->
  (forall np mv t1, home t1 -> inside np -> local_at (filter D t1) (c np mv)) -> local_at (filter D t) (lt_new_path cfg n prefix b a moved c).
Proof.
  assert (G : forall prefix b a l np, inside prefix -> generate_path prefix b a l = Ok np -> inside np).
  { intros prefix b a l np Ip E. unfold generate_path in E. destruct (generate_label _ b a); [|discriminate]. injection E as <-. apply inside_app. auto. }
  induction n as [|n IH]; intros prefix b a moved c t Ht Ip Sb L; cbn [lt_new_path]; cbv zeta;
    (destruct (match falsy (label_of b), falsy (label_of a) with Some _, Some _ => _ | _, _ => _ end); [exact I|]);
    intros t1 H1 E1;
    assert (F1 : forall u, home u -> filter D u = filter D t1 -> filter (fun r => ppre prefix (l_path r) && (length (l_path r) =? length prefix + 1)) u =
      filter (fun r => ppre prefix (l_path r) && (length (l_path r) =? length prefix + 1)) t1) by
      (intros u Hu Eu; apply here_filter; auto; intros r Er; apply andb_true_iff in Er; apply (inside_pre prefix); tauto);
    (split; [|intros t2 H2 E2; rewrite (F1 t2 H2) by congruence; auto]);
    (destruct (generate_path prefix _ _ _) as [np|e] eqn:Eg; [apply L; eauto|]); destruct e; try exact I;
    (destruct b as [start|]; [|exact I]); cbn [else_raise]; destruct Sb as (Ss & Ks & Ls); apply right_at; auto; intros t3 H3 S3.
  - apply reads_at; [apply here_pk; auto|]. intros start' _. exact I.
  - apply reads_at; [apply here_pk; auto|]. intros start' Es. destruct (pk_row _ _ _ H3 Ks Es) as (Hs & Ds & Es' & Rs).
    assert (L3 : forall r, In r t3 -> l_pk r = l_pk start -> 2 <= length (l_path r)).
    { intros r Hr Er. destruct (S3 r Hr) as (r0 & H0 & E0 & L0). rewrite L0. apply Ls; auto. congruence. }
    apply IH; auto. split; [split; auto|]. rewrite Es'. auto.
Qed.

Section At.
Variable t : lt_table.
Hypothesis Ht : home t.

Lemma row_key r : In r t -> D r = true -> K (l_pk r) = true.
Proof. intros Hr Dr. rewrite <- (h_dom _ _ _ _ _ _ Ht r Hr). auto. Qed.
Lemma row_spot r : In r t -> spot r -> spot_opt (Some r) t.
Proof.
  intros Hr S. split; auto. split; [apply row_key; auto; apply S|]. intros r' Hr' E.
  assert (r' = r) as -> by (apply (ConcNS.key_unique ltrow l_pk t); auto; apply (h_keys _ _ _ _ _ _ Ht)). apply S.
Qed.

Lemma here_siblings tg : spot tg -> here (fun t => get_siblings t tg) t.
Proof.
  intros S t' H' E. unfold get_siblings. f_equal. apply here_filter; auto. intros r Er. apply andb_true_iff in Er.
  apply (inside_pre (parent_path (l_path tg))); [apply spot_parent; auto|tauto].
Qed.
Lemma siblings_row tg r : spot tg -> In r (get_siblings t tg) -> In r t /\ spot r.
Proof.
  intros S Hr. apply (Permutation_in _ (isort_perm _ _)) in Hr. apply filter_In in Hr. destruct Hr as [Hr Er]. apply andb_true_iff in Er. destruct Er as [E1 E2].
  apply Nat.eqb_eq in E2. split; auto. split; [apply (inside_pre (parent_path (l_path tg))); auto; apply spot_parent; auto|]. rewrite E2. apply S.
Qed.
Lemma here_children nd : D nd = true -> rooted nd -> here (fun t => get_children t nd) t.
Proof.
  intros Dn Rn t' H' E. apply (ConcTreesPath.lt_children_same D K Dtr t t' nd); auto.
Qed.
Lemma children_row nd r : D nd = true -> rooted nd -> In r (get_children t nd) -> In r t /\ spot r.
Proof.
  intros Dn Rn Hr. apply (Permutation_in _ (isort_perm _ _)) in Hr. apply filter_In in Hr. destruct Hr as [Hr Er]. apply andb_true_iff in Er. destruct Er as [E1 E2].
  apply Nat.eqb_eq in E2. split; auto. split; [apply (inside_pre (l_path nd)); auto; apply row_inside; auto|]. rewrite E2.
  destruct (l_path nd) eqn:E; [contradiction|cbn; lia].
Qed.
Lemma hd_in A (l : list A) x : hd_error l = Some x -> In x l.
Proof. destruct l; [discriminate|]. intros E. injection E as ->. left. auto. Qed.
Lemma first_in o l d r : hd_error (filter (fun r => sorted_after o d (l_data r)) l) = Some r -> In r l.
Proof. intros E. apply hd_in in E. apply filter_In in E. tauto. Qed.

Definition child_pos (P : pos) : bool := match P with FirstChild | LastChild | SortedChild => true | _ => false end.

Lemma neighbours_at target P d : In target t -> D target = true -> rooted target -> (child_pos P = false -> spot target) ->
  here (fun t => neighbours cfg t target P d) t /\ spot_opt (fst (neighbours cfg t target P d)) t.
Proof.
  intros Hq Dq Rq Sq.
  assert (Cb : forall r, In r (get_children t target) -> In r t /\ spot r) by (intros r; apply children_row; auto).
  split.
  - intros t' H' E. assert (Hc := here_children target Dq Rq t' H' E). cbn in Hc. unfold neighbours, get_first_child, get_last_child. rewrite Hc.
    destruct (child_pos P) eqn:Ec.
    + destruct P; try discriminate Ec; auto. unfold sorted_first. destruct (hd_error _) as [b|] eqn:Eb; auto. f_equal.
      apply first_in in Eb. destruct (Cb b Eb) as [_ Sb]. unfold get_prev_sibling. rewrite (here_siblings b Sb t' H' E). auto.
    + assert (S := Sq eq_refl). assert (Hs := here_siblings target S t' H' E). cbn in Hs.
      unfold get_first_sibling, get_last_sibling, get_prev_sibling, get_next_sibling. rewrite Hs. destruct P; try discriminate Ec; auto.
      destruct (sorted_first cfg (get_siblings t target) d) as [b|] eqn:Eb; auto. unfold sorted_first in Eb. apply first_in in Eb. destruct (siblings_row target b S Eb) as [_ Sb].
      do 3 f_equal. exact (here_siblings b Sb t' H' E).
  - unfold neighbours. destruct (child_pos P) eqn:Ec.
    + destruct P; try discriminate Ec; cbn [fst].
      * unfold get_first_child. destruct (hd_error _) as [b|] eqn:Eb; [|exact I]. apply hd_in in Eb. apply row_spot; apply Cb; auto.
      * exact I.
      * unfold sorted_first. destruct (hd_error _) as [b|] eqn:Eb; [|exact I]. apply first_in in Eb. apply row_spot; apply Cb; auto.
    + assert (S := Sq eq_refl). destruct P; try discriminate Ec; cbn [fst].
      * unfold get_first_sibling. destruct (hd_error _) as [b|] eqn:Eb; [|exact I]. apply hd_in in Eb. apply row_spot; eapply siblings_row; eauto.
      * apply row_spot; auto.
      * unfold get_next_sibling. destruct (hd_error _) as [b|] eqn:Eb; [|exact I]. apply hd_in in Eb. apply filter_In in Eb. destruct Eb as [Eb _]. apply row_spot; eapply siblings_row; eauto.
      * exact I.
      * unfold sorted_first. destruct (hd_error _) as [b|] eqn:Eb; [|exact I]. apply first_in in Eb. apply row_spot; eapply siblings_row; eauto.
Qed.

(** *** The calls *)

Lemma sibling_at target p x : In target t -> spot target -> K (nid x) = true -> local_at (filter D t) (lt_sibling cfg target p x).
Proof.
  intros Hq S Kx. unfold lt_sibling. destruct (prepare_pos_add (is_sorted cfg) p) as [P|e] eqn:EP; [|exact I]. cbn [or_raise].
  destruct (neighbours_at target P (ndata x) Hq (proj1 S) (spot_rooted _ S) (fun _ => S)) as [N1 N2].
  apply reads_at; [intros t' H' E; f_equal; apply N1; auto|]. intros [b a] E. injection E as E. rewrite E in N2.
  apply path_at; auto; [apply spot_parent; auto|]. intros np _ t1 H1 Inp. apply at_local; auto. apply insert_local; auto.
Qed.

Lemma child_at k x : K k = true -> K (nid x) = true -> local_at (filter D t) (lt_add_child_by cfg k x).
Proof.
  intros Kk Kx. unfold lt_add_child_by. apply reads_at; [apply here_pk; auto|]. intros nd En. destruct (pk_row k t nd Ht Kk En) as (Hn & Dn & Pn & Rn).
  split; auto. destruct (hd_error _) as [r|]; [|exact I]. cbn [else_raise].
  assert (Hc := here_children nd Dn Rn). assert (In := row_inside nd Dn Rn).
  assert (G : forall b a l np, generate_path (l_path nd) b a l = Ok np -> local_at (filter D t) (lt_insert cfg x np)).
  { intros b a l np E. unfold generate_path in E. destruct (generate_label _ b a); [|discriminate]. injection E as <-. apply at_local; auto. apply insert_local; auto. apply inside_app. auto. }
  assert (Lf : here (fun t => Ok (is_leaf t nd)) t) by (intros t' H' E; unfold is_leaf; rewrite (Hc t' H' E); auto).
  assert (Lc : here (fun t => opt_res (get_last_child t nd) AttributeError) t) by (intros t' H' E; unfold get_last_child; rewrite (Hc t' H' E); auto).
  apply reads_at; auto. intros leaf _. destruct (is_sorted cfg && negb leaf).
  - apply reads_at; auto. intros last El. unfold get_last_child in El. destruct (last_opt _) as [r'|] eqn:Er; [|discriminate]. injection El as ->.
    apply ConcTreesPath.last_opt_In in Er. destruct (children_row nd last Dn Rn Er). apply sibling_at; auto.
  - apply reads_at; auto. intros [|] _.
    + destruct (generate_path (l_path nd) None None []) as [np|] eqn:Eg; [|exact I]. cbn [or_raise]. eapply G; eauto.
    + apply reads_at; auto. intros last _. apply reads_at; [intros t' H' E; rewrite (Hc t' H' E); auto|]. intros np Eg. eapply G; eauto.
Qed.

Lemma add_sibling_at k p x : K k = true -> K (nid x) = true -> (forall r, In r t -> l_pk r = k -> 2 <= length (l_path r)) ->
  local_at (filter D t) (lt_add_sibling cfg k p x).
Proof.
  intros Kk Kx N. apply reads_at; [apply here_pk; auto|]. intros r Er. destruct (pk_row k t r Ht Kk Er) as (Hr & Dr & Ek & Rr).
  apply sibling_at; auto. split; auto.
Qed.

Lemma move_at n q p : K n = true -> K q = true -> In p ConcNSTrees.child_positions \/ (forall r, In r t -> l_pk r = q -> 2 <= length (l_path r)) ->
  local_at (filter D t) (lt_move cfg n q p).
Proof.
  intros Kn Kq B. unfold lt_move. apply reads_at; [apply here_pk; auto|]. intros nd En. destruct (pk_row n t nd Ht Kn En) as (Hn & Dn & Pn & Rn).
  apply reads_at; [apply here_pk; auto|]. intros target Eq. destruct (pk_row q t target Ht Kq Eq) as (Hq & Dq & Pq & Rq).
  destruct (prepare_pos_move (is_sorted cfg) p) as [P|e] eqn:EP; [|exact I]. cbn [or_raise].
  change (match P with FirstChild | LastChild | SortedChild => true | _ => false end) with (child_pos P).
  destruct (child_pos P && _); [exact I|]. destruct (is_descendant_of target nd); [exact I|].
  assert (Sq : child_pos P = false -> spot target).
  { intros C. destruct B as [B|B]; [|split; auto]. exfalso. assert (X := ConcNSTrees.child_positions_pos _ _ _ B EP). destruct P; discriminate. }
  destruct (neighbours_at target P (l_data nd) Hq Dq Rq Sq) as [N1 N2].
  apply reads_at; [intros t' H' E; f_equal; apply N1; auto|]. intros [b a] E. injection E as E. rewrite E in N2.
  apply path_at; auto.
  - destruct (child_pos P); [apply row_inside; auto|apply spot_parent; auto].
  - intros np mv t1 H1 Inp. destruct mv.
    + apply reads_at; [apply here_pk; auto|]. intros nd' En'. destruct (pk_row n t1 nd' H1 Kn En') as (Hn' & Dn' & Pn' & Rn'). apply rewrite_at; auto. rewrite Pn'. auto.
    + apply rewrite_at; auto. rewrite Pn. auto.
Qed.
End At.
End Domain.

(** ** The calls in different trees *)
Section Trees.
Variable cfg : lt_cfg.
Hypothesis label2 : 2 <= label_max cfg.
Notation below_roots := ConcNSTrees.below_roots.
Notation child_positions := ConcNSTrees.child_positions.

(** The node at the side of which the call adds or moves is below a root. *)
Definition deep (t : lt_table) (c : call) : Prop :=
  match c with
  | CAddSibling k _ _ => forall r, In r t -> l_pk r = k -> 2 <= length (l_path r)
  | CMove _ q p => In p child_positions \/ (forall r, In r t -> l_pk r = q -> 2 <= length (l_path r))
  | _ => True
  end.

Lemma root_depth t F r : stores cfg t F -> In r t -> length (l_path r) = 1 -> In (l_pk r) (map nid (roots F)).
Proof.
  intros (f & L & <- & W) Hr Ed.
  assert (H : In r (get_root_nodes t)).
  { apply (Permutation_in _ (Permutation_sym (isort_perm _ _))). apply filter_In. split; auto. apply Nat.eqb_eq. auto. }
  rewrite <- (roots_read cfg t f L), map_map. apply in_map_iff. exists r. split; auto.
Qed.
Lemma deep0 t F c : stores cfg t F -> below_roots F c -> deep t c.
Proof.
  intros St B.
  assert (G : forall k, ~ In k (map nid (roots F)) -> forall r, In r t -> l_pk r = k -> 2 <= length (l_path r)).
  { intros k N r Hr E. assert (Rr := ConcTreesPath.lt_rooted cfg label2 t F r St Hr). unfold ConcTreesPath.rooted in Rr.
    destruct (Nat.eq_dec (length (l_path r)) 1) as [E1|]; [|destruct (l_path r); [congruence|cbn in *; lia]]. exfalso. apply N. rewrite <- E. eapply root_depth; eauto. }
  destruct c as [x|k x|k p x|n q p|l]; cbn in *; auto.
  - apply G. tauto.
  - destruct B as (_ & _ & [B|B]); [auto|]. right. apply G. auto.
Qed.

Lemma stores_any t F : stores cfg t F -> stores_unordered cfg t F.
Proof.
  intros St. assert (W : wf_ids F) by (destruct St as (f & _ & <- & W); exact W). split; auto. exists F. split; auto. apply SpecPerm.same_refl.
Qed.

Theorem lt_all_different_trees t F calls schedule : stores cfg t F -> (forall c, In c calls -> below_roots F c) ->
  NoDup (flat_map new_ids calls) -> (forall i, In i (flat_map new_ids calls) -> ~ In i (ids F)) ->
  (forall i j c d, i <> j -> nth_error calls i = Some c -> nth_error calls j = Some d -> trees_apart F c d) ->
  let W := play l_pk lt_same (all_begin t (map (lt_tx cfg) calls)) schedule in
  one_by_one (lt_exec_rows cfg) calls t (map fst (w_log W)) = (w_rows W, w_log W) /\ NoDup (map fst (w_log W)) /\
  stores_unordered cfg (w_rows W) (fold_left (sp_call (lt_order cfg)) (succeeded calls (w_log W)) F) /\
  (finished W = true -> Permutation (map fst (w_log W)) (seq 0 (length calls))) /\
  exists schedule', finished (play l_pk lt_same W schedule') = true.
Proof.
  intros St B0 New0 Fr0 Ap0 W.
  assert (In1 : forall c i, In c calls -> In i (names c) -> In i (ids F)) by (intros c i Hc; apply ConcNSTrees.below_names; auto).
  assert (Ids : forall i, In i (ids F) <-> In i (map l_pk t)) by (intros i; apply (ConcLT.ids_iff cfg t F i); auto).
  assert (Nt : NoDup (map l_pk t)) by apply (ConcLT.stores_ok cfg t F St).
  assert (V0 : forall r, In r t -> rooted r) by (intros r; eapply ConcTreesPath.lt_rooted; eauto).
  assert (Tr : forall r q, In r t -> In q t -> label0 r = label0 q -> tree_of (l_pk r) F = tree_of (l_pk q) F).
  { intros r q. apply (ConcTreesPath.lt_trees cfg). auto. }
  set (D := dom ltrow l_pk lpath label0 peq t). set (K := keys ltrow l_pk lpath label0 peq t).
  assert (Home := home0 ltrow l_pk rooted lpath label0 peq t F calls Nt V0 Ids Fr0).
  assert (Apart := doms_apart ltrow l_pk lpath label0 peq peq_iff t F calls Nt Ids Tr Fr0 New0 Ap0). fold D K in Home, Apart.
  assert (Kn := keys_name ltrow l_pk lpath label0 peq peq_iff t F calls Ids In1). fold K in Kn.
  assert (Ne := keys_new ltrow l_pk lpath label0 peq t). fold K in Ne.
  assert (Dt := dom_tr ltrow l_pk lpath label0 peq peq_iff t). fold D in Dt.
  set (fine := fun u : lt_table => (exists G, stores_unordered cfg u G) /\ forall c, In c calls -> home ltrow l_pk rooted (D c) (K c) u).
  set (ready := fun (u : lt_table) c => all_ready u c /\ deep u c).
  assert (Same : forall u c, fine u -> ready u c -> ConcAlone.alone ltrow l_pk lt_same u (lt_tx cfg c) = lt_exec_rows cfg u c).
  { intros u c [[G Su] _] [R _]. apply (all_same_call cfg label2 u G); auto. }
  assert (Starts : forall u c, In c calls -> fine u -> ready u c -> home ltrow l_pk rooted (D c) (K c) u ->
    local_at ltrow l_pk lt_same rooted (D c) (K c) (filter (D c) u) (lt_tx cfg c)).
  { intros u c Hc _ [_ Dp] H. assert (Kc := fun i => Kn c i Hc). assert (Nc := Ne c). assert (Dc := Dt c). assert (B := B0 c Hc).
    destruct c as [x|k x|k p x|n q p|l]; [destruct B| | | |]; cbn [lt_tx].
    - apply child_at; auto; [apply Kc; left; auto|apply Nc; left; auto].
    - apply add_sibling_at; auto; [apply Kc; left; auto|apply Nc; left; auto].
    - apply move_at; auto; [apply Kc; left; auto|apply Kc; right; left; auto].
    - apply local_local_at; auto; [exact lt_same_pk|]. apply ConcTreesPath.lt_delete_local; auto. }
  assert (Other : forall u c d u', In c calls -> In d calls -> fine u -> ready u c -> apart ltrow call D K c d ->
    ConcAlone.alone ltrow l_pk lt_same u (lt_tx cfg c) = Ok u' -> home ltrow l_pk rooted (D d) (K d) u' /\ filter (D d) u' = filter (D d) u).
  { intros u c d u' Hc Hd Fu Rc [A B] E.
    apply (alone_other ltrow l_pk lt_same lt_same_pk rooted (D c) (D d) (K c) (K d) A B (lt_tx cfg c) u); auto; try (apply Fu; auto). apply Starts; auto. apply Fu; auto. }
  assert (Sf : forall u c u', In c calls -> fine u -> ready u c -> ConcAlone.alone ltrow l_pk lt_same u (lt_tx cfg c) = Ok u' -> fine u').
  { intros u c u' Hc Fu Rc E. split.
    - rewrite (Same u c Fu Rc) in E. destruct Fu as [[G Su] _]. eexists. apply (exec_result cfg label2 u G c u'); auto. apply Rc.
    - intros d Hd. destruct (In_nth_error _ _ Hc) as [i Ei]. destruct (In_nth_error _ _ Hd) as [j Ej].
      destruct (Nat.eq_dec i j) as [->|N].
      + assert (c = d) as <- by congruence. apply (alone_home ltrow l_pk lt_same lt_same_pk rooted (D c) (K c) (lt_tx cfg c) u); auto; try (apply Fu; auto). apply Starts; auto. apply Fu; auto.
      + apply (Other u c d u'); auto. apply (Apart i j); auto. }
  assert (Sr : forall u c d u', In c calls -> In d calls -> fine u -> ready u c -> ready u d -> apart ltrow call D K c d ->
    ConcAlone.alone ltrow l_pk lt_same u (lt_tx cfg c) = Ok u' -> ready u' d).
  { intros u c d u' Hc Hd Fu Rc [Nd Dd] A E. destruct (Other u c d u' Hc Hd Fu Rc A E) as [Hh Hf].
    assert (Old : forall r, In r u' -> K d (l_pk r) = true -> In r u).
    { intros r Hr Kr. assert (Dr : D d r = true) by (rewrite (h_dom _ _ _ _ _ _ Hh r Hr); auto).
      assert (X : In r (filter (D d) u)) by (rewrite <- Hf; apply filter_In; auto). apply filter_In in X. tauto. }
    split.
    - intros i Hi H. apply in_map_iff in H. destruct H as (r & Er & Hr). apply (Nd i Hi). rewrite <- Er. apply in_map. apply Old; auto. rewrite Er. auto.
    - assert (G : forall k, In k (names d) -> (forall r, In r u -> l_pk r = k -> 2 <= length (l_path r)) -> forall r, In r u' -> l_pk r = k -> 2 <= length (l_path r)).
      { intros k Hk G r Hr Er. apply G; auto. apply Old; auto. rewrite Er. auto. }
      destruct d as [x|k x|k p x|n q p|l]; cbn in *; auto.
      + apply G; auto.
      + destruct Dd as [Dd|Dd]; [auto|]. right. apply G; auto. }
  assert (Rd0 : forall c, In c calls -> ready t c).
  { intros c Hc. split; [|apply (deep0 t F); auto]. intros i Hi H. apply (Fr0 i); [apply in_flat_map; eauto|]. apply Ids. auto. }
  assert (Su := stores_any t F St).
  destruct (local_serial ltrow l_pk lt_same lt_same_pk rooted call (lt_tx cfg) D K calls fine ready Starts Apart Sf Sr t schedule) as (H1 & H2 & H3 & H4); auto.
  { split; [split; eauto|]. auto. }
  fold W in H1, H2, H3, H4.
  assert (Eo : one_by_one (lt_exec_rows cfg) calls t (map fst (w_log W)) = (w_rows W, w_log W)).
  { rewrite <- (one_by_one_same ltrow call l_pk lt_same (lt_exec_rows cfg) (lt_tx cfg) fine (fun u c => In c calls /\ ready u c) (apart ltrow call D K)) with (calls := calls); auto.
    - rewrite (one_by_one_map ltrow l_pk lt_same calls (lt_tx cfg)). exact H1.
    - intros u c Fu [_ R]. auto.
    - intros u c u' Fu [Hc Rc] E. rewrite <- Same in E by auto. eauto.
    - intros u c d u' Fu [Hc Rc] [Hd Rd] A E. split; auto. rewrite <- Same in E by auto. eauto.
    - split; eauto.
    - intros i c _ Hc. apply nth_error_In in Hc. auto. }
  split; [exact Eo|]. split; [exact H2|]. split; [|auto].
  assert (X : stores_unordered cfg (fst (one_by_one (lt_exec_rows cfg) calls t (map fst (w_log W))))
    (fold_left (sp_call (lt_order cfg)) (succeeded calls (snd (one_by_one (lt_exec_rows cfg) calls t (map fst (w_log W))))) F)).
  { apply (one_by_one_rel ltrow calls New0 (lt_exec_rows cfg) (lt_order cfg) (stores_unordered cfg) all_ready); auto.
    - intros t1 F1 c t2. apply exec_result. auto.
    - intros t1 c d t2 [F1 S1]. apply (exec_stays_ready cfg label2 t1 F1); auto.
    - intros i c _ Hc. apply Rd0. eapply nth_error_In; eauto. }
  rewrite Eo in X. exact X.
Qed.
End Trees.
