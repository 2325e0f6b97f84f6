(** Editing a node of a tree with node_order_by: the node goes to its place in the order. *)
From Coq Require Import String List Arith Lia Bool ZArith Sorted Permutation.
From Verif Require Import Prelude Forest SpecFacts SpecSane SpecKids CommonModel Order History SpecRun SpecPerm FormSpec.
Import ListNotations.
Local Open Scope nat_scope.

(** [G] is [F] with node [n] in its place in the order among the children of [up]. *)
Definition settled (F G : forest node) (n : nat) (up : option nat) (gt : node -> bool) : Prop :=
  exists a L1 L2, nid a = n /\ moved F G up a L1 L2 /\ ins_split (PSorted gt) L1 L2.

(** The parent meant by a reference node and a position; "-- root --" means a root. *)
Definition chosen_parent (F : forest node) (ref : option nat) (P : pos) (up : option nat) : Prop :=
  match ref with
  | None => up = None
  | Some t => if is_child_pos P then up = Some t else parent_of t F = Some up
  end.

(** ** The forest with the new data *)
Lemma set_data_notin n d F : ~ In n (ids F) -> set_data n d F = F.
Proof.
  intros H. unfold set_data. induction F as [|a k IHk r IHr]; auto. rewrite ids_cons in H. cbn [In] in H. rewrite in_app_iff in H.
  cbn [fmap]. rewrite IHk, IHr by tauto. f_equal. unfold put_data. destruct (Nat.eqb_spec (nid a) n); auto. tauto.
Qed.

Lemma wf_cons a k r : wf_ids (Cons a k r) -> ~ In (nid a) (ids k) /\ ~ In (nid a) (ids r) /\ wf_ids k /\ wf_ids r /\
  (forall i, In i (ids k) -> In i (ids r) -> False).
Proof.
  unfold wf_ids. rewrite ids_cons. intros W. inversion W as [|x l H1 H2]; subst. rewrite in_app_iff in H1.
  apply NoDup_app_iff in H2. destruct H2 as (H2 & H3 & H4). repeat split; auto.
Qed.

Lemma remove_set n d F : wf_ids F -> remove n (set_data n d F) = remove n F.
Proof.
  induction F as [|a k IHk r IHr]; auto. intros W. apply wf_cons in W. destruct W as (H1 & H2 & Wk & Wr & _).
  unfold set_data in *. cbn [fmap remove]. rewrite put_id. destruct (Nat.eqb_spec (nid a) n) as [E|E].
  - subst n. apply set_data_notin. auto.
  - rewrite IHk, IHr by auto. f_equal. unfold put_data. destruct (Nat.eqb_spec (nid a) n); [contradiction|auto].
Qed.

Lemma subtree_notin n F : ~ In n (ids F) -> subtree n F = Nil.
Proof.
  induction F as [|a k IHk r IHr]; auto. rewrite ids_cons. cbn [In]. rewrite in_app_iff. intros H. cbn [subtree].
  destruct (Nat.eqb_spec (nid a) n); [tauto|]. rewrite IHk by tauto. apply IHr. tauto.
Qed.

Lemma subtree_set n d F : wf_ids F -> In n (ids F) -> exists a c, subtree n F = Cons a c Nil /\
  subtree n (set_data n d F) = Cons (mkNode n d) c Nil.
Proof.
  induction F as [|a k IHk r IHr]; [intros _ []|]. intros W. apply wf_cons in W. destruct W as (H1 & H2 & Wk & Wr & Dj).
  rewrite ids_cons. cbn [In]. rewrite in_app_iff. intros Hn. unfold set_data in *. cbn [fmap subtree]. rewrite put_id.
  destruct (Nat.eqb_spec (nid a) n) as [E|E].
  - exists a, k. split; auto. subst n. fold (set_data (nid a) d k). rewrite set_data_notin by auto. unfold put_data. rewrite Nat.eqb_refl. auto.
  - destruct Hn as [Hn|[Hn|Hn]]; [congruence| |].
    + destruct (IHk Wk Hn) as (b & c & E1 & E2). exists b, c. rewrite E1, E2. auto.
    + destruct (IHr Wr Hn) as (b & c & E1 & E2). exists b, c. fold (set_data n d k).
      rewrite (subtree_notin n k), (subtree_notin n (set_data n d k)); auto.
      * rewrite set_data_ids. intros X. eauto.
      * intros X. eauto.
Qed.

Lemma ordered_cons o a c : has_values o (ndata a) -> sorted_f o c -> values_f o c -> sorted_f o (Cons a c Nil) /\ values_f o (Cons a c Nil).
Proof.
  intros V S V'. split.
  - cbn. repeat (split; auto).
  - apply values_cons. repeat (split; auto). constructor.
Qed.

(** A sorted tree is sorted again when the changed node moves to its place in the order. *)
Theorem ordered_settle o F n d t P : wf_ids F -> In n (ids F) -> ordered o F -> has_values o d ->
  P = SortedSibling \/ P = SortedChild -> ordered o (sp_move n t P (gt_of o d) (set_data n d F)).
Proof.
  intros W Hn O V HP No. destruct (O No) as [S1 S2].
  assert (Sr := sorted_remove o n F S1). assert (Vr := values_remove o n F S2).
  destruct (subtree_set n d F W Hn) as (a & c & Ea & Es).
  destruct (subtree_shape o n F S1 S2) as [X|(x & c' & X & _ & _ & Sc & Vc & _)]; [congruence|].
  rewrite Ea in X. injection X as <- <-.
  destruct (ordered_cons o (mkNode n d) c V Sc Vc) as [Sn Vn].
  assert (G : forall up, sorted_f o (at_kids up (ins (PSorted (gt_of o d)) (subtree n (set_data n d F))) (remove n (set_data n d F))) /\
                         values_f o (at_kids up (ins (PSorted (gt_of o d)) (subtree n (set_data n d F))) (remove n (set_data n d F)))).
  { intros up. rewrite Es, remove_set by auto. cbn [ins]. split.
    - apply sorted_at; auto. intros l Sl Vl. apply (sorted_ins o (mkNode n d) c l); auto.
    - apply values_at; auto. intros l Vl. apply values_ins; auto. }
  unfold sp_move. destruct HP as [-> | ->]; [apply G|apply (G (Some t))].
Qed.

Theorem settle_at F n t P gt : wf_ids F -> In n (ids F) -> In t (ids F) -> ~ inside F n t P ->
  P = SortedSibling \/ P = SortedChild ->
  exists up, chosen_parent F (Some t) P up /\ settled F (sp_move n t P gt F) n up gt.
Proof.
  intros W Hn Ht NI HP.
  destruct (move_sane n t P gt F W Hn Ht NI) as [(_ & [E|E] & _)|(up & a & L1 & L2 & Hup & Ea & M & Sp)];
    try (destruct HP as [HP|HP]; rewrite HP in E; discriminate).
  exists up. split; auto. exists a, L1, L2. split; auto. split; auto. destruct HP as [-> | ->]; exact Sp.
Qed.

Lemma not_inside_root F n t P : wf_ids F -> parent_of t F = Some None -> P = SortedSibling -> ~ inside F n t P.
Proof.
  intros W Et -> [(l & El & Hl)|[_ H]]; [|discriminate].
  destruct (below_parent F n l t W El Hl) as (m & Em & _). congruence.
Qed.

(** ** The order of the others *)
Lemma drop_put n d L : drop n (map (put_data n d) L) = drop n L.
Proof.
  induction L as [|a L IH]; auto. unfold drop in *. cbn [map filter]. rewrite put_id, IH. unfold put_data.
  destruct (nid a =? n); auto.
Qed.

Lemma sorted_drop o n L : StronglySorted (not_after o) L -> StronglySorted (not_after o) (drop n L).
Proof.
  induction L as [|a L IH]; intros S; [constructor|]. apply StronglySorted_inv in S. destruct S as [S H].
  unfold drop in *. cbn [filter]. destruct (negb (nid a =? n)); auto. constructor; auto.
  rewrite Forall_forall in *. intros x Hx. apply filter_In in Hx. apply H. tauto.
Qed.

Lemma splits_others o F n d q : o <> [] -> ordered o F -> has_values o d ->
  splits (gt_of o d) (drop n (kl q (set_data n d F))).
Proof.
  intros No O V. destruct (O No) as [S1 S2].
  assert (E : drop n (kl q (set_data n d F)) = drop n (kl q F)).
  { unfold kl. rewrite set_data_kids. destruct (kid_list q F); auto. apply drop_put. }
  rewrite E. unfold kl, kid_list. destruct (kids_of q F) as [l|] eqn:El; cbn [option_map].
  - destruct (sorted_kids o q F l S1 S2 El) as [Sl Vl]. apply sorted_splits; auto.
    + apply Forall_forall. intros x Hx. apply drop_in in Hx. assert (X := roots_values _ _ Vl). rewrite Forall_forall in X. apply X. tauto.
    + apply sorted_drop, roots_sorted. auto.
  - apply sorted_splits; auto; constructor.
Qed.

Lemma gt_self o d a : o <> [] -> has_values o d -> ndata a = d -> gt_of o d a = false.
Proof.
  intros No V <-. unfold gt_of. rewrite sorted_after_values by auto. destruct (lexlt o (ndata a) (ndata a)) eqn:E; auto.
  rewrite (lexlt_asym _ _ _ E) in E. auto.
Qed.

Lemma set_data_node F n d a : wf_ids F -> In a (preorder (set_data n d F)) -> nid a = n -> ndata a = d.
Proof.
  intros W. unfold set_data. rewrite preorder_fmap. intros Ha E. apply in_map_iff in Ha. destruct Ha as (b & <- & _).
  rewrite put_id in E. unfold put_data. rewrite E, Nat.eqb_refl. auto.
Qed.

(** ** Sorting the changed node among its siblings *)
Definition resort (o : ordering) (n : nat) (d : fields) (F : forest node) : forest node :=
  sp_move n n SortedSibling (gt_of o d) (set_data n d F).

Lemma not_inside_self F n : wf_ids F -> ~ inside F n n SortedSibling.
Proof.
  intros W [(l & El & Hl)|[_ H]]; [|discriminate]. apply (not_below_self F n l W El Hl).
Qed.

Lemma resort_settled o F n d up : wf_ids F -> In n (ids F) -> parent_of n F = Some up ->
  settled (set_data n d F) (resort o n d F) n up (gt_of o d).
Proof.
  intros W Hn Ep. assert (W1 := set_data_wf n d F W). assert (Hn1 : In n (ids (set_data n d F))) by (rewrite set_data_ids; auto).
  destruct (settle_at (set_data n d F) n n SortedSibling (gt_of o d) W1 Hn1 Hn1) as (up' & H & S); auto using not_inside_self.
  cbn in H. rewrite set_data_parent, Ep in H. injection H as ->. auto.
Qed.

Lemma resort_wf o F n d : o <> [] -> wf_ids F -> In n (ids F) -> wf_ids (resort o n d F).
Proof.
  intros No W Hn. set (F1 := set_data n d F). assert (W1 : wf_ids F1) by (apply set_data_wf; auto).
  assert (Hn1 : In n (ids F1)) by (unfold F1; rewrite set_data_ids; auto).
  assert (Ed : data_of n F1 = d).
  { destruct (subtree_set n d F W Hn) as (a & c & _ & Es). destruct (kl_ex F1 n W1 Hn1) as (q & b & Hb & Eb & _).
    rewrite (data_of_spec n F1 b W1 (kl_pre _ _ _ Hb) Eb). apply (set_data_node F n d b W (kl_pre _ _ _ Hb) Eb). }
  assert (E : sp_exec o F1 (CMove n n (Some "sorted-sibling"%string)) = Ok (resort o n d F)).
  { cbn [sp_exec sp_call]. rewrite (proj2 (has_spec _ F1) Hn1). cbn [andb].
    rewrite (proj2 (sorts_true o) No). cbn [prepare_pos_move]. change (prepare_pos_move true (Some "sorted-sibling"%string)) with (Ok SortedSibling).
    cbn [bind]. rewrite (proj2 (insideb_false F1 _ _ SortedSibling) (not_inside_self F1 n W1)), Ed. auto. }
  apply (sp_exec_ids o F1 (CMove n n (Some "sorted-sibling"%string)) _ W1); auto. intros i [].
Qed.

Lemma resort_same o F n d : wf_ids F -> In n (ids F) -> same_kids (set_data n d F) (resort o n d F).
Proof.
  intros W Hn. destruct (kl_ex F n W Hn) as (up & b & _ & _ & Ep).
  destruct (resort_settled o F n d up W Hn Ep) as (a & L1 & L2 & <- & M & _).
  eapply moved_same; [apply set_data_wf; auto|exact M|]. rewrite set_data_parent. auto.
Qed.

Lemma settled_others F G n up gt q : settled F G n up gt -> wf_ids F -> wf_ids G ->
  option_map (drop n) (kid_list q G) = option_map (drop n) (kid_list q F).
Proof.
  intros (a & L1 & L2 & <- & M & _) W WG. destruct (opt_dec q up) as [->|Nq].
  - destruct (mv_before _ _ _ _ _ _ M) as (L & EL & ED). rewrite EL, (mv_after _ _ _ _ _ _ M). cbn [option_map]. f_equal.
    rewrite ED, drop_app. unfold drop at 2. cbn [filter]. rewrite Nat.eqb_refl. cbn [negb]. fold (drop (nid a) L2).
    rewrite <- drop_app. rewrite <- ED. unfold drop. clear. induction L as [|x L IH]; auto. cbn. destruct (nid x =? nid a) eqn:E; cbn; auto.
    rewrite E. cbn. congruence.
  - rewrite (mv_rest _ _ _ _ _ _ M q Nq). destruct (kid_list q F) as [L|]; auto. cbn. f_equal.
    unfold drop. clear. induction L as [|x L IH]; auto. cbn. destruct (nid x =? nid a) eqn:E; cbn; auto.
    rewrite E. cbn. congruence.
Qed.

(** A second placing in the order leaves no trace of the first one. *)
Lemma settled_twice F H G n up up' gt gt' : settled F H n up gt -> settled H G n up' gt' -> wf_ids F -> wf_ids H ->
  settled F G n up' gt'.
Proof.
  intros S1 S2 W WH. assert (Ot := fun q => settled_others F H n up gt q S1 W WH).
  destruct S1 as (a & K1 & K2 & Ea & M1 & _). destruct S2 as (b & L1 & L2 & Eb & M2 & Sp).
  assert (b = a).
  { apply (node_eq H); auto.
    - apply M2.
    - apply (kl_pre up). rewrite (kl_kid_list _ _ _ (mv_after _ _ _ _ _ _ M1)). apply in_elt.
    - congruence. }
  subst b. exists a, L1, L2. split; auto. split; auto. constructor.
  - apply M1.
  - destruct (mv_before _ _ _ _ _ _ M2) as (L & EL & ED). specialize (Ot up'). rewrite EL in Ot. cbn in Ot.
    destruct (kid_list up' F) as [L'|]; [|discriminate]. cbn in Ot. injection Ot as Ot. exists L'. split; auto. congruence.
  - apply M2.
  - intros q Nq. rewrite (mv_rest _ _ _ _ _ _ M2 q Nq). rewrite Ea. apply Ot.
Qed.

(** ** What saving the form does *)

(** The node has its new values and is in its place in the order, below the chosen parent. *)
Definition filed (o : ordering) (F G : forest node) (n : nat) (d : fields) (ref : option nat) (P : pos) : Prop :=
  exists up, chosen_parent F ref P up /\ settled (set_data n d F) G n up (gt_of o d).

Definition refiled (o : ordering) (F G : forest node) (n : nat) (d : fields) (ref : option nat) (P : pos) : Prop :=
  ordered o G /\ filed o F G n d ref P.

Lemma chosen_set n d F ref P up : chosen_parent (set_data n d F) ref P up <-> chosen_parent F ref P up.
Proof. unfold chosen_parent. destruct ref; [|tauto]. rewrite set_data_parent. tauto. Qed.

Lemma filed_at o F n d t P : wf_ids F -> In n (ids F) -> In t (ids F) -> n <> t -> ~ descends F n t ->
  P = SortedSibling \/ P = SortedChild ->
  ~ inside (set_data n d F) n t P /\ filed o F (sp_move n t P (gt_of o d) (set_data n d F)) n d (Some t) P.
Proof.
  intros W Hn Ht N D HP. assert (NI : ~ inside (set_data n d F) n t P) by (rewrite set_data_inside; intros [H|[H _]]; auto).
  split; auto.
  destruct (settle_at (set_data n d F) n t P (gt_of o d)) as (up & Hu & S); auto; rewrite ?set_data_ids; auto using set_data_wf.
  exists up. rewrite chosen_set in Hu. auto.
Qed.

Lemma filed_root o F n d r P : wf_ids F -> In n (ids F) -> In r (ids F) -> parent_of r F = Some None ->
  ~ inside (set_data n d F) n r SortedSibling /\ filed o F (sp_move n r SortedSibling (gt_of o d) (set_data n d F)) n d None P.
Proof.
  intros W Hn Ht Er. assert (NI : ~ inside (set_data n d F) n r SortedSibling).
  { rewrite set_data_inside. apply not_inside_root; auto. }
  split; auto.
  destruct (settle_at (set_data n d F) n r SortedSibling (gt_of o d)) as (up & Hu & S); auto; rewrite ?set_data_ids; auto using set_data_wf.
  exists up. cbn in Hu. rewrite set_data_parent, Er in Hu. injection Hu as <-. split; [reflexivity|auto].
Qed.

Lemma refiled_at o F n d t P : wf_ids F -> In n (ids F) -> In t (ids F) -> n <> t -> ~ descends F n t ->
  ordered o F -> has_values o d -> P = SortedSibling \/ P = SortedChild ->
  ~ inside (set_data n d F) n t P /\ refiled o F (sp_move n t P (gt_of o d) (set_data n d F)) n d (Some t) P.
Proof.
  intros W Hn Ht N D O V HP. destruct (filed_at o F n d t P W Hn Ht N D HP). split; auto. split; auto. apply ordered_settle; auto.
Qed.

Lemma refiled_root o F n d r P : wf_ids F -> In n (ids F) -> In r (ids F) -> parent_of r F = Some None ->
  ordered o F -> has_values o d ->
  ~ inside (set_data n d F) n r SortedSibling /\ refiled o F (sp_move n r SortedSibling (gt_of o d) (set_data n d F)) n d None P.
Proof.
  intros W Hn Ht Er O V. destruct (filed_root o F n d r P W Hn Ht Er). split; auto. split; auto. apply ordered_settle; auto.
Qed.

(** New values that are the same in the columns of the order change nothing in the order. *)
Lemma ordered_same o F n d : wf_ids F -> In n (ids F) -> ordered o F ->
  (forall i b, In (i, b) o -> fval d i = fval (data_of n F) i) -> ordered o (set_data n d F).
Proof.
  intros W Hn O E No. destruct (O No) as [S V].
  assert (K : forall a, In a (preorder F) -> forall i b, In (i, b) o -> fval (ndata (put_data n d a)) i = fval (ndata a) i).
  { intros a Ha i b Hi. unfold put_data. destruct (Nat.eqb_spec (nid a) n) as [En|]; auto. cbn [ndata].
    rewrite (E i b Hi). rewrite (data_of_spec n F a W Ha En). auto. }
  clear E O. unfold set_data.
  assert (Lx : forall o', (forall x, In x o' -> In x o) -> forall a b, In a (preorder F) -> In b (preorder F) ->
            lexlt o' (ndata (put_data n d a)) (ndata (put_data n d b)) = lexlt o' (ndata a) (ndata b)).
  { induction o' as [|[i de] o' IH]; intros Sub a b Ha Hb; auto. cbn [lexlt].
    rewrite (K a Ha i de), (K b Hb i de), IH by (auto with datatypes). auto. }
  specialize (Lx o (fun x H => H)).
  assert (Vx : forall a, In a (preorder F) -> has_values o (ndata a) -> has_values o (ndata (put_data n d a))).
  { intros a Ha H i b Hi. rewrite (K a Ha i b Hi). apply (H i b Hi). }
  clear K W Hn. split.
  - clear V Vx. revert S Lx. induction F as [|a k IHk r IHr]; auto. intros (S1 & S2 & S3) Lx.
    cbn [fmap sorted_f]. split; [|split].
    + apply IHk; auto. intros x y Hx Hy. apply Lx; cbn [preorder]; right; rewrite in_app_iff; auto.
    + apply IHr; auto. intros x y Hx Hy. apply Lx; cbn [preorder]; right; rewrite in_app_iff; auto.
    + rewrite roots_fmap, Forall_forall in *. intros y Hy. apply in_map_iff in Hy. destruct Hy as (z & <- & Hz).
      unfold not_after. rewrite Lx; [apply S3; auto| |left; auto].
      right. rewrite in_app_iff. right. apply roots_preorder. auto.
  - unfold values_f in *. rewrite preorder_fmap, Forall_forall in *. intros y Hy. apply in_map_iff in Hy.
    destruct Hy as (z & <- & Hz). auto.
Qed.
