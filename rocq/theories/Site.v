(** A site that works on a tree for a long time: the specification, and the generic part of
    the proof (C54). *)
From Coq Require Import String List Arith Lia Bool ZArith Permutation Sorted.
From Verif Require Import Prelude Forest SpecFacts SpecSane SpecKids SpecPerm SpecRun CommonModel Order History
  FormModel FormSpec AdminModel BulkModel BulkFacts BulkLoad MPFixPaths FormSorted PropsForm PropsFormSorted PropsAdmin SiteModel.
Import ListNotations.

(** ** Specification *)

(** The reference node of a form is empty or one of [L]. *)
Definition among (ref : option nat) (L : list node) : Prop := forall k, ref = Some k -> In k (map nid L).

(** The new values are the old ones in the columns of node_order_by. *)
Definition kept_order (o : ordering) (n : nat) (F : forest node) (d : fields) : Prop :=
  forall i b, In (i, b) o -> fval (data_of n F) i = fval d i.

(** [served o F r G]: the request does what it should and makes the forest [F] the forest [G].
    A call has its meaning on forests; a dragged node is below or before the other one, or where
    it belongs in a sorted tree; a form sets the values and, if the place was changed, puts the
    node there, in a sorted tree where it belongs below the chosen parent - unless neither the place
    nor a value to sort by was changed -, and nothing else moves; a new node is at the place chosen; the data loaded is below the
    parent; fixing the paths sorts the siblings and the other repairs find nothing to do. *)
Definition served (o : ordering) (F : forest node) (r : request) (G : forest node) : Prop :=
  match r with
  | Call c => sp_exec o F c = Ok G
  | Drag n t below =>
      In t (ids F) /\ ~ own_branch F n t below /\
      exists a, In a (preorder F) /\ nid a = n /\ dragged (sorts o) F G n t below (gt_of o (ndata a))
  | Edit n d ref p =>
      In n (ids F) /\ among ref (offered n F) /\ In p (form_positions (sorts o)) /\
      exists P, prepare_pos_move (sorts o) (Some p) = Ok P /\
      (mkWhere ref p = shown (sorts o) n F /\ kept_order o n F d /\ G = set_data n d F \/
       if sorts o then filed o F G n d ref P
       else mkWhere ref p <> shown false n F /\ relocated (set_data n d F) G n ref P (gt_of o d))
  | Create x ref p =>
      among ref (preorder F) /\ In p (form_positions (sorts o)) /\
      exists P, prepare_pos_move (sorts o) (Some p) = Ok P /\ created o F G x ref P
  | LoadBulk keep_ids next data parent =>
      among parent (preorder F) /\ exists g, describes keep_ids next data g /\ G = sp_load o parent g F
  | Fix fix_paths => if fix_paths then rearranged o F G else G = F
  end.

(** The requests that must be answered with an error message: unknown nodes, a node dragged
    into its own branch, values that are not among the choices. *)
Definition declined (o : ordering) (F : forest node) (r : request) : Prop :=
  match r with
  | Drag n t below => ~ In n (ids F) \/ ~ In t (ids F) \/ own_branch F n t below
  | Edit n _ ref p => ~ In n (ids F) \/ ~ In p (form_positions (sorts o)) \/ ~ among ref (offered n F)
  | Create _ ref p => ~ In p (form_positions (sorts o)) \/ ~ among ref (preorder F)
  | _ => False
  end.

(** The requests that must raise [e]. *)
Definition raises (o : ordering) (fixes : bool) (F : forest node) (r : request) (e : exn) : Prop :=
  match r with
  | Call c => sp_exec o F c = Err e
  | LoadBulk keep_ids _ data parent =>
      ~ among parent (preorder F) /\ e = DoesNotExist \/
      among parent (preorder F) /\ keep_ids = true /\ (exists it, In it (preorder data) /\ it_pk it = None) /\ e = KeyError
  | Fix _ => fixes = false /\ e = AttributeError
  | _ => False
  end.

(** What a kind of tree may do: [full db r e], the request is given up with [e] because there are
    no numbers or labels left in the table; [fixes], it has fix_tree; [same F G], the trees that need not be told
    apart. *)
Record kind (DB : Type) := mkKind {
  full : DB -> request -> exn -> Prop; fixes : bool; same : forest node -> forest node -> Prop }.
Arguments mkKind {DB} _ _ _. Arguments full {DB} _ _ _ _. Arguments fixes {DB} _. Arguments same {DB} _ _ _.

Definition is_drag (r : request) : bool := match r with Drag _ _ _ => true | _ => false end.

(** One request to the table [db], its answer and the forest afterwards.  The admin's list answers an
    exception that it catches with an error message. *)
Definition next_tree {DB} (K : kind DB) (o : ordering) (db : DB) (F : forest node) (r : request) (a : reply DB) (G : forest node) : Prop :=
  match a with
  | Done _ => exists H, served o F r H /\ same K H G
  | Refused => G = F /\ (declined o F r \/ is_drag r = true /\ exists e, full K db r e /\ caught e = true)
  | Failed e => G = F /\ (raises o (fixes K) F r e \/ full K db r e /\ (is_drag r && caught e)%bool = false)
  end.

(** One request after the other. *)
Fixpoint life {DB} (serve : DB -> request -> reply DB) (K : kind DB) (o : ordering) (db : DB) (F : forest node)
  (rs : list request) (G : forest node) : Prop :=
  match rs with
  | [] => G = F
  | r :: rs => exists H, next_tree K o db F r (serve db r) H /\ life serve K o (after db (serve db r)) H rs G
  end.

(** New nodes have unused primary keys. *)
Definition fresh_req (pks : list nat) (r : request) : Prop :=
  match r with
  | Call c => forall i, In i (new_ids c) -> ~ In i pks
  | Create x _ _ => ~ In (nid x) pks
  | LoadBulk keep_ids next data _ =>
      forall g, describes keep_ids next data g -> wf_ids g /\ forall i, In i (ids g) -> ~ In i pks
  | _ => True
  end.

(** In sorted trees they have values in the columns of node_order_by. *)
Definition values_req (o : ordering) (r : request) : Prop :=
  o <> [] -> match r with
  | Call c => call_values o c
  | Create x _ _ => has_values o (ndata x)
  | Edit _ d _ _ => has_values o d
  | LoadBulk keep_ids next data _ => forall g, describes keep_ids next data g -> values_f o g
  | _ => True
  end.

(** An edit that keeps the tree sorted: the form moves the node, or the values to sort by are
    the same.  It does not move the node if only values of descending columns were changed
    (C42_sorted_edit_refuted). *)
Definition resorts (o : ordering) (n : nat) (F : forest node) (sent : where_to) (d : fields) : Prop :=
  calls_move o n F sent d \/ kept_order o n F d.

(** ** Sorted siblings *)
Section Sorted.
Variable o : ordering.

Lemma sorted_kid_lists F : sorted_f o F -> forall q L, kid_list q F = Some L -> StronglySorted (not_after o) L.
Proof.
  assert (H : forall F, sorted_f o F -> forall q l, children_of q F = Some l -> sorted_f o l).
  { induction F0 as [|a k IHk r IHr]; cbn [sorted_f children_of]; [discriminate|]. intros (S1 & S2 & S3) q l.
    destruct (nid a =? q); [congruence|]. destruct (children_of q k) eqn:E; [intros X; injection X as <-; eauto|eauto]. }
  intros S q L. unfold kid_list. destruct q as [q|]; cbn [kids_of option_map].
  - destruct (children_of q F) eqn:E; [|discriminate]. intros X. injection X as <-. apply roots_sorted. eauto.
  - intros X. injection X as <-. apply roots_sorted; auto.
Qed.

Lemma kid_lists_sorted F : wf_ids F -> (forall q L, kid_list q F = Some L -> StronglySorted (not_after o) L) -> sorted_f o F.
Proof.
  assert (Hr : forall F, (forall q l, children_of q F = Some l -> StronglySorted (not_after o) (roots l)) -> wf_ids F ->
    StronglySorted (not_after o) (roots F) -> sorted_f o F).
  { induction F0 as [|a k IHk r IHr]; cbn [sorted_f roots]; auto. intros H W S. inversion S; subst.
    assert (W' := W). unfold wf_ids in W'. rewrite ids_cons in W'. inversion W' as [|? ? Na W'']; subst.
    assert (Wk : wf_ids k /\ wf_ids r /\ forall i, In i (ids k) -> ~ In i (ids r)).
    { clear - W. unfold wf_ids in *. rewrite ids_cons in W. inversion W; subst. clear - H2.
      induction (ids k) as [|x l IH]; [cbn in H2; split; [constructor|split; [auto|tauto]]|].
      cbn in H2. inversion H2; subst. destruct (IH H3) as (A & B & C). rewrite in_app_iff in H1. split; [constructor; tauto|].
      split; auto. intros i [<-|Hi]; auto. }
    destruct Wk as (Wk & Wr & D). split; [|split]; auto.
    - apply IHk; auto.
      + intros q l E. apply (H q). cbn [children_of]. destruct (nid a =? q) eqn:Eq.
        * apply Nat.eqb_eq in Eq. subst q. exfalso. apply Na. apply in_or_app. left. apply (children_in _ _ _ E).
        * rewrite E. auto.
      + apply (H (nid a)). cbn [children_of]. rewrite Nat.eqb_refl. auto.
    - apply IHr; auto. intros q l E. apply (H q). cbn [children_of]. assert (Hq := children_in _ _ _ E). destruct (nid a =? q) eqn:Eq.
      + apply Nat.eqb_eq in Eq. subst q. exfalso. apply Na. apply in_or_app. auto.
      + destruct (children_of q k) eqn:Ek; auto. apply children_in in Ek. exfalso. apply (D q); auto. }
  intros W H. apply Hr; auto.
  - intros q l E. apply (H (Some q)). unfold kid_list. cbn. rewrite E. auto.
  - apply (H None). reflexivity.
Qed.

Hypothesis No : o <> [].

Lemma ins_sorted d x L1 L2 : has_values o d -> ndata x = d ->
  Forall (fun a => has_values o (ndata a)) (L1 ++ L2) -> StronglySorted (not_after o) (L1 ++ L2) ->
  (forall y, In y L1 -> gt_of o d y = false) -> (forall b L, L2 = b :: L -> gt_of o d b = true) ->
  StronglySorted (not_after o) (L1 ++ x :: L2).
Proof.
  intros Hd <- V S H1 H2. unfold gt_of in *.
  assert (H1' : forall y, In y L1 -> not_after o y x).
  { intros y Hy. unfold not_after. rewrite <- (sorted_after_values o (ndata x) (ndata y)); auto. }
  clear H1. induction L1 as [|a L1 IH]; cbn in *.
  - constructor; auto. destruct L2 as [|b L]; constructor.
    + unfold not_after. apply lexlt_asym. rewrite <- (sorted_after_values o (ndata x) (ndata b)); auto. eapply H2; eauto.
    + apply StronglySorted_inv in S. destruct S as [_ S]. inversion V as [|? ? Vb VL]; subst.
      specialize (H2 b L eq_refl). rewrite sorted_after_values in H2 by auto.
      apply Forall_forall. intros c Hc. rewrite Forall_forall in S, VL. unfold not_after. specialize (S c Hc). unfold not_after in S.
      apply lexlt_asym. destruct (lexlt o (ndata x) (ndata c)) eqn:E; auto.
      rewrite (lexlt_trans_false o (ndata b) (ndata c) (ndata x)) in H2; auto.
  - apply StronglySorted_inv in S. destruct S as [S Fa]. inversion V; subst. constructor.
    + apply IH; auto.
    + apply Forall_forall. intros c Hc. apply in_app_iff in Hc. rewrite Forall_forall in Fa.
      destruct Hc as [Hc|[<-|Hc]]; auto; apply Fa, in_app_iff; auto.
Qed.

Lemma filter_sorted (p : node -> bool) L : StronglySorted (not_after o) L -> StronglySorted (not_after o) (filter p L).
Proof.
  induction 1 as [|a L S IH Fa]; cbn [filter]; [constructor|]. destruct (p a); auto. constructor; auto.
  apply Forall_forall. intros c Hc. apply filter_In in Hc. rewrite Forall_forall in Fa. apply Fa, Hc.
Qed.

Lemma kid_list_values q F L : values_f o F -> kid_list q F = Some L -> Forall (fun a => has_values o (ndata a)) L.
Proof.
  intros V E. apply Forall_forall. intros a Ha. unfold values_f in V. rewrite Forall_forall in V. apply V.
  apply (kl_pre q). rewrite (kl_kid_list _ _ _ E). auto.
Qed.

(* the nodes of a forest are the members of its lists of children *)
Lemma in_kid_list F a : wf_ids F -> In a (preorder F) -> exists q L, kid_list q F = Some L /\ In a L.
Proof.
  intros W Ha. destruct (kl_ex F (nid a) W) as (q & b & Hb & E & _); [apply in_map; auto|].
  assert (a = b) by (eapply node_eq; eauto using kl_pre). subst b. exists q.
  destruct (kl_inv _ _ _ Hb) as (l & El & Hl & _). exists (roots l). unfold kid_list. rewrite El. auto.
Qed.

Lemma values_lists F : wf_ids F -> (forall q L, kid_list q F = Some L -> Forall (fun a => has_values o (ndata a)) L) -> values_f o F.
Proof.
  intros W H. apply Forall_forall. intros a Ha. destruct (in_kid_list F a W Ha) as (q & L & E & Hi).
  specialize (H q L E). rewrite Forall_forall in H. auto.
Qed.
End Sorted.

Section Ordered.
Variable o : ordering.

Lemma kid_list_ordered F : wf_ids F -> (o <> [] -> forall q L, kid_list q F = Some L ->
  StronglySorted (not_after o) L /\ Forall (fun a => has_values o (ndata a)) L) -> ordered o F.
Proof.
  intros W H No. specialize (H No). split.
  - apply kid_lists_sorted; auto. intros q L E. apply (H q L E).
  - apply values_lists; auto. intros q L E. apply (H q L E).
Qed.

Lemma added_ordered F G up x L1 L2 : wf_ids G -> ordered o F -> (o <> [] -> has_values o (ndata x)) -> added F G up x L1 L2 ->
  (o <> [] -> ins_split (PSorted (gt_of o (ndata x))) L1 L2) -> ordered o G.
Proof.
  intros W O V A Sp. apply kid_list_ordered; auto. intros No q L E. destruct (O No) as [S Vf]. specialize (V No). destruct (Sp No) as [I1 I2].
  destruct A as [A1 A2 A3 A4]. destruct (opt_dec q up) as [->|Nq].
  - rewrite A2 in E. injection E as <-. assert (Vl := kid_list_values o _ _ _ Vf A1). split.
    + eapply ins_sorted; eauto. eapply sorted_kid_lists; eauto.
    + apply Forall_app in Vl. apply Forall_app. split; [apply Vl|]. constructor; [auto|apply Vl].
  - destruct (opt_dec q (Some (nid x))) as [->|Nx].
    + rewrite A3 in E. injection E as <-. split; constructor.
    + rewrite A4 in E by auto. split; [eapply sorted_kid_lists; eauto|eapply kid_list_values; eauto].
Qed.

Lemma moved_ordered F G up a L1 L2 : wf_ids G -> ordered o F -> moved F G up a L1 L2 ->
  (o <> [] -> (forall x, In x L1 -> gt_of o (ndata a) x = false) /\ (forall b L, L2 = b :: L -> gt_of o (ndata a) b = true)) -> ordered o G.
Proof.
  intros W O A Sp. apply kid_list_ordered; auto. intros No q L E. destruct (O No) as [S Vf]. destruct (Sp No) as [I1 I2].
  destruct A as [A1 (L0 & A2 & A2') A3 A4]. assert (V : has_values o (ndata a)).
  { unfold values_f in Vf. rewrite Forall_forall in Vf. auto. }
  destruct (opt_dec q up) as [->|Nq].
  - rewrite A3 in E. injection E as <-.
    assert (Vl := kid_list_values o _ _ _ Vf A2). assert (Sl := sorted_kid_lists o F S _ _ A2).
    assert (Vd : Forall (fun a => has_values o (ndata a)) (L1 ++ L2)).
    { rewrite <- A2'. apply Forall_forall. intros c Hc. apply filter_In in Hc. rewrite Forall_forall in Vl. apply Vl, Hc. }
    split.
    + eapply ins_sorted; eauto. rewrite <- A2'. apply filter_sorted; auto.
    + apply Forall_app in Vd. apply Forall_app. split; [apply Vd|]. constructor; [auto|apply Vd].
  - rewrite A4 in E by auto. destruct (kid_list q F) as [L'|] eqn:E'; [|discriminate]. injection E as <-. split.
    + apply filter_sorted. eapply sorted_kid_lists; eauto.
    + assert (Vl := kid_list_values o _ _ _ Vf E'). apply Forall_forall. intros c Hc. apply filter_In in Hc. rewrite Forall_forall in Vl. apply Vl, Hc.
Qed.

(* in a sorted tree the form offers sorted positions only *)
Lemma form_sorted p P t gt : o <> [] -> prepare_pos_move (sorts o) (Some p) = Ok P -> sib_place P t gt = PSorted gt.
Proof. intros No E. rewrite (proj2 (sorts_true o) No) in E. destruct (prepare_move_sorted _ _ E) as [-> | ->]; reflexivity. Qed.

Lemma created_ordered F G x ref p P : wf_ids G -> ordered o F -> (o <> [] -> has_values o (ndata x)) ->
  prepare_pos_move (sorts o) (Some p) = Ok P -> created o F G x ref P -> ordered o G.
Proof.
  intros W O V E (up & L1 & L2 & A & C & C0). apply (added_ordered F G up x L1 L2); auto. intros No. destruct ref as [t|].
  - destruct C as [_ C]. rewrite (form_sorted p P t _ No E) in C. auto.
  - specialize (C0 eq_refl). rewrite (proj2 (sorts_true o) No) in C0. auto.
Qed.

Lemma dragged_ordered F G n t below a : wf_ids F -> wf_ids G -> ordered o F -> In a (preorder F) -> nid a = n ->
  dragged (sorts o) F G n t below (gt_of o (ndata a)) -> ordered o G.
Proof.
  intros WF W O Ha Ea [(_ & _ & _ & ->)|(up & b & L1 & L2 & Eb & M & _ & H)]; auto.
  assert (a = b) by (apply (node_eq F a b WF Ha (mv_node _ _ _ _ _ _ M)); congruence). subst b.
  apply (moved_ordered F G up a L1 L2); auto. intros No. rewrite (proj2 (sorts_true o) No) in H. auto.
Qed.

Lemma in_order_not_after x y : has_values o x -> has_values o y -> in_order o x y -> lexlt o y x = false.
Proof.
  intros Hx Hy H. revert Hx Hy. induction H as [x y|i d o' x y E _ IH|i d o' x y H]; intros Hx Hy; auto.
  - apply has_values_cons in Hx, Hy. destruct Hx as [(v & Ev) Hx], Hy as [(u & Eu) Hy]. cbn [lexlt]. rewrite Ev, Eu. rewrite Ev, Eu in E.
    injection E as ->. unfold before. rewrite Z.ltb_irrefl, Z.eqb_refl, IH; auto. destruct d; auto.
  - apply has_values_cons in Hx, Hy. destruct Hx as [(v & Ev) Hx], Hy as [(u & Eu) Hy]. cbn [lexlt]. rewrite Ev, Eu in *. unfold before.
    destruct d; cbn in H; apply orb_false_iff; (split; [apply Z.ltb_ge; lia|]); apply andb_false_iff; left; apply Z.eqb_neq; lia.
Qed.

Lemma rearranged_ordered F G : wf_ids F -> wf_ids G -> ordered o F -> rearranged o F G -> ordered o G.
Proof.
  intros WF W O (Sk & R). apply kid_list_ordered; auto. intros No q L E. destruct (O No) as [S Vf].
  assert (Vl : Forall (fun a => has_values o (ndata a)) L).
  { assert (X := Sk q). rewrite E in X. destruct (kid_list q F) as [L'|] eqn:E'; [|tauto].
    assert (Vl := kid_list_values o _ _ _ Vf E'). rewrite Forall_forall in *. intros c Hc. apply Vl. apply (Permutation_in _ (Permutation_sym X)); auto. }
  split; auto. destruct o as [|c o'] eqn:Eo; [congruence|]. rewrite <- Eo in *. specialize (R q L E). clear - R Vl.
  induction R as [|a L Sl IH Fa]; constructor.
  - apply IH. inversion Vl; auto.
  - rewrite Forall_forall in *. intros b Hb. unfold not_after. apply in_order_not_after; auto; apply Vl; cbn; auto.
Qed.
End Ordered.

(** ** Data that describes something *)
Lemma describes_ex keep next data : (keep = true /\ exists it, In it (preorder data) /\ it_pk it = None) \/ exists g, describes keep next data g.
Proof.
  destruct keep.
  - assert (H : (exists it, In it (preorder data) /\ it_pk it = None) \/
      exists g, fmap it_data data = fmap ndata g /\ fmap it_pk data = fmap (fun x => Some (nid x)) g).
    { induction data as [|a k IHk r IHr]; [right; exists Nil; auto|]. cbn [preorder fmap].
      destruct (it_pk a) as [p|] eqn:Ea; [|left; exists a; split; [left; auto|auto]].
      destruct IHk as [(it & H & E)|(gk & K1 & K2)]; [left; exists it; split; auto; right; apply in_or_app; auto|].
      destruct IHr as [(it & H & E)|(gr & R1 & R2)]; [left; exists it; split; auto; right; apply in_or_app; auto|].
      right. exists (Cons (mkNode p (it_data a)) gk gr). cbn. rewrite K1, K2, R1, R2, ?Ea. auto. }
    destruct H as [H|(g & H)]; [left; auto|right; exists g; exact H].
  - right. assert (H : forall data n, exists g, fmap it_data data = fmap ndata g /\ ids g = map next (seq n (size g))).
    { clear. induction data as [|a k IHk r IHr]; intros n; [exists Nil; auto|].
      destruct (IHk (S n)) as (gk & K1 & K2). destruct (IHr (S n + size gk)) as (gr & R1 & R2).
      exists (Cons (mkNode (next n) (it_data a)) gk gr). cbn [fmap ndata]. rewrite K1, R1. split; auto.
      rewrite ids_cons, K2, R2. cbn [size nid]. cbn [seq map]. f_equal.
      rewrite seq_app, map_app. reflexivity. }
    destruct (H data 0) as (g & H'). exists g. exact H'.
Qed.

(** ** Running *)
Section Run.
Variable DB : Type.
Variable serve : DB -> request -> reply DB.
Variable K : kind DB.
Variable o : ordering.
Variable stores : DB -> forest node -> Prop.
Variable ok : DB -> request -> Prop.
Hypothesis step : forall db F r, stores db F -> ok db r ->
  exists G, stores (after db (serve db r)) G /\ next_tree K o db F r (serve db r) G.

Fixpoint all_ok (db : DB) (rs : list request) : Prop :=
  match rs with
  | [] => True
  | r :: rs => ok db r /\ all_ok (after db (serve db r)) rs
  end.

Theorem days_life : forall rs db F, stores db F -> all_ok db rs ->
  exists G, stores (days serve db rs) G /\ life serve K o db F rs G.
Proof.
  induction rs as [|r rs IH]; intros db F S Ok; cbn [days life]; [exists F; auto|].
  destruct Ok as [Ok1 Ok2]. destruct (step db F r S Ok1) as (H & SH & N). destruct (IH _ H SH Ok2) as (G & SG & L).
  exists G. split; auto. exists H. auto.
Qed.
End Run.
Arguments all_ok {DB} _ _ _ _.

(** ** The values sent with a form *)
Lemma str_in_iff p l : str_in p l = true <-> In p l.
Proof.
  unfold str_in. rewrite existsb_exists. split.
  - intros (x & H & E). apply String.eqb_eq in E. subst x. auto.
  - intros H. exists p. split; auto. apply String.eqb_refl.
Qed.

Lemma checked_cases {R DB} (pk : R -> nat) sorted (rows : list R) ref p (save : option R -> res DB) :
  (checked pk sorted rows ref p save = Refused /\
     (~ In p (form_positions sorted) \/ exists k, ref = Some k /\ ~ In k (map pk rows))) \/
  (In p (form_positions sorted) /\ (forall k, ref = Some k -> In k (map pk rows)) /\
   exists r, option_map pk r = ref /\ (forall x, r = Some x -> In x rows) /\ checked pk sorted rows ref p save = answer (save r)).
Proof.
  unfold checked. destruct (str_in p (form_positions sorted)) eqn:E.
  - apply str_in_iff in E. destruct ref as [k|]; cbn [picked].
    + destruct (find (fun r => pk r =? k) rows) as [r|] eqn:Ef; cbn [option_map].
      * apply find_some in Ef. destruct Ef as [Hr Ek]. apply Nat.eqb_eq in Ek. right. split; auto. split.
        -- intros k' X. injection X as <-. rewrite <- Ek. apply in_map; auto.
        -- exists (Some r). cbn. rewrite Ek. split; auto. split; auto. intros x X. injection X as <-. auto.
      * left. split; auto. right. exists k. split; auto. intros Hk. apply in_map_iff in Hk. destruct Hk as (r & Er & Hr).
        apply (find_none _ _ Ef) in Hr. apply Nat.eqb_neq in Hr. auto.
    + right. split; auto. split; [discriminate|]. exists None. split; auto. split; auto. discriminate.
  - left. split; auto. left. intros H. apply str_in_iff in H. congruence.
Qed.

Lemma among_dec ref L : among ref L \/ ~ among ref L.
Proof.
  destruct ref as [k|]; [|left; intros k X; discriminate]. destruct (in_dec Nat.eq_dec k (map nid L)) as [H|H].
  - left. intros k' X. injection X as <-. auto.
  - right. intros A. apply H. apply A. auto.
Qed.

Lemma among_none L : among None L. Proof. intros k X. discriminate. Qed.
Lemma among_ids k F : among (Some k) (preorder F) <-> In k (ids F).
Proof. split; [intros A; apply A; auto|intros H k' X; injection X as <-; auto]. Qed.

Lemma where_dec (a b : where_to) : {a = b} + {a <> b}.
Proof. repeat decide equality. Qed.

Lemma order_dec (o : ordering) : o = [] \/ o <> [].
Proof. destruct o; [left|right]; congruence. Qed.
