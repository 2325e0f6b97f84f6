(** Dumps and loads of forests, independent of the implementation. *)
From Coq Require Import List Arith Lia Bool ZArith Sorted Permutation.
From Verif Require Import Prelude Forest SpecFacts CommonModel Order History SpecRun SpecKids BulkModel.
Import ListNotations.

(** ** The forest [g] appended to the children of [up] *)
Definition append (up : option nat) (g F : forest node) : forest node := at_kids up (fun c => fapp c g) F.

(** [F'] is [F] with more nodes after the last child of some nodes. *)
Fixpoint ext (F F' : forest node) : Prop :=
  match F, F' with
  | Nil, _ => True
  | Cons a k r, Cons a' k' r' => a = a' /\ ext k k' /\ ext r r'
  | Cons _ _ _, Nil => False
  end.

Lemma ext_refl F : ext F F.
Proof. induction F; simpl; auto. Qed.

Lemma ext_trans F G H : ext F G -> ext G H -> ext F H.
Proof.
  revert G H. induction F as [|a k IHk r IHr]; intros [|b k' r'] [|c k'' r'']; simpl; try tauto.
  intros (-> & ? & ?) (-> & ? & ?). eauto.
Qed.

Lemma ext_app c g h : ext g h -> ext (fapp c g) (fapp c h).
Proof. intros H. induction c; simpl; auto using ext_refl. Qed.

Lemma ext_at up h h' F : (forall c, ext (h c) (h' c)) -> ext (at_kids up h F) (at_kids up h' F).
Proof.
  intros H. destruct up as [p|]; simpl; auto.
  induction F as [|a k IHk r IHr]; simpl; auto. destruct (nid a =? p); simpl; auto using ext_refl.
Qed.

Lemma append_ext up g h F : ext g h -> ext (append up g F) (append up h F).
Proof. intros H. apply ext_at. intros c. apply ext_app. auto. Qed.

Lemma at_node_at_node p h h' F : at_node p h' (at_node p h F) = at_node p (fun c => h' (h c)) F.
Proof.
  induction F as [|a k IHk r IHr]; simpl; auto.
  destruct (nid a =? p) eqn:E; simpl; rewrite E; auto. rewrite IHk, IHr. auto.
Qed.

Lemma at_kids_at_kids up h h' F : at_kids up h' (at_kids up h F) = at_kids up (fun c => h' (h c)) F.
Proof. destruct up; simpl; auto. apply at_node_at_node. Qed.

Lemma at_kids_ext up h h' F : (forall c, h c = h' c) -> at_kids up h F = at_kids up h' F.
Proof.
  intros H. destruct up as [p|]; simpl; auto. induction F as [|a k IHk r IHr]; simpl; auto.
  destruct (nid a =? p); rewrite ?H, ?IHk, ?IHr; auto.
Qed.

Lemma append_append up g h F : append up h (append up g F) = append up (fapp g h) F.
Proof. unfold append. rewrite at_kids_at_kids. apply at_kids_ext. intros. apply fapp_assoc. Qed.

Lemma at_node_new x h c k r : ~ In (nid x) (ids c) ->
  at_node (nid x) h (fapp c (Cons x k r)) = fapp c (Cons x (h k) r).
Proof.
  induction c as [|a k' _ r' IH]; cbn [fapp at_node].
  - rewrite Nat.eqb_refl. auto.
  - rewrite ids_cons. simpl. rewrite in_app_iff. intros H. destruct (Nat.eqb_spec (nid a) (nid x)); [tauto|].
    rewrite IH by tauto. rewrite at_node_notin by tauto. auto.
Qed.

Lemma ids_append up g F i : In i (ids (append up g F)) -> In i (ids F) \/ In i (ids g).
Proof.
  unfold append. destruct up as [p|]; cbn [at_kids].
  - induction F as [|a k IHk r IHr]; cbn [at_node]; auto. destruct (nid a =? p); rewrite !ids_cons; simpl;
      rewrite !in_app_iff, ?ids_fapp, ?in_app_iff; tauto.
  - rewrite ids_fapp, in_app_iff. auto.
Qed.

Lemma ids_append_old up g F i : In i (ids F) -> In i (ids (append up g F)).
Proof.
  unfold append. destruct up as [p|]; cbn [at_kids].
  - induction F as [|a k IHk r IHr]; cbn [at_node]; auto. destruct (nid a =? p); rewrite !ids_cons; simpl;
      rewrite !in_app_iff, ?ids_fapp, ?in_app_iff; tauto.
  - rewrite ids_fapp, in_app_iff. auto.
Qed.

Lemma append_nil up F : append up Nil F = F.
Proof.
  unfold append. destruct up as [p|]; simpl; [|apply fapp_nil_r].
  induction F as [|a k IHk r IHr]; simpl; auto. rewrite fapp_nil_r, IHk, IHr. destruct (nid a =? p); auto.
Qed.

Definition is_up (up : option nat) (F : forest node) : Prop := forall p, up = Some p -> In p (ids F).

Lemma is_up_kids up F : is_up up F -> exists l, kids_of up F = Some l.
Proof.
  destruct up as [p|]; cbn [kids_of]; eauto. intros H. specialize (H p eq_refl). revert H.
  induction F as [|a k IHk r IHr]; cbn [children_of]; [intros []|]. rewrite ids_cons. simpl. rewrite in_app_iff.
  destruct (Nat.eqb_spec (nid a) p); eauto. intros [H|[H|H]]; [tauto| |].
  - destruct (IHk H) as [l ->]. eauto.
  - destruct (children_of p k); eauto.
Qed.

Lemma append_ctx up g F : wf_ids F -> is_up up F ->
  exists c, kids_of up F = Some c /\ Ctx up c (fapp c g) F (append up g F).
Proof.
  intros W H. destruct (is_up_kids _ _ H) as [c Ec]. exists c. split; auto.
  destruct (kids_of_ctx up F c W Ec (fapp c g)) as [F' C].
  replace (append up g F) with F'; auto. symmetry. apply (Ctx_at_kids _ C W). auto.
Qed.

Lemma append_kids up g F c : wf_ids F -> wf_ids (append up g F) -> kids_of up F = Some c ->
  kids_of up (append up g F) = Some (fapp c g).
Proof.
  intros W W' E. destruct (kids_of_ctx up F c W E (fapp c g)) as [F' C].
  assert (X : append up g F = F') by (apply (Ctx_at_kids _ C W); auto).
  rewrite X in *. destruct (Ctx_chain _ _ _ _ _ C (fapp c g)) as (F2 & C1 & C2).
  apply (Ctx_kids_of C1 W').
Qed.

Lemma append_wf up g F : wf_ids F -> is_up up F -> wf_ids g -> (forall i, In i (ids g) -> ~ In i (ids F)) ->
  wf_ids (append up g F).
Proof.
  intros W H Wg D. destruct (append_ctx up g F W H) as (c & Ec & C).
  apply (Ctx_wf C W).
  - assert (Wc := Ctx_wf_l C W). unfold wf_ids in *. rewrite ids_fapp. apply NoDup_app_iff. split; auto. split; auto.
    intros x Hx Hg. apply (D x Hg). apply (Ctx_incl _ C Hx).
  - intros x. rewrite ids_fapp, in_app_iff. intros [Hx|Hx]; auto.
Qed.

(** Appending below a node that was just appended. *)
Lemma append_below up x k F : ~ In (nid x) (ids F) ->
  append (Some (nid x)) k (append up (leaf x) F) =
  match up with
  | Some p => if existsb (Nat.eqb p) (ids F) then append up (Cons x k Nil) F else F
  | None => append up (Cons x k Nil) F
  end.
Proof.
  intros H. unfold append. destruct up as [p|]; simpl at_kids.
  - destruct (existsb (Nat.eqb p) (ids F)) eqn:E.
    + clear E. revert H. induction F as [|a k' IHk r IHr]; cbn [at_node]; auto. rewrite ids_cons. simpl. rewrite in_app_iff.
      intros H. destruct (Nat.eqb_spec (nid a) p).
      * cbn [at_node]. destruct (Nat.eqb_spec (nid a) (nid x)); [tauto|].
        unfold leaf. rewrite at_node_new by tauto. rewrite (at_node_notin (nid x) _ r) by tauto. auto.
      * cbn [at_node]. destruct (Nat.eqb_spec (nid a) (nid x)); [tauto|]. rewrite IHk, IHr by tauto. auto.
    + assert (Hp : ~ In p (ids F)).
      { intros Hp. assert (X : existsb (Nat.eqb p) (ids F) = true); [|congruence].
        apply existsb_exists. exists p. rewrite Nat.eqb_refl. auto. }
      rewrite (at_node_notin p) by auto. apply at_node_notin. auto.
  - unfold leaf. rewrite at_node_new by auto. auto.
Qed.

Lemma append_below_up up x k F : ~ In (nid x) (ids F) -> is_up up F ->
  append (Some (nid x)) k (append up (leaf x) F) = append up (Cons x k Nil) F.
Proof.
  intros H U. rewrite append_below by auto. destruct up as [p|]; auto.
  replace (existsb (Nat.eqb p) (ids F)) with true; auto. symmetry. apply existsb_exists.
  exists p. rewrite Nat.eqb_refl. auto.
Qed.

Lemma new_kids up x F : ~ In (nid x) (ids F) -> is_up up F ->
  kids_of (Some (nid x)) (append up (leaf x) F) = Some Nil.
Proof.
  intros H U. unfold append. assert (N : forall c, ~ In (nid x) (ids c) -> children_of (nid x) (fapp c (leaf x)) = Some Nil).
  { induction c as [|a k _ r IH]; cbn [fapp children_of leaf]; [rewrite Nat.eqb_refl; auto|]. rewrite ids_cons. simpl. rewrite in_app_iff.
    intros Hc. destruct (Nat.eqb_spec (nid a) (nid x)); [tauto|]. rewrite (children_of_notin (nid x) k) by tauto. apply IH. tauto. }
  destruct up as [p|]; cbn [at_kids kids_of]; [|apply N; auto]. specialize (U p eq_refl). revert H U.
  induction F as [|a k IHk r IHr]; cbn [at_node]; [intros _ []|]. rewrite ids_cons. simpl. rewrite !in_app_iff.
  intros H U. destruct (Nat.eqb_spec (nid a) p); cbn [children_of]; (destruct (Nat.eqb_spec (nid a) (nid x)); [tauto|]).
  - rewrite N by tauto. auto.
  - destruct (in_dec Nat.eq_dec p (ids k)) as [Hk|Hk].
    + rewrite IHk by tauto. auto.
    + rewrite (at_node_notin p _ k Hk). rewrite (children_of_notin (nid x) k) by tauto. apply IHr; tauto.
Qed.

(** Sorted trees: adding a node that is not before any sibling appends it. *)
Definition goes_last (o : ordering) (up : option nat) (F : forest node) (x : node) : Prop :=
  o <> [] -> has_values o (ndata x) /\ forall c, In c (kl up F) -> not_after o c x.

Definition sp_add (o : ordering) (up : option nat) (x : node) (F : forest node) : forest node :=
  match up with
  | Some p => sp_add_child (gt_opt o (ndata x)) p x F
  | None => sp_add_root (gt_opt o (ndata x)) x F
  end.

Lemma gt_false o d x : o <> [] -> has_values o d -> lexlt o d x = false -> sorted_after o d x = false.
Proof. intros No Hd H. rewrite sorted_after_values; auto. Qed.

Lemma add_last o up x F : wf_ids F -> is_up up F -> goes_last o up F x ->
  sp_add o up x F = append up (leaf x) F.
Proof.
  intros W U G. destruct (is_up_kids _ _ U) as [c Ec]. destruct (kids_of_ctx up F c W Ec (fapp c (leaf x))) as [F' C].
  assert (E2 : append up (leaf x) F = F') by (apply (Ctx_at_kids _ C W); auto).
  rewrite E2. unfold sp_add.
  assert (Hi : ins (match gt_opt o (ndata x) with None => PLast | Some g => PSorted g end) (leaf x) c = fapp c (leaf x)).
  { unfold gt_opt. destruct (sorts o) eqn:E; auto. simpl. apply sorts_true in E. destruct (G E) as [V N].
    apply ins_before_end. intros y Hy. apply gt_false; auto. apply N. rewrite (kl_some _ _ _ Ec). auto. }
  destruct up as [p|].
  - apply (Ctx_at_kids _ C W). auto.
  - simpl in Ec. injection Ec as <-. unfold sp_add_root. rewrite Hi. inversion C; auto.
Qed.

(** ** Loading *)

(** What is loaded after the siblings [L] is sorted, in sorted trees. *)
Definition follows (o : ordering) (L : list node) (g : forest node) : Prop :=
  o <> [] -> sorted_f o g /\ values_f o g /\ forall c x, In c L -> In x (roots g) -> not_after o c x.

Section Load.
Variables DB Obj : Type.
Variable add : DB -> option Obj -> node -> res (DB * Obj * option Obj).
Variable pk_of : Obj -> nat.
Variable o : ordering.
Variable St : DB -> forest node -> Prop.
Variable good : DB -> Obj -> Prop.
Variable roomy : forest node -> Prop.
Variable fails : exn -> Prop.

Definition ups (up : option Obj) : option nat := option_map pk_of up.
Definition good_up (db : DB) (up : option Obj) : Prop := forall p, up = Some p -> good db p.

Definition added_ok (db : DB) (up : option Obj) (x : node) (F : forest node) (db' : DB) (ob : Obj) (up' : option Obj) :=
  St db' (append (ups up) (leaf x) F) /\ good db' ob /\ pk_of ob = nid x /\ ups up' = ups up /\
  good_up db' up' /\ (forall p, good db p -> good db' p).

Hypothesis St_wf : forall db F, St db F -> wf_ids F.
Hypothesis good_in : forall db F ob, St db F -> good db ob -> In (pk_of ob) (ids F).
Hypothesis roomy_ext : forall F F', ext F F' -> roomy F' -> roomy F.
Hypothesis add_ok : forall db F up x, St db F -> ordered o F -> good_up db up -> ~ In (nid x) (ids F) ->
  goes_last o (ups up) F x ->
  (exists db' ob up', add db up x = Ok (db', ob, up') /\ added_ok db up x F db' ob up') \/
  (exists e, add db up x = Err e /\ fails e /\ ~ roomy (append (ups up) (leaf x) F)).

Lemma good_is_up db F up : St db F -> good_up db up -> is_up (ups up) F.
Proof. intros H G p E. destruct up as [q|]; [|discriminate]. injection E as <-. eapply good_in; eauto. Qed.

Lemma append_ordered up x F : wf_ids F -> is_up up F -> ordered o F -> goes_last o up F x ->
  ordered o (append up (leaf x) F).
Proof.
  intros W U O G. rewrite <- (add_last o up x F W U G).
  assert (V : o <> [] -> has_values o (ndata x)) by (intros No; apply G; auto).
  unfold sp_add. destruct up as [p|].
  - apply (sp_call_ordered o F (CAddChild p x) W O V).
  - apply (sp_call_ordered o F (CAddRoot x) W O V).
Qed.

Theorem load_ok g : forall db F up, St db F -> ordered o F -> good_up db up ->
  wf_ids g -> (forall i, In i (ids g) -> ~ In i (ids F)) -> follows o (kl (ups up) F) g ->
  (exists db', load add pk_of db up g = Ok (db', ids g) /\ St db' (append (ups up) g F) /\
     ordered o (append (ups up) g F) /\ (forall p, good db p -> good db' p)) \/
  (exists e, load add pk_of db up g = Err e /\ fails e /\ ~ roomy (append (ups up) g F)).
Proof.
  induction g as [|x k IHk r IHr]; intros db F up HS O G Wg D Fo.
  { left. exists db. cbn [load]. rewrite append_nil. auto. }
  assert (W := St_wf _ _ HS). assert (U := good_is_up _ _ _ HS G).
  apply wf_cons_inv in Wg. destruct Wg as (Xk & Xr & Wk & Wr & Dkr).
  assert (Dx : ~ In (nid x) (ids F)) by (apply D; rewrite ids_cons; simpl; auto).
  assert (Dk : forall i, In i (ids k) -> ~ In i (ids F)) by (intros; apply D; rewrite ids_cons; simpl; rewrite in_app_iff; auto).
  assert (Dr : forall i, In i (ids r) -> ~ In i (ids F)) by (intros; apply D; rewrite ids_cons; simpl; rewrite in_app_iff; auto).
  assert (Gl : goes_last o (ups up) F x).
  { intros No. destruct (Fo No) as (S1 & S2 & S3). apply values_cons in S2. split; [tauto|].
    intros c Hc. apply S3; simpl; auto. }
  assert (O1 := append_ordered _ _ _ W U O Gl).
  assert (Er : append (ups up) (Cons x k r) F = append (ups up) r (append (ups up) (Cons x k Nil) F)).
  { rewrite append_append. auto. }
  assert (Ek : append (Some (nid x)) k (append (ups up) (leaf x) F) = append (ups up) (Cons x k Nil) F)
    by (apply append_below_up; auto).
  cbn [load]. destruct (add_ok db F up x HS O G Dx Gl) as [(db1 & ob & up1 & E1 & S1 & G1 & Pk & Eu & Gu & Kp)|(e & E1 & Fe & Nr)];
    rewrite E1; cbn [bind].
  2:{ right. exists e. split; auto. split; auto. intros Hr. apply Nr. revert Hr. apply roomy_ext.
      apply append_ext. simpl. auto. }
  destruct (IHk db1 (append (ups up) (leaf x) F) (Some ob)) as [(db2 & E2 & S2 & O2 & Kp2)|(e & E2 & Fe & Nr)]; auto.
  { intros p E. injection E as <-. auto. }
  { intros i Hi Hin. apply ids_append in Hin. destruct Hin as [Hin|[<-|[]]]; [apply (Dk i)|apply Xk]; auto. }
  { intros No. destruct (Fo No) as (T1 & T2 & T3). apply values_cons in T2. split; [apply T1|]. split; [tauto|].
    simpl. rewrite Pk. rewrite (kl_some _ _ _ (new_kids (ups up) x F Dx U)). intros c y []. }
  - rewrite E2. cbn [bind]. cbn [ups option_map] in S2, O2. rewrite Pk, Ek in S2, O2.
    destruct (IHr db2 (append (ups up) (Cons x k Nil) F) up1) as [(db3 & E3 & S3 & O3 & Kp3)|(e & E3 & Fe & Nr)]; auto.
    { intros p E. apply Kp2. apply Gu. auto. }
    { intros i Hi Hin. apply ids_append in Hin. destruct Hin as [Hin|Hin]; [apply (Dr i); auto|].
      rewrite ids_cons in Hin. simpl in Hin. rewrite app_nil_r in Hin. destruct Hin as [<-|Hin]; [auto|].
      apply (Dkr i); auto. }
    { intros No. destruct (Fo No) as (T1 & T2 & T3). apply values_cons in T2. split; [apply T1|]. split; [tauto|].
      rewrite Eu. destruct (is_up_kids _ _ U) as [c Ec].
      rewrite (kl_some _ _ _ (append_kids _ (Cons x k Nil) _ _ W (St_wf _ _ S2) Ec)).
      rewrite roots_fapp. simpl. intros c0 y Hc Hy. apply in_app_iff in Hc. destruct Hc as [Hc|[<-|[]]].
      - apply T3; simpl; auto. rewrite (kl_some _ _ _ Ec). auto.
      - destruct T1 as (_ & _ & T1). rewrite Forall_forall in T1. auto. }
    + left. exists db3. rewrite E3. cbn [bind]. rewrite Eu in S3, O3. rewrite <- Er in S3, O3.
      split; [rewrite Pk, ids_cons; auto|]. split; auto.
    + right. exists e. rewrite E3. rewrite Eu, <- Er in Nr. auto.
  - right. exists e. rewrite E2. split; auto. split; auto. intros Hr. apply Nr. cbn [ups option_map]. rewrite Pk, Ek.
    revert Hr. apply roomy_ext. apply append_ext. simpl. auto using ext_refl.
Qed.
End Load.
