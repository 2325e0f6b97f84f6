(** load_bulk: the specification for every ordering, and the nested sets and adjacency lists. *)
From Coq Require Import String List Arith Lia Bool ZArith Permutation.
From Verif Require Import Prelude Forest SpecFacts SpecSane CommonModel Order History SpecKids SpecRun
  BulkModel BulkFacts BulkTrees.
From Verif Require NSModel NSInv NSReads NSAdd PropsNS ALModel ALInv ALReads ALOk PropsAL.
Import ListNotations.
Local Open Scope nat_scope.

(** ** Specification *)

(** The nodes of [g] added one by one, in preorder, below [up]. *)
Fixpoint sp_load (o : ordering) (up : option nat) (g F : forest node) : forest node :=
  match g with
  | Nil => F
  | Cons x k r => sp_load o up r (sp_load o (Some (nid x)) k (sp_add o up x F))
  end.

(** What the dictionaries say: [g] has their data and, with keep_ids, their primary keys;
    without keep_ids the database numbers the rows in preorder. *)
Definition describes (keep_ids : bool) (next : nat -> nat) (data : forest item) (g : forest node) : Prop :=
  fmap it_data data = fmap ndata g /\
  if keep_ids then fmap it_pk data = fmap (fun x => Some (nid x)) g
  else ids g = map next (seq 0 (size g)).

Lemma prepare_keep next : forall data g n, fmap it_data data = fmap ndata g ->
  fmap it_pk data = fmap (fun x => Some (nid x)) g -> exists m, prepare true next n data = Ok (g, m).
Proof.
  induction data as [|it k IHk r IHr]; intros [|x gk gr] n E1 E2; try discriminate; [eexists; reflexivity|].
  cbn [fmap] in E1, E2. injection E1 as D1 D2 D3. injection E2 as P1 P2 P3.
  cbn [prepare]. unfold item_pk. rewrite P1. cbn [bind].
  destruct (IHk gk (S n) D2 P2) as (m & ->). cbn [bind]. destruct (IHr gr m D3 P3) as (m' & ->). cbn [bind].
  eexists. rewrite D1. destruct x; reflexivity.
Qed.

Lemma size_ids (g : forest node) : length (ids g) = size g.
Proof. unfold ids. rewrite map_length. apply size_preorder. Qed.

Lemma prepare_next next : forall data g n, fmap it_data data = fmap ndata g ->
  ids g = map next (seq n (size g)) -> prepare false next n data = Ok (g, n + size g).
Proof.
  induction data as [|it k IHk r IHr]; intros [|x gk gr] n E1 E2; try discriminate.
  { cbn. rewrite Nat.add_0_r. auto. }
  cbn [fmap] in E1. injection E1 as D1 D2 D3. cbn [size] in *. rewrite ids_cons in E2. cbn [seq map] in E2.
  injection E2 as P E2. rewrite seq_app, map_app in E2.
  assert (L : length (ids gk) = length (map next (seq (S n) (size gk)))) by (rewrite map_length, seq_length; apply size_ids).
  assert (E3 : ids gk = map next (seq (S n) (size gk)) /\ ids gr = map next (seq (S n + size gk) (size gr))).
  { split.
    - apply (f_equal (firstn (length (ids gk)))) in E2. rewrite firstn_app, Nat.sub_diag, firstn_all, app_nil_r in E2.
      rewrite L, firstn_app, Nat.sub_diag, firstn_all, app_nil_r in E2. auto.
    - apply (f_equal (skipn (length (ids gk)))) in E2. rewrite skipn_app, Nat.sub_diag, skipn_all in E2.
      rewrite L, skipn_app, Nat.sub_diag, skipn_all in E2. auto. }
  destruct E3 as (Ek & Er). cbn [prepare item_pk bind]. rewrite (IHk gk (S n) D2 Ek). cbn [bind].
  rewrite (IHr gr _ D3 Er). cbn [bind]. rewrite D1, <- P. f_equal. f_equal; [destruct x; auto|lia].
Qed.

Lemma prepare_ok keep_ids next data g : describes keep_ids next data g ->
  exists m, prepare keep_ids next 0 data = Ok (g, m).
Proof.
  intros (H1 & H2). destruct keep_ids; [apply prepare_keep; auto|]. eexists. apply prepare_next; auto.
Qed.

Lemma describes_dumped next g : describes true next (dumped true g) g.
Proof. split; unfold dumped; induction g; cbn; auto; f_equal; auto. Qed.

(** Missing primary keys are a KeyError. *)
Lemma prepare_missing next : forall data n, (exists it, In it (preorder data) /\ it_pk it = None) ->
  prepare true next n data = Err KeyError.
Proof.
  induction data as [|a k IHk r IHr]; intros n (it & Hi & E); [destruct Hi|]. cbn [preorder In] in Hi. rewrite in_app_iff in Hi.
  cbn [prepare]. unfold item_pk. destruct (it_pk a) as [p|] eqn:Ea; auto. cbn [bind].
  assert (Dec : (exists it, In it (preorder k) /\ it_pk it = None) \/ (forall it, In it (preorder k) -> it_pk it <> None)).
  { clear. induction (preorder k) as [|x l [(y & H & E)|H]]; [right; intros ? []|left; exists y; cbn; auto|].
    destruct (it_pk x) eqn:Ex; [right; intros y [<-|Hy]; [congruence|auto]|left; exists x; cbn; auto]. }
  destruct Dec as [H|H]; [rewrite IHk; auto|].
  destruct Hi as [<-|[Hi|Hi]]; [congruence|exfalso; eapply H; eauto|].
  destruct (prepare true next (S n) k) as [[k' m]|e] eqn:Ek.
  - cbn [bind]. rewrite IHr; eauto.
  - cbn [bind]. f_equal. clear - Ek. generalize dependent (S n). clear n. revert e. induction k as [|a k IHk r IHr]; intros e n; cbn [prepare]; [discriminate|].
    unfold item_pk. destruct (it_pk a); cbn [bind]; [|congruence].
    destruct (prepare true next _ k) as [[k' m]|e'] eqn:E1; cbn [bind]; [|intros H; injection H as <-; eauto].
    destruct (prepare true next m r) as [[r' m']|e'] eqn:E2; cbn [bind]; [discriminate|]. intros H; injection H as <-; eauto.
Qed.

(** ** Adding in order *)
Lemma sp_add_facts o up x F : wf_ids F -> is_up up F -> ordered o F -> ~ In (nid x) (ids F) ->
  (o <> [] -> has_values o (ndata x)) ->
  wf_ids (sp_add o up x F) /\ ordered o (sp_add o up x F) /\
  (forall i, In i (ids (sp_add o up x F)) <-> In i (ids F) \/ i = nid x).
Proof.
  intros W U O Fr V. set (c := match up with Some p => CAddChild p x | None => CAddRoot x end).
  assert (E : sp_exec o F c = Ok (sp_add o up x F)).
  { unfold c, sp_add. destruct up as [p|]; auto. cbn [sp_exec]. rewrite (proj2 (has_spec p F)); auto. }
  assert (Frc : fresh_call F c) by (unfold c; destruct up; intros i [<-|[]]; auto).
  assert (Vc : o <> [] -> call_values o c) by (unfold c; destruct up; cbn; auto).
  destruct (ALOk.next_state o F c _ W O Frc Vc E) as (W' & O'). split; auto. split; auto.
  assert (P : Permutation (ids (sp_add o up x F)) (nid x :: ids F)).
  { destruct (sp_exec_ids o F c _ W Frc E) as (_ & P). unfold c in P. destruct up; exact P. }
  intros i. split.
  - intros H. apply (Permutation_in _ P) in H. destruct H as [<-|H]; auto.
  - intros H. apply (Permutation_in _ (Permutation_sym P)). cbn. destruct H as [H| ->]; auto.
Qed.

Lemma sp_load_follows o g : forall up F, wf_ids F -> is_up up F -> ordered o F -> wf_ids g ->
  (forall i, In i (ids g) -> ~ In i (ids F)) -> follows o (kl up F) g -> sp_load o up g F = append up g F.
Proof.
  intros up F W U O Wg D Fo.
  (* an instance of the loader without a database *)
  set (add := fun (F : forest node) (up : option nat) (x : node) => Ok (sp_add o up x F, nid x, up) : res (forest node * nat * option nat)).
  assert (E : forall g F up, load add (fun i => i) F up g = Ok (sp_load o up g F, ids g)).
  { clear. induction g as [|x k IHk r IHr]; intros F up; auto. cbn [load sp_load]. unfold add at 1. cbn [bind].
    rewrite IHk. cbn [bind]. rewrite IHr. cbn [bind]. rewrite ids_cons. auto. }
  destruct (load_ok (forest node) nat add (fun i => i) o (fun H G => H = G /\ wf_ids G) (fun H p => In p (ids H)) (fun _ => True)
    (fun _ => False)) with (g := g) (db := F) (F := F) (up := up) as [(db' & E1 & (E2 & _) & _)|(e & _ & [] & _)]; auto.
  - intros ? ? (_ & ?). auto.
  - intros db G ob (-> & _). auto.
  - clear. intros db G up x (-> & W) O U Fr G1. left. exists (sp_add o up x G), (nid x), up. split; auto.
    assert (Eu : ups nat (fun i => i) up = up) by (destruct up; auto). unfold added_ok. rewrite Eu in *.
    assert (U' : is_up up G) by (intros p E; apply U; auto).
    assert (EA := add_last o up x G W U' G1).
    destruct (sp_add_facts o up x G W U' O Fr) as (W' & O' & I); [intros No; apply G1; auto|].
    split; [rewrite EA in *; auto|]. split; [apply I; auto|]. split; auto. split; auto.
    split; [intros p E; apply I; left; apply U; auto|]. intros p Hp. apply I. auto.
  - assert (Eu : ups nat (fun i => i) up = up) by (destruct up; auto). rewrite Eu. auto.
  - assert (Eu : ups nat (fun i => i) up = up) by (destruct up; auto). rewrite Eu in E2. rewrite E in E1. congruence.
Qed.

Section Any.
Variables DB Obj : Type.
Variable add : DB -> option Obj -> node -> res (DB * Obj * option Obj).
Variable pk_of : Obj -> nat.
Variable o : ordering.
Variable St : DB -> forest node -> Prop.
Variable fails : exn -> Prop.
Notation ups := (ups Obj pk_of).

Hypothesis St_wf : forall db F, St db F -> wf_ids F.
Hypothesis add_any : forall db F up x, St db F -> ordered o F -> is_up (ups up) F -> ~ In (nid x) (ids F) ->
  (o <> [] -> has_values o (ndata x)) ->
  (exists db' ob up', add db up x = Ok (db', ob, up') /\ St db' (sp_add o (ups up) x F) /\ pk_of ob = nid x /\ ups up' = ups up) \/
  (exists e, add db up x = Err e /\ fails e).

Theorem load_any g : forall db F up, St db F -> ordered o F -> is_up (ups up) F ->
  wf_ids g -> (forall i, In i (ids g) -> ~ In i (ids F)) -> (o <> [] -> values_f o g) ->
  (exists db', load add pk_of db up g = Ok (db', ids g) /\ St db' (sp_load o (ups up) g F) /\
     ordered o (sp_load o (ups up) g F) /\
     (forall i, In i (ids (sp_load o (ups up) g F)) <-> In i (ids F) \/ In i (ids g))) \/
  (exists e, load add pk_of db up g = Err e /\ fails e).
Proof.
  induction g as [|x k IHk r IHr]; intros db F up S O U Wg D V.
  { left. exists db. cbn [load sp_load]. split; auto. split; auto. split; auto. intros i. split; auto. intros [H|[]]; auto. }
  apply wf_cons_inv in Wg. destruct Wg as (Xk & Xr & Wk & Wr & Dkr).
  assert (Dx : ~ In (nid x) (ids F)) by (apply D; rewrite ids_cons; simpl; auto).
  assert (Vx : o <> [] -> has_values o (ndata x) /\ values_f o k /\ values_f o r) by (intros No; apply values_cons; auto).
  destruct (sp_add_facts o (ups up) x F (St_wf _ _ S) U O Dx) as (W1 & O1 & I1); [intros; apply Vx; auto|].
  cbn [load sp_load]. destruct (add_any db F up x S O U Dx) as [(db1 & ob & up1 & -> & S1 & Pk & Eu)|(e & -> & Fe)];
    [intros; apply Vx; auto| |right; exists e; auto]. cbn [bind].
  destruct (IHk db1 (sp_add o (ups up) x F) (Some ob)) as [(db2 & -> & S2 & O2 & I2)|(e & -> & Fe)]; auto.
  { intros p E. injection E as <-. apply I1. auto. }
  { intros i Hi Hin. apply I1 in Hin. destruct Hin as [Hin| ->]; [|tauto]. apply (D i); auto. rewrite ids_cons. simpl. rewrite in_app_iff. auto. }
  { intros; apply Vx; auto. }
  2:{ right. exists e. auto. }
  cbn [bind]. cbn [BulkFacts.ups option_map] in S2, O2, I2. rewrite Pk in S2, O2, I2.
  destruct (IHr db2 (sp_load o (Some (nid x)) k (sp_add o (ups up) x F)) up1) as [(db3 & -> & S3 & O3 & I3)|(e & -> & Fe)]; auto.
  { rewrite Eu. intros p E. apply I2. left. apply I1. left. auto. }
  { intros i Hi Hin. apply I2 in Hin. destruct Hin as [Hin|Hin]; [|apply (Dkr i); auto].
    apply I1 in Hin. destruct Hin as [Hin| ->]; [|tauto]. apply (D i); auto. rewrite ids_cons. simpl. rewrite in_app_iff. auto. }
  { intros; apply Vx; auto. }
  2:{ right. exists e. auto. }
  cbn [bind]. left. exists db3. rewrite Eu in S3, O3, I3. split; [rewrite Pk, ids_cons; auto|]. split; auto. split; auto.
  intros i. rewrite I3, I2, I1, ids_cons. simpl. rewrite in_app_iff.
  assert (E : i = nid x <-> nid x = i) by (split; auto). tauto.
Qed.
End Any.

(** ** Nested sets *)
Section NS.
Import NSModel NSInv NSReads NSAdd.

Lemma ns_add_any o db F up x : stores (ns_rows db) F -> is_up (ups nsrow n_pk up) F -> ~ In (nid x) (ids F) ->
  exists db' ob up', ns_add o db up x = Ok (db', ob, up') /\ stores (ns_rows db') (sp_add o (ups nsrow n_pk up) x F) /\
    n_pk ob = nid x /\ ups nsrow n_pk up' = ups nsrow n_pk up.
Proof.
  intros S U Fr. unfold ns_add, sp_add. destruct up as [p|]; cbn [ups option_map].
  - destruct (add_child_ok o db F p x S (U _ eq_refl) Fr) as (db' & r & p' & E & _ & Er & S' & _).
    rewrite E. cbn [bind]. exists db', r, (Some p'). split; auto. split; auto. split; [rewrite <- Er; auto|].
    cbn. f_equal. unfold add_child in E. destruct (get_by_pk _ _); [|discriminate]. cbn [bind] in E.
    destruct (negb (is_leaf _)).
    + destruct (get_last_child _ _); [|discriminate]. destruct (add_sibling _ _ _ _ _) as [[]|]; [|discriminate].
      cbn [bind] in E. injection E as _ _ <-. auto.
    + injection E as _ _ <-. auto.
  - destruct (add_root_ok o db F x S Fr) as (db' & r & E & _ & Er & S').
    rewrite E. cbn [bind]. exists db', r, None. split; auto. split; auto. split; [rewrite <- Er; auto|auto].
Qed.

Theorem ns_load_ok o next keep_ids db F data parent g : stores (ns_rows db) F -> ordered o F ->
  (forall p, parent = Some p -> In (n_pk p) (ids F)) -> describes keep_ids next data g ->
  wf_ids g -> (forall i, In i (ids g) -> ~ In i (ids F)) -> (o <> [] -> values_f o g) ->
  let up := option_map n_pk parent in
  exists db', ns_load_bulk o next keep_ids db data parent = Ok (db', ids g) /\
    stores (ns_rows db') (sp_load o up g F) /\ ordered o (sp_load o up g F).
Proof.
  intros S O Hp De Wg D V up. destruct (prepare_ok _ _ _ _ De) as (m & E). unfold ns_load_bulk. rewrite E. cbn [bind].
  destruct (load_any ns_db nsrow (ns_add o) n_pk o (fun db F => stores (ns_rows db) F) (fun _ => False)) with (g := g) (db := db) (F := F) (up := parent)
    as [(db' & E1 & S1 & O1 & _)|(e & _ & [])]; auto.
  - intros. eapply PropsNS.stores_wf; eauto.
  - intros. left. apply ns_add_any; auto.
  - intros p Ep. destruct parent as [q|]; [|discriminate]. injection Ep as <-. auto.
  - exists db'. auto.
Qed.
End NS.

(** ** Adjacency lists *)
Section AL.
Import ALModel ALInv ALReads ALOk.

Lemma al_add_any o t F up x : stores o t F -> is_up (ups alobj (fun n => a_pk (o_row n)) up) F -> ~ In (nid x) (ids F) ->
  (o <> [] -> has_values o (ndata x)) ->
  exists t' ob up', al_add o t up x = Ok (t', ob, up') /\ stores o t' (sp_add o (ups alobj (fun n => a_pk (o_row n)) up) x F) /\
    a_pk (o_row ob) = nid x /\ ups alobj (fun n => a_pk (o_row n)) up' = ups alobj (fun n => a_pk (o_row n)) up.
Proof.
  intros S U Fr V. unfold al_add, sp_add. destruct up as [p|]; cbn [ups option_map].
  - destruct (add_child_ok o t F p x S (U _ eq_refl) Fr V) as (t' & r & E & S' & _ & Er & _).
    rewrite E. cbn [bind]. exists t', r, (Some p). split; auto. split; auto. split; [rewrite <- Er; auto|auto].
  - destruct (add_root_ok o t F x S Fr V) as (t' & r & E & S' & _ & Er & _).
    rewrite E. cbn [bind]. exists t', r, None. split; auto. split; auto. split; [rewrite <- Er; auto|auto].
Qed.

Theorem al_load_ok o next keep_ids t F data parent g : stores o t F ->
  (forall p, parent = Some p -> In (a_pk (o_row p)) (ids F)) -> describes keep_ids next data g ->
  wf_ids g -> (forall i, In i (ids g) -> ~ In i (ids F)) -> (o <> [] -> values_f o g) ->
  let up := option_map (fun p => a_pk (o_row p)) parent in
  exists t', al_load_bulk o next keep_ids t data parent = Ok (t', ids g) /\ stores o t' (sp_load o up g F).
Proof.
  intros S Hp De Wg D V up. destruct (prepare_ok _ _ _ _ De) as (m & E). unfold al_load_bulk. rewrite E. cbn [bind].
  destruct (load_any (list alrow) alobj (al_add o) (fun n => a_pk (o_row n)) o (fun t F => stores o t F) (fun _ => False)) with (g := g) (db := t) (F := F) (up := parent)
    as [(db' & E1 & S1 & O1 & _)|(e & _ & [])]; auto.
  - intros. eapply PropsAL.stores_wf; eauto.
  - intros. left. apply al_add_any; auto.
  - apply S.
  - intros p Ep. destruct parent as [q|]; [|discriminate]. injection Ep as <-. auto.
  - exists db'. auto.
Qed.
End AL.
