(** Histories of calls on ltree tables. *)
From Coq Require Import String List Arith ZArith Lia Bool Permutation Sorted.
From Verif Require Import Prelude Forest SpecFacts SpecSane SpecRun SpecKids PathTab PathMove CommonModel Order History
  SpecPerm LTModel LTLabel LTInv LTShift LTNewPath LTAdd LTMove LTReads.
Import ListNotations.

(** The same calls on two forests that differ in the order of siblings. *)
Lemma same_exec o F G c : wf_ids F -> wf_ids G -> same_kids F G -> fresh_call F c ->
  agree same_kids (sp_exec o F c) (sp_exec o G c).
Proof.
  intros WF WG H Fr. unfold fresh_call in Fr. destruct c as [x|p x|t p x|n t p|l]; cbn [sp_exec new_ids] in *.
  - cbn [agree sp_call]. apply same_add_root; auto. apply Fr. cbn; auto.
  - rewrite <- (same_has F G p H). destruct (has p F) eqn:E; cbn [agree]; auto. apply has_spec in E.
    apply same_add_child; auto. apply Fr. cbn; auto.
  - rewrite <- (same_has F G t H). destruct (has t F) eqn:E; cbn [agree]; auto. apply has_spec in E. cbn [sp_call].
    destruct (prepare_pos_add (sorts o) p) as [P|] eqn:Ep; cbn [bind agree]; auto. assert (HP := prepare_add_sib _ _ _ Ep).
    apply same_add_sibling; auto. apply Fr. cbn; auto.
  - rewrite <- (same_has F G n H), <- (same_has F G t H). destruct (has n F) eqn:E1; cbn [andb]; [|cbn; auto].
    destruct (has t F) eqn:E2; cbn [agree]; auto. apply has_spec in E1, E2. cbn [sp_call].
    destruct (prepare_pos_move (sorts o) p) as [P|] eqn:Ep; cbn [bind]; [|cbn; auto].
    rewrite <- (same_inside F G n t P WF WG H). destruct (insideb F n t P) eqn:Ei; cbn [agree]; auto.
    apply insideb_false in Ei. apply same_move; auto.
  - cbn [agree sp_call]. apply same_remove_all; auto.
Qed.

Section Hist.
Variable cfg : lt_cfg.
Notation stores := (stores cfg).
Notation o := (lt_order cfg).

(** The calls of the API; nodes are fetched by primary key first. *)
Definition lt_exec (db : lt_db) (c : call) : res lt_db :=
  match c with
  | CAddRoot x => do r <- add_root cfg db (new_of x); Ok (fst r)
  | CAddChild p x => do t <- get_by_pk (lt_rows db) p; do r <- add_child cfg db t (new_of x); Ok (fst r)
  | CAddSibling t p x => do t <- get_by_pk (lt_rows db) t; do r <- add_sibling cfg db t p (new_of x); Ok (fst r)
  | CMove n t p =>
      do n <- get_by_pk (lt_rows db) n; do t <- get_by_pk (lt_rows db) t; do r <- move cfg db n t p; Ok (fst r)
  | CDelete l => Ok (delete_queryset db (fun r => existsb (Nat.eqb (l_pk r)) l))
  end.

Definition lt_empty : lt_db := mkLTDB [] [].

(** The place of the call can be labelled without changing the order of siblings. *)
Definition calm_call (db : lt_db) (c : call) : Prop :=
  match c with
  | CAddRoot x => calm_root cfg (lt_rows db) (ndata x)
  | CAddChild p x => forall t, In t (lt_rows db) -> l_pk t = p -> calm_child cfg (lt_rows db) t (ndata x)
  | CAddSibling t p x => forall r P, In r (lt_rows db) -> l_pk r = t -> prepare_pos_add (sorts o) p = Ok P ->
      calm_pos cfg (lt_rows db) r P (ndata x)
  | CMove n t p => forall r r' P, In r (lt_rows db) -> In r' (lt_rows db) -> l_pk r = t -> l_pk r' = n ->
      prepare_pos_move (sorts o) p = Ok P -> calm_pos cfg (lt_rows db) r P (l_data r')
  | CDelete _ => True
  end.

(** The calls that fail on ltree only: a label has the greatest length, or all labels of
    one or two letters are in use in a sibling list. *)
Definition lt_full (db : lt_db) (out : res lt_db) : Prop :=
  (out = Err DataError /\ long_label cfg (lt_rows db)) \/
  (out = Err ValueError /\ exists q, letters_used (labels_below (lt_rows db) q)).

Lemma lookup db F k : stores (lt_rows db) F ->
  (has k F = true /\ exists r, In r (lt_rows db) /\ l_pk r = k /\ get_by_pk (lt_rows db) k = Ok r) \/
  (has k F = false /\ get_by_pk (lt_rows db) k = Err DoesNotExist).
Proof.
  intros (f & L & <- & W). assert (Pk := lay_pks cfg _ _ L).
  destruct (has k (kerase f)) eqn:E; [left|right]; split; auto.
  - apply has_spec in E. rewrite <- Pk in E. apply in_map_iff in E. destruct E as (r & <- & Hr).
    exists r. split; auto. split; auto. eapply get_by_pk_lay; eauto.
  - unfold get_by_pk. rewrite filter_none; auto. intros r Hr. apply Nat.eqb_neq. intros <-.
    apply has_false in E. apply E. rewrite <- Pk. apply in_map; auto.
Qed.

Section Step.
Hypothesis max2 : 2 <= label_max cfg.

Definition stepped (db : lt_db) (F : forest node) (c : call) : Prop :=
  (exists db' F' S, lt_exec db c = Ok db' /\ sp_exec o F c = Ok S /\ stores (lt_rows db') F' /\ same_kids S F' /\
     (calm_call db c -> F' = S)) \/
  (exists e, lt_exec db c = Err e /\ sp_exec o F c = Err e) \/
  (exists S, sp_exec o F c = Ok S /\ lt_full db (lt_exec db c)).

Lemma stepped_add db F c q x S calm out :
  adds cfg (lt_rows db) q x S calm out -> sp_exec o F c = Ok S -> lt_exec db c = (do r <- out; Ok (fst r)) ->
  (calm_call db c -> calm) -> stepped db F c.
Proof.
  intros A Es El Hc. unfold stepped. rewrite El, Es. destruct A as [(db' & r & F' & -> & _ & _ & _ & H1 & H2 & H3)|[[-> H]|[-> H]]].
  - left. exists db', F', S. cbn [bind fst]. auto 10.
  - right. right. exists S. split; auto. left. auto.
  - right. right. exists S. split; auto. right. eauto.
Qed.

Lemma call_step db F c : stores (lt_rows db) F -> fresh_call F c -> stepped db F c.
Proof.
  intros St Fr. unfold fresh_call in Fr. assert (Sst := St). destruct Sst as (f & _ & _ & WF).
  destruct c as [x|p x|t p x|n t p|l]; cbn [new_ids] in Fr.
  - eapply stepped_add; [apply (add_root_ok cfg max2 db F x St); apply Fr; cbn; auto|reflexivity|reflexivity|auto].
  - destruct (lookup db F p St) as [(Eh & r & Hr & Ek & Eg)|(Eh & Eg)].
    + eapply stepped_add; [apply (add_child_ok cfg max2 db F r x St Hr); apply Fr; cbn; auto| | |].
      * cbn [sp_exec]. rewrite Eh, <- Ek. reflexivity.
      * cbn [lt_exec]. rewrite Eg. reflexivity.
      * cbn [calm_call]. intros H. apply H; auto.
    + right. left. cbn [lt_exec sp_exec]. rewrite Eg, Eh. cbn. eauto.
  - destruct (lookup db F t St) as [(Eh & r & Hr & Ek & Eg)|(Eh & Eg)].
    2: { right. left. cbn [lt_exec sp_exec]. rewrite Eg, Eh. cbn. eauto. }
    destruct (prepare_pos_add (sorts o) p) as [P|e] eqn:Ep.
    + eapply stepped_add; [apply (add_sibling_ok cfg max2 db F r p P x St Hr); [apply Fr; cbn; auto|exact Ep]| | |].
      * cbn [sp_exec sp_call]. rewrite Eh, Ep, <- Ek. reflexivity.
      * cbn [lt_exec]. rewrite Eg. reflexivity.
      * cbn [calm_call]. intros H. apply H; auto.
    + right. left. cbn [lt_exec sp_exec]. rewrite Eg, Eh. unfold add_sibling, add_sibling_body.
      change (is_sorted cfg) with (sorts o). rewrite Ep. cbn. eauto.
  - destruct (lookup db F n St) as [(Ehn & rn & Hrn & Ekn & Egn)|(Ehn & Egn)].
    2: { right. left. cbn [lt_exec sp_exec]. rewrite Egn, Ehn. cbn. eauto. }
    destruct (lookup db F t St) as [(Eh & r & Hr & Ek & Eg)|(Eh & Eg)].
    2: { right. left. cbn [lt_exec sp_exec]. rewrite Egn, Ehn, Eh. cbn [bind andb]. rewrite Eg. cbn. eauto. }
    destruct (prepare_pos_move (sorts o) p) as [P|e] eqn:Ep.
    2: { right. left. cbn [lt_exec sp_exec]. rewrite Egn, Ehn, Eh. cbn [bind andb]. rewrite Eg. cbn [bind].
         unfold move. change (is_sorted cfg) with (sorts o). rewrite Ep. cbn. eauto. }
    assert (Ed : data_of n F = l_data rn).
    { destruct St as (f' & L & E' & _). destruct (lay_in cfg _ _ _ L Hrn) as (y & Hy & ->).
      apply (data_of_spec n F (snd y)); auto. rewrite <- E', kerase_preorder. apply in_map; auto. }
    destruct (move_ok cfg max2 db F rn r p P St Hrn Hr Ep) as [[Hi Em]|[Hi Mv]]; rewrite Ekn, Ek in *.
    + right. left. exists InvalidMoveToDescendant. cbn [lt_exec sp_exec]. rewrite Egn, Ehn, Eh. cbn [bind andb]. rewrite Eg. cbn [bind].
      rewrite Em, Ep. cbn [bind]. rewrite (proj2 (insideb_spec _ _ _ _) Hi). auto.
    + apply insideb_false in Hi.
      assert (Es : sp_exec o F (CMove n t p) = Ok (sp_move n t P (gt_of o (l_data rn)) F)).
      { cbn [sp_exec sp_call]. rewrite Ehn, Eh, Ep. cbn [bind andb]. rewrite Hi, Ed. reflexivity. }
      assert (El : lt_exec db (CMove n t p) = do r0 <- move cfg db rn r p; Ok (fst r0)).
      { cbn [lt_exec]. rewrite Egn. cbn [bind]. rewrite Eg. reflexivity. }
      unfold stepped. rewrite Es, El. destruct Mv as [(db' & r' & F' & -> & _ & _ & H1 & H2 & H3)|[[-> H]|[-> H]]].
      * left. exists db', F', (sp_move n t P (gt_of o (l_data rn)) F). cbn [bind fst]. do 4 (split; [auto; fail|]).
        cbn [calm_call]. intros Hc. apply H3. apply (Hc r rn); auto.
      * right. right. eexists. split; [reflexivity|]. left. auto.
      * right. right. eexists. split; [reflexivity|]. right. eauto.
  - left. cbn [lt_exec sp_exec sp_call].
    destruct (delete_queryset_ok cfg db F (fun r => existsb (Nat.eqb (l_pk r)) l) St) as [H _].
    assert (E : remove_all (fun i => existsb (fun r => (l_pk r =? i) && existsb (Nat.eqb (l_pk r)) l) (lt_rows db)) F =
      remove_all (fun i => existsb (Nat.eqb i) l) F).
    { apply remove_all_ext. intros i Hi. apply eq_true_iff_eq. rewrite existsb_exists. split.
      - intros (r & _ & Hr). apply andb_true_iff in Hr. destruct Hr as [Hr1 Hr2]. apply Nat.eqb_eq in Hr1. subst i. auto.
      - intros Hl. destruct (lookup db F i St) as [(_ & r & Hr & Ek & _)|(Eh & _)].
        + exists r. split; auto. rewrite Ek, Nat.eqb_refl. auto.
        + apply has_false in Eh. tauto. }
    rewrite E in H. do 3 eexists. split; [reflexivity|]. split; [reflexivity|]. split; [exact H|]. split; auto using same_refl.
Qed.

(** The relation between a table and a forest up to the order of siblings. *)
Definition stores_unordered (t : lt_table) (F : forest node) : Prop :=
  wf_ids F /\ exists G, stores t G /\ same_kids F G.

Theorem lt_step db F c : stores_unordered (lt_rows db) F -> fresh_call F c ->
  (exists db' F', lt_exec db c = Ok db' /\ sp_exec o F c = Ok F' /\ stores_unordered (lt_rows db') F') \/
  (exists e, lt_exec db c = Err e /\ sp_exec o F c = Err e) \/
  (exists F', sp_exec o F c = Ok F' /\ lt_full db (lt_exec db c)).
Proof.
  intros (WF & G & St & H) Fr. assert (WG : wf_ids G) by (destruct St as (? & _ & _ & ?); auto).
  assert (FrG : fresh_call G c) by (intros i Hi X; apply (Fr i Hi); apply (same_ids F G H); auto).
  assert (A := same_exec o F G c WF WG H Fr).
  destruct (call_step db G c St FrG) as [(db' & G' & S & E1 & E2 & St' & Sk & _)|[(e & E1 & E2)|(S & E2 & Fu)]];
    rewrite E2 in A; destruct (sp_exec o F c) as [F'|e'] eqn:E3; cbn [agree] in A; try tauto.
  - left. exists db', F'. split; auto. split; auto. split; [apply (sp_exec_ids o F c F'); auto|].
    exists G'. split; auto. eapply same_trans; eauto.
  - right. left. exists e. subst e'. auto.
  - right. right. eauto.
Qed.

(** Running calls in any order, with failed ones. *)
Theorem lt_history cs : forall db F, stores_unordered (lt_rows db) F ->
  NoDup (flat_map new_ids cs) -> (forall i, In i (flat_map new_ids cs) -> ~ In i (ids F)) ->
  let (db', ok) := run lt_exec db cs in stores_unordered (lt_rows db') (fold_left (sp_call o) ok F).
Proof.
  induction cs as [|c cs IH]; intros db F St ND Fr; [exact St|].
  cbn [flat_map] in ND, Fr. apply NoDup_app_iff in ND. destruct ND as (N1 & N2 & N3).
  assert (Fc : fresh_call F c) by (intros i Hi; apply Fr, in_app_iff; auto).
  cbn [run]. destruct (lt_step db F c St Fc) as [(db' & F' & E1 & E2 & St')|[(e & E1 & E2)|(S & E2 & Fu)]].
  - rewrite E1. assert (E3 := sp_exec_ok _ _ _ _ E2). specialize (IH db' F' St' N2).
    destruct (run lt_exec db' cs) as [db2 ok]. cbn [fold_left]. rewrite <- E3. apply IH.
    intros i Hi Hin. subst F'. apply sp_call_ids in Hin. destruct Hin as [Hin|Hin].
    + apply (Fr i); auto. apply in_app_iff; auto.
    + apply (N3 i); auto.
  - rewrite E1. apply IH; auto. intros i Hi. apply Fr, in_app_iff. auto.
  - destruct Fu as [[-> _]|[-> _]]; apply IH; auto; intros i Hi; apply Fr, in_app_iff; auto.
Qed.

(** Every call is made at a place that can be labelled without changing the order. *)
Fixpoint calm_run (db : lt_db) (cs : list call) : Prop :=
  match cs with
  | [] => True
  | c :: cs => calm_call db c /\ match lt_exec db c with Ok db' => calm_run db' cs | Err _ => calm_run db cs end
  end.

Theorem lt_history_calm cs : forall db F, stores (lt_rows db) F ->
  NoDup (flat_map new_ids cs) -> (forall i, In i (flat_map new_ids cs) -> ~ In i (ids F)) -> calm_run db cs ->
  let (db', ok) := run lt_exec db cs in stores (lt_rows db') (fold_left (sp_call o) ok F).
Proof.
  induction cs as [|c cs IH]; intros db F St ND Fr Ca; [exact St|].
  cbn [flat_map] in ND, Fr. apply NoDup_app_iff in ND. destruct ND as (N1 & N2 & N3).
  assert (Fc : fresh_call F c) by (intros i Hi; apply Fr, in_app_iff; auto).
  cbn [run calm_run] in *. destruct Ca as [Cc Ca].
  destruct (call_step db F c St Fc) as [(db' & F' & S & E1 & E2 & St' & _ & Hc)|[(e & E1 & E2)|(S & E2 & Fu)]].
  - rewrite E1 in *. assert (E3 := sp_exec_ok _ _ _ _ E2). rewrite (Hc Cc) in St'. specialize (IH db' S St' N2).
    destruct (run lt_exec db' cs) as [db2 ok]. cbn [fold_left]. rewrite <- E3. apply IH; auto.
    intros i Hi Hin. subst S. apply sp_call_ids in Hin. destruct Hin as [Hin|Hin].
    + apply (Fr i); auto. apply in_app_iff; auto.
    + apply (N3 i); auto.
  - rewrite E1 in *. apply IH; auto. intros i Hi. apply Fr, in_app_iff. auto.
  - destruct Fu as [[E _]|[E _]]; rewrite E in *; apply IH; auto; intros i Hi; apply Fr, in_app_iff; auto.
Qed.

End Step.

(** *** Places that are always calm *)

(** Appending next to the last sibling or child. *)
Lemma calm_last t f target d : lay cfg t f -> In target t -> calm_pos cfg t target LastSibling d.
Proof.
  intros L Ht. unfold calm_pos, calm_at. cbn [neighbours fst snd is_child_pos]. 
  destruct (get_last_sibling t target) as [r|] eqn:E; [right; intros (b & X & _); discriminate|]. exfalso.
  destruct (locate cfg _ _ _ L Ht) as (q & s & pa & l1 & a & c & l2 & -> & _ & H & _).
  assert (Hl : In ([s], a) (roots (fapp l1 (Cons ([s], a) c l2)))) by (rewrite roots_fapp, in_app_iff; cbn; auto).
  unfold get_last_sibling in E. rewrite (get_siblings_lay cfg _ _ _ _ _ _ _ _ _ L H Hl) in E.
  unfold last_opt, sibrows in E. destruct (rev (map _ _)) as [|y ys] eqn:Er; [|discriminate].
  apply (f_equal (@length _)) in Er. rewrite rev_length, map_length, roots_fapp, app_length in Er. cbn in Er. lia.
Qed.

Lemma calm_last_child t f target d : lay cfg t f -> In target t -> calm_pos cfg t target LastChild d.
Proof.
  intros L Ht. unfold calm_pos, calm_at. cbn [neighbours fst snd is_child_pos].
  destruct (get_last_child t target) as [r|] eqn:E.
  - right. intros (b & X & _). discriminate.
  - destruct (locate_kids cfg _ _ _ L Ht) as (p & a & l & -> & H & _). unfold get_last_child in E.
    rewrite (get_children_lay cfg _ _ _ _ _ _ _ _ L H) in E.
    assert (l = Nil).
    { destruct l as [|x k r]; auto. exfalso. unfold last_opt, sibrows in E. cbn [roots map rev] in E.
      match goal with H : hd_error (?u ++ _) = None |- _ => destruct u; discriminate H end. }
    subst l. assert (LB := labels_below_lay cfg _ _ _ _ _ _ _ L H). apply (appendable_in (labels Nil)); auto. exists 10. split; [lia|]. split; [intros; lia|intros x []].
Qed.

End Hist.

(** ** Raising the limit of the labels *)
Section Mono.
Variables (o : ordering) (m m' : nat).
Hypothesis le : m <= m'.
Notation c1 := (mkLTCfg o m).
Notation c2 := (mkLTCfg o m').

Lemma fits_mono p : fits_ltree c1 p = true -> fits_ltree c2 p = true.
Proof.
  unfold fits_ltree. rewrite !forallb_forall. intros H l Hl. specialize (H l Hl). cbn [label_max] in *.
  apply Nat.leb_le in H. apply Nat.leb_le. lia.
Qed.

Lemma update_mono t cond g t' : update_path c1 t cond g = Ok t' -> update_path c2 t cond g = Ok t'.
Proof.
  unfold update_path. destruct (forallb _ t) eqn:E; [|discriminate]. intros H.
  replace (forallb _ t) with true; auto. symmetry. rewrite forallb_forall in *. intros r Hr. specialize (E r Hr).
  apply orb_true_iff in E. destruct E as [E|E]; [rewrite E; auto|]. apply fits_mono in E. rewrite E. apply orb_true_r.
Qed.

Lemma save_mono t r t' : save_row c1 t r = Ok t' -> save_row c2 t r = Ok t'.
Proof.
  unfold save_row. destruct (fits_ltree c1 (l_path r)) eqn:E; cbn [negb]; [|discriminate]. rewrite (fits_mono _ E). auto.
Qed.

Lemma right_mono db s db' : move_subtree_right c1 db s = Ok db' -> move_subtree_right c2 db s = Ok db'.
Proof.
  unfold move_subtree_right. destruct (update_path c1 (lt_rows db) _ _) as [t1|] eqn:E1; [|discriminate]. cbn [bind].
  rewrite (update_mono _ _ _ _ E1). cbn [bind]. destruct (update_path c1 t1 _ _) as [t2|] eqn:E2; [|discriminate].
  rewrite (update_mono _ _ _ _ E2). auto.
Qed.

Lemma path_mono n : forall db q b a mv x, get_new_path c1 n db q b a mv = Ok x -> get_new_path c2 n db q b a mv = Ok x.
Proof.
  induction n as [|n IH]; intros db q b a mv x; cbn [get_new_path];
    (destruct (match falsy (label_of b) with Some _ => _ | None => false end); [discriminate|]);
    (destruct (generate_path q (label_of b) (label_of a) _) as [p|[]]; try discriminate; [auto|]);
    (destruct b as [s|]; [|discriminate]; cbn [opt_res bind]);
    (destruct (move_subtree_right c1 db s) as [db'|] eqn:E; [|discriminate]; rewrite (right_mono _ _ _ E); cbn [bind]);
    destruct (get_by_pk (lt_rows db') (l_pk s)); cbn [bind]; auto.
Qed.

Lemma body_mono db t p x r : add_sibling_body c1 db t p x = Ok r -> add_sibling_body c2 db t p x = Ok r.
Proof.
  unfold add_sibling_body. change (is_sorted c2) with (is_sorted c1). destruct (prepare_pos_add (is_sorted c1) p) as [P|]; [|discriminate].
  cbn [bind]. change (neighbours c2) with (neighbours c1). destruct (neighbours c1 (lt_rows db) t P (new_data x)) as [b a].
  destruct (get_new_path c1 2 db (parent_path (l_path t)) b a false) as [[[db1 np] mv]|] eqn:E; [|discriminate].
  rewrite (path_mono _ _ _ _ _ _ _ E). cbn [bind]. destruct (save_row c1 (lt_rows db1) _) as [t1|] eqn:E1; [|discriminate].
  rewrite (save_mono _ _ _ E1). auto.
Qed.

Lemma exec_mono db c db' : lt_exec c1 db c = Ok db' -> lt_exec c2 db c = Ok db'.
Proof.
  destruct c as [x|p x|t p x|n t p|l]; cbn [lt_exec]; auto.
  - unfold add_root. change (is_sorted c2) with (is_sorted c1).
    destruct (get_last_root_node (lt_rows db)) as [last|], (is_sorted c1).
    1: { destruct (add_sibling_body c1 db last _ _) as [[db1 r]|] eqn:E; [|discriminate]. rewrite (body_mono _ _ _ _ _ E). auto. }
    all: match goal with |- context [generate_path ?a ?b ?c ?d] => destruct (generate_path a b c d) as [np|]; [|discriminate] end;
      cbn [bind]; (destruct (save_row c1 (lt_rows db) _) as [t1|] eqn:E1; [|discriminate]); rewrite (save_mono _ _ _ E1); auto.
  - destruct (get_by_pk (lt_rows db) p) as [t|]; [|discriminate]. cbn [bind]. unfold add_child.
    destruct (get_by_pk (lt_rows db) (l_pk t)); [|discriminate]. cbn [bind]. change (is_sorted c2) with (is_sorted c1).
    destruct (is_sorted c1 && negb (is_leaf (lt_rows db) t)).
    + destruct (opt_res (get_last_child (lt_rows db) t) AttributeError) as [l|]; [|discriminate]. cbn [bind].
      destruct (add_sibling_body c1 db l _ _) as [[db1 r]|] eqn:E; [|discriminate]. rewrite (body_mono _ _ _ _ _ E). auto.
    + destruct (if is_leaf (lt_rows db) t then _ else _) as [np|]; [|discriminate]. cbn [bind].
      destruct (save_row c1 (lt_rows db) _) as [t1|] eqn:E1; [|discriminate]. rewrite (save_mono _ _ _ E1). auto.
  - destruct (get_by_pk (lt_rows db) t) as [r|]; [|discriminate]. cbn [bind]. unfold add_sibling.
    destruct (add_sibling_body c1 db r _ _) as [[db1 r1]|] eqn:E; [|discriminate]. rewrite (body_mono _ _ _ _ _ E). auto.
  - destruct (get_by_pk (lt_rows db) n) as [rn|]; [|discriminate]. cbn [bind].
    destruct (get_by_pk (lt_rows db) t) as [rt|]; [|discriminate]. cbn [bind]. unfold move. change (is_sorted c2) with (is_sorted c1).
    destruct (prepare_pos_move (is_sorted c1) p) as [P|]; [|discriminate]. cbn [bind]. cbn zeta.
    destruct (_ && (l_pk rt =? l_pk rn)); [discriminate|]. destruct (is_descendant_of rt rn); [discriminate|].
    change (neighbours c2) with (neighbours c1). destruct (neighbours c1 (lt_rows db) rt P (l_data rn)) as [b a].
    destruct (get_new_path c1 2 db _ b a false) as [[[db1 np] mv]|] eqn:E; [|discriminate].
    rewrite (path_mono _ _ _ _ _ _ _ E). cbn [bind]. destruct (if mv then _ else _) as [rn'|]; [|discriminate]. cbn [bind].
    destruct (update_path c1 (lt_rows db1) _ _) as [t1|] eqn:E1; [|discriminate]. rewrite (update_mono _ _ _ _ E1). cbn [bind].
    destruct (save_row c1 t1 _) as [t2|] eqn:E2; [|discriminate]. rewrite (save_mono _ _ _ E2). auto.
Qed.

Lemma stores_mono t F : stores c1 t F -> stores c2 t F.
Proof.
  intros (f & (W & V & P) & E & I). exists f. split; auto. split; auto. split; auto.
  unfold kvalid in *. eapply Forall_impl; [|exact V]. intros x Hx. eapply Forall_impl; [|exact Hx].
  intros l (H1 & H2 & H3). split; auto. split; auto. cbn [label_max] in *. lia.
Qed.

End Mono.

(** *** Few calls *)

(** All labels of one or two letters. *)
Definition all_letters : list label :=
  map (fun c => [c]) upper26 ++ flat_map (fun c => map (fun d => [c; d]) upper26) upper26.

Lemma all_letters_nodup : NoDup all_letters.
Proof.
  assert (E : nodup (list_eq_dec Nat.eq_dec) all_letters = all_letters) by (vm_compute; reflexivity).
  rewrite <- E. apply NoDup_nodup.
Qed.

Lemma all_letters_letters l : In l all_letters -> letters l.
Proof.
  unfold all_letters. rewrite in_app_iff, in_map_iff, in_flat_map. intros [(c & <- & H)|(c & H & H')].
  - apply upper_in in H. split; auto.
  - apply in_map_iff in H'. destruct H' as (d & <- & H'). apply upper_in in H, H'. split; auto.
Qed.

Lemma letters_many L : letters_used L -> 702 <= length L.
Proof.
  intros H. replace 702 with (length all_letters) by (vm_compute; reflexivity).
  apply NoDup_incl_length; [apply all_letters_nodup|]. intros l Hl. apply H, all_letters_letters. auto.
Qed.

Section Few.
Variable cfg : lt_cfg.
Notation o := (lt_order cfg).

Definition short (m : nat) (db : lt_db) : Prop := exists G, stores (mkLTCfg o m) (lt_rows db) G.

Lemma filter_le {A} (P : A -> bool) l : length (filter P l) <= length l.
Proof. induction l as [|x l IH]; cbn; auto. destruct (P x); cbn; lia. Qed.

(** A short run neither fills up labels nor sibling lists: the same calls succeed as on
    the forest. *)
Theorem lt_history_room cs : forall k db F, stores_unordered (mkLTCfg o (S k)) (lt_rows db) F -> 1 <= S k ->
  length (ids F) <= k -> k + length cs < label_max cfg -> k + length cs <= 702 ->
  NoDup (flat_map new_ids cs) -> (forall i, In i (flat_map new_ids cs) -> ~ In i (ids F)) ->
  let (db', done) := run (lt_exec cfg) db cs in
  let (F', done') := run (sp_exec o) F cs in
  done = done' /\ stores_unordered cfg (lt_rows db') F'.
Proof.
  induction cs as [|c cs IH]; intros k db F St K1 Nk Hk H702 ND Fr.
  - cbn. split; auto. destruct St as (W & G & St & H). split; auto. exists G. split; auto.
    destruct cfg as [oo mm]. cbn in *. apply (stores_mono oo (S k) mm); auto. lia.
  - cbn [flat_map] in ND, Fr. apply NoDup_app_iff in ND. destruct ND as (N1 & N2 & N3). cbn [length] in Hk, H702.
    assert (Fc : fresh_call F c) by (intros i Hi; apply Fr, in_app_iff; auto).
    set (c2 := mkLTCfg o (S (S k))).
    assert (St2 : stores_unordered c2 (lt_rows db) F).
    { destruct St as (W & G & St & H). split; auto. exists G. split; auto. apply (stores_mono o (S k) (S (S k))); auto. }
    assert (Ec : cfg = mkLTCfg o (label_max cfg)) by (destruct cfg; auto).
    assert (Mono : forall db', lt_exec c2 db c = Ok db' -> lt_exec cfg db c = Ok db').
    { intros db' E. rewrite Ec. apply (exec_mono o (S (S k)) (label_max cfg)); auto. lia. }
    assert (max2 : 2 <= label_max c2) by (cbn; lia).
    assert (NoFull : forall out, ~ lt_full c2 db out).
    { intros out. destruct St as (W & G & (f & L & EG & WG) & H). intros [[_ (r & s & Hr & Hs & Hl)]|[_ (q & Hq)]].
      - destruct (lay_in _ _ _ _ L Hr) as (x & Hx & ->). destruct L as (_ & V & _). assert (Vp := kvalid_path _ _ _ V Hx).
        rewrite Forall_forall in Vp. destruct (Vp s Hs) as (_ & _ & Hs3). cbn in Hs3, Hl. lia.
      - apply letters_many in Hq. unfold labels_below in Hq. rewrite map_length in Hq.
        assert (Hf := filter_le (fun r => ppre q (l_path r) && (length (l_path r) =? length q + 1)) (lt_rows db)).
        assert (Pk := Permutation_length (lay_pks _ _ _ L)). rewrite map_length, EG in Pk.
        assert (NoDup (ids G)) by auto. assert (HL : length (ids G) <= length (ids F)).
        { apply NoDup_incl_length; auto. intros i Hi. apply (same_ids F G H). auto. }
        lia. }
    assert (Fr' : forall i, In i (flat_map new_ids cs) -> ~ In i (ids F)) by (intros i Hi; apply Fr, in_app_iff; auto).
    cbn [run]. destruct (lt_step c2 max2 db F c St2 Fc) as [(db' & F' & E1 & E2 & St')|[(e & E1 & E2)|(S0 & E2 & Fu)]].
    + cbn [c2 lt_order] in E2. rewrite (Mono _ E1), E2.
      assert (WF : wf_ids F) by apply St. destruct (sp_exec_ids o F c F' WF Fc E2) as [WF' PI].
      assert (HL : length (ids F') <= S k).
      { destruct c as [x|p x|t p x|n t p|l]; cbn [new_ids] in PI;
          try (apply Permutation_length in PI; rewrite app_length in PI; cbn [length] in PI; lia).
        assert (X := NoDup_incl_length WF' PI). lia. }
      assert (Fr2 : forall i, In i (flat_map new_ids cs) -> ~ In i (ids F')).
      { intros i Hi Hin. apply sp_exec_ok in E2. subst F'. apply sp_call_ids in Hin. destruct Hin as [Hin|Hin]; [apply (Fr' i); auto|apply (N3 i); auto]. }
      specialize (IH (S k) db' F' St' ltac:(lia) HL ltac:(lia) ltac:(lia) N2 Fr2).
      destruct (run (lt_exec cfg) db' cs) as [db2 ok], (run (sp_exec o) F' cs) as [F2 ok2]. destruct IH as [-> IH]. auto.
    + cbn [c2 lt_order] in E2. rewrite E2.
      (* errors do not depend on the limit *)
      destruct (lt_exec cfg db c) as [db'|e'] eqn:E3.
      * exfalso. assert (St3 : stores_unordered cfg (lt_rows db) F).
        { destruct St as (W & G & St & H). split; auto. exists G. split; auto. rewrite Ec. apply (stores_mono o (S k) (label_max cfg)); auto. lia. }
        destruct (lt_step cfg ltac:(lia) db F c St3 Fc) as [(d & F' & X1 & X2 & _)|[(e2 & X1 & X2)|(S0 & X2 & [[X _]|[X _]])]]; congruence.
      * apply (IH k); auto; try lia.
    + exfalso. apply (NoFull _ Fu).
Qed.

End Few.
