(** load_bulk for ltree, without node_order_by. *)
From Coq Require Import String List Arith Lia Bool ZArith Permutation.
From Verif Require Import Prelude Forest SpecFacts SpecSane CommonModel Order History SpecKids SpecRun SpecPerm
  BulkModel BulkFacts BulkTrees BulkLoad LTModel LTInv LTNewPath LTAdd LTHist LTCalm.
Import ListNotations.
Local Open Scope nat_scope.

Section LT.
Variable cfg : lt_cfg.
Hypothesis max2 : 2 <= label_max cfg.
Hypothesis unsorted : lt_order cfg = [].
Notation stores := (stores cfg).
Notation ups := (ups ltrow l_pk).

Lemma not_sorted : is_sorted cfg = false.
Proof. unfold is_sorted. rewrite unsorted. auto. Qed.

Lemma save_new t r t' : save_row cfg t r = Ok t' -> ~ In (l_pk r) (map l_pk t) -> t' = r :: t.
Proof.
  unfold save_row. destruct (negb _); [discriminate|]. destruct (existsb _ t) eqn:E; [|congruence].
  intros _ H. exfalso. apply H. apply existsb_exists in E. destruct E as (y & Hy & E). apply Nat.eqb_eq in E. rewrite <- E. apply in_map. auto.
Qed.

Lemma commit_eq db db' : commit db = Ok db' -> db' = db.
Proof. unfold commit. destruct (unique_paths _); congruence. Qed.

(** The call inserts one row. *)
Lemma lt_add_rows db up x db' ob up' : ~ In (nid x) (map l_pk (lt_rows db)) -> lt_add cfg db up x = Ok (db', ob, up') ->
  lt_rows db' = ob :: lt_rows db /\ up' = up.
Proof.
  intros Fr. unfold lt_add. assert (Ns := not_sorted).
  assert (X : forall np, (do t <- save_row cfg (lt_rows db) (mkLT (nid x) np (ndata x)); Ok (mkLTDB t (lt_sig db), mkLT (nid x) np (ndata x))) = Ok (db', ob) ->
    lt_rows db' = ob :: lt_rows db).
  { intros np. destruct (save_row _ _ _) as [t|] eqn:E; [|discriminate]. cbn [bind]. intros H. injection H as <- <-.
    cbn [lt_rows]. apply save_new in E; auto. }
  destruct up as [p|].
  - unfold add_child. destruct (get_by_pk _ _); [|discriminate]. cbn [bind]. rewrite Ns. cbn [andb new_pk new_data].
    match goal with |- context [@bind lpath _ ?e _] => destruct e as [np|]; [|discriminate] end. cbn [bind].
    specialize (X np). destruct (do t <- save_row _ _ _; _) as [[d r]|] eqn:E; [|discriminate]. cbn [bind].
    destruct (commit d) as [d'|] eqn:Ec; [|discriminate]. apply commit_eq in Ec. subst d'. cbn [bind].
    intros H. injection H as -> -> <-. auto.
  - unfold add_root. rewrite Ns.
    assert (Y : (do '(db', r) <- (do np <- (match get_last_root_node (lt_rows db) with
                  | Some _ => generate_path [] None None (map l_path (get_root_nodes (lt_rows db)))
                  | None => generate_path [] None None []
                  end);
        do t <- save_row cfg (lt_rows db) (mkLT (nid x) np (ndata x)); Ok (mkLTDB t (lt_sig db), mkLT (nid x) np (ndata x)));
        do db'' <- commit db'; Ok (db'', r)) = Ok (db', ob) -> lt_rows db' = ob :: lt_rows db).
    { match goal with |- context [@bind lpath _ ?e _] => destruct e as [np|]; [|discriminate] end. cbn [bind].
      specialize (X np). destruct (do t <- save_row _ _ _; _) as [[d r]|] eqn:E; [|discriminate]. cbn [bind].
      destruct (commit d) as [d'|] eqn:Ec; [|discriminate]. apply commit_eq in Ec. subst d'. cbn [bind].
      intros H. injection H as -> ->. auto. }
    destruct (get_last_root_node (lt_rows db)); cbn [new_pk new_data];
      (destruct (do '(_, _) <- _; _) as [[d r]|] eqn:E; [|discriminate]; cbn [bind]; intros H; injection H as -> -> <-; split; auto).
Qed.

Lemma stores_pks t F i : stores t F -> (In i (map l_pk t) <-> In i (ids F)).
Proof.
  intros (f & L & <- & _). assert (P := lay_pks cfg _ _ L). split; intros H; [apply (Permutation_in _ P)|apply (Permutation_in _ (Permutation_sym P))]; auto.
Qed.

Lemma lt_wf t F : stores t F -> wf_ids F.
Proof. intros (f & _ & _ & W). auto. Qed.

Definition lt_fails (e : exn) : Prop := e = DataError \/ e = ValueError.

(** One node: [G] is what the table stores. *)
Lemma lt_add_ok db G up x : stores (lt_rows db) G -> (forall p, up = Some p -> In p (lt_rows db)) -> ~ In (nid x) (ids G) ->
  (exists db' ob G', lt_add cfg db up x = Ok (db', ob, up) /\ stores (lt_rows db') G' /\ lt_rows db' = ob :: lt_rows db /\
     l_pk ob = nid x /\ same_kids (append (ups up) (leaf x) G) G' /\
     ((up = None -> appendable (labels_below (lt_rows db) [])) -> G' = append (ups up) (leaf x) G)) \/
  (exists e, lt_add cfg db up x = Err e /\ lt_fails e).
Proof.
  intros St Gu Fr. assert (W := lt_wf _ _ St).
  assert (Fr' : ~ In (nid x) (map l_pk (lt_rows db))) by (rewrite (stores_pks _ _ _ St); auto).
  assert (Ns := not_sorted). assert (R := fun db' ob up' => lt_add_rows db up x db' ob up' Fr').
  assert (U : is_up (ups up) G).
  { intros p E. destruct up as [r|]; [|discriminate]. injection E as <-. apply (stores_pks _ _ _ St). apply in_map. auto. }
  assert (EA := add_last [] (ups up) x G W U). 
  assert (E0 : sp_add [] (ups up) x G = append (ups up) (leaf x) G) by (apply EA; intros No; congruence). clear EA.
  unfold lt_add in *. destruct up as [p|].
  - specialize (Gu p eq_refl). destruct (add_child_ok cfg max2 db G p x St Gu Fr) as [(db' & r & G' & E & _ & Pk & _ & S' & Sk & Ca)|[[E _]|[E _]]];
      unfold new_of in E; rewrite E in *; cbn [bind] in *; [left|right; exists DataError; split; auto; left; auto|right; exists ValueError; split; auto; right; auto].
    exists db', r, G'. destruct (R db' r (Some p) eq_refl) as (R1 & _). split; auto. split; auto. split; auto. split; auto.
    unfold sp_add in E0. cbn [BulkFacts.ups option_map] in *. rewrite unsorted in Sk, Ca. rewrite <- E0. split; auto.
    intros _. apply Ca. unfold calm_child. rewrite Ns. exact Logic.I.
  - destruct (add_root_ok cfg max2 db G x St Fr) as [(db' & r & G' & E & _ & Pk & _ & S' & Sk & Ca)|[[E _]|[E _]]];
      unfold new_of in E; rewrite E in *; cbn [bind] in *; [left|right; exists DataError; split; auto; left; auto|right; exists ValueError; split; auto; right; auto].
    exists db', r, G'. destruct (R db' r None eq_refl) as (R1 & _). split; auto. split; auto. split; auto. split; auto.
    unfold sp_add in E0. cbn [BulkFacts.ups option_map] in *. rewrite unsorted in Sk, Ca. rewrite <- E0. split; auto.
    intros H. apply Ca. unfold calm_root. rewrite Ns. auto.
Qed.

(** Loading only calls the function below stored nodes. *)
Lemma load_below add' : (forall db p x, add' db (Some p) x = lt_add cfg db (Some p) x) ->
  forall g db p, load add' l_pk db (Some p) g = load (lt_add cfg) l_pk db (Some p) g.
Proof.
  intros H. induction g as [|x k IHk r IHr]; intros db p; auto. cbn [load]. rewrite H.
  destruct (lt_add cfg db (Some p) x) as [[[d ob] up']|] eqn:E; auto. cbn [bind].
  assert (Eu : up' = Some p) by (unfold lt_add in E; destruct (add_child _ _ _ _) as [[]|]; [injection E; auto|discriminate]).
  rewrite Eu, IHk. destruct (load (lt_add cfg) l_pk d (Some ob) k) as [[d2 l2]|]; auto. cbn [bind]. rewrite IHr. auto.
Qed.

(** Below a node: exactly the appended forest. *)
Theorem lt_load_below next keep_ids db F data parent g : stores (lt_rows db) F -> In parent (lt_rows db) ->
  describes keep_ids next data g -> wf_ids g -> (forall i, In i (ids g) -> ~ In i (ids F)) ->
  (exists db', lt_load_bulk cfg next keep_ids db data (Some parent) = Ok (db', ids g) /\
     stores (lt_rows db') (append (Some (l_pk parent)) g F)) \/
  (exists e, lt_load_bulk cfg next keep_ids db data (Some parent) = Err e /\ lt_fails e).
Proof.
  intros St Hp De Wg D. destruct (prepare_ok _ _ _ _ De) as (m & E). unfold lt_load_bulk. rewrite E. cbn [bind].
  set (add' := fun (db : lt_db) (up : option ltrow) (x : node) => match up with Some p => lt_add cfg db up x | None => Err DataError end).
  rewrite <- (load_below add') by auto.
  destruct (load_ok lt_db ltrow add' l_pk [] (fun d G => stores (lt_rows d) G) (fun d r => In r (lt_rows d)) (fun _ => False) lt_fails)
    with (g := g) (db := db) (F := F) (up := Some parent) as [(db' & E1 & S1 & _)|(e & E1 & Fe & _)]; auto.
  - intros. eapply lt_wf; eauto.
  - intros d G r S H. apply (stores_pks _ _ _ S). apply in_map. auto.
  - intros d G up x S _ Gu Fr _. unfold add'. destruct up as [p|]; [|right; exists DataError; split; auto; split; [left; auto|tauto]].
    destruct (lt_add_ok d G (Some p) x S Gu Fr) as [(d' & ob & G' & E2 & S' & Er & Pk & _ & Ex)|(e & E2 & Fe)].
    + left. exists d', ob, (Some p). split; auto. split; [rewrite <- Ex; auto; discriminate|]. split; [rewrite Er; left; auto|]. split; auto. split; auto.
      split; [intros q Eq; injection Eq as <-; rewrite Er; right; auto|]. intros q Hq. rewrite Er. right. auto.
    + right. exists e. auto.
  - intros No. congruence.
  - intros q Eq. injection Eq as <-. auto.
  - intros No. congruence.
  - left. exists db'. split; auto.
  - right. exists e. auto.
Qed.

End LT.
