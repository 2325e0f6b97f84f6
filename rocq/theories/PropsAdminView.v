(** C55: the views of the admin, permissions and rollback (admin.py:22-158). *)
From Coq Require Import String List Arith Lia Bool ZArith.
From Verif Require Import Prelude Forest SpecFacts SpecSane SpecKids SpecPerm CommonModel Order History Fixture
  FormModel AdminModel BulkModel BulkLoad SiteModel Site AdminViewModel AdminView.
From Verif Require MPModel MPInv MPReads MPMoveOk PropsMP SiteMP.
From Verif Require NSModel NSInv NSReads PropsNS SiteNS.
From Verif Require ALModel ALInv ALReads ALAnswers PropsAL SiteAL.
From Verif Require LTModel LTInv LTReads LTAdd PropsLT SiteLT BulkLT.
From Verif Require Import PropsAdmin PropsSite.
Import ListNotations.
Local Open Scope string_scope.
Local Open Scope list_scope.
Local Open Scope nat_scope.

(** ** Any site *)

(** A request that is not answered with success - denied, unknown objects, errors in the
    form or in its inlines, an exception - leaves the table as it was, although the form has
    already written to it.  The model is in the default database, or that has no
    ATOMIC_REQUESTS. *)
Theorem C55_rolled_back DB (s : site DB) st u db v : careful st -> snd (visit s st u db v) <> Saved -> fst (visit s st u db v) = db.
Proof. intros C. apply visit_keeps; auto. Qed.

(** Nothing is done for a user who may not do it, or for a form with errors. *)
Theorem C55_granted DB (s : site DB) st u db v : careful st -> snd (visit s st u db v) = Saved -> granted u v /\ flawless v.
Proof. intros C H. destruct (visit_saved DB s st C u db v H) as (r & db1 & _ & G & Fl & _). auto. Qed.

(** The rows that can be dragged in the list, "can-change", are those that the user may move: for
    the others the answer is 403. *)
Theorem C55_flags DB (s : site DB) st u db q l : snd (visit s st u db (ListOf q)) = Listed l ->
  s_context s db q = Ok (map fst l) /\
  forall e can, In (e, can) l -> (can = true <-> granted u (MoveNode (e_node e) (e_node e) (Some true))) /\
    (can = false -> forall t below, s_has s db (e_node e) = true -> s_has s db t = true ->
       snd (visit s st u db (MoveNode (e_node e) t (Some below))) = Denied).
Proof.
  cbn [visit]. destruct (may_view u) eqn:M; cbn [negb]; [|discriminate].
  destruct (s_context s db q) as [l'|[]] eqn:E; cbn [snd]; intros H; try discriminate. injection H as <-.
  split; [rewrite map_map; cbn [fst]; rewrite map_id; auto|].
  intros e can Hin. apply in_map_iff in Hin. destruct Hin as (e' & X & _). injection X as <- <-. cbn [granted]. rewrite M. split; [tauto|].
  intros Ec t below H1 H2. cbn [orb negb]. rewrite H1, H2, Ec. reflexivity.
Qed.

(** ** Many users, many requests: the table is the one that a site (C54) has after the
    requests that were granted and had no errors. *)
Section MP.
Import MPModel MPInv MPReads.
Variable cfg : mp_cfg.
Hypothesis radix2 : 2 <= radix cfg.
Hypothesis step1 : 1 <= steplen cfg.
Hypothesis py : order_by cfg <> [] -> MPMoveOk.py_agrees cfg.
Notation o := (order_by cfg).

Lemma mp_resaved db F r db1 i : stores cfg (db_rows db) F /\ ordered o F -> SiteMP.mp_ok cfg db r -> mp_serve cfg db r = Done db1 -> saves r i ->
  s_resave (mp_site cfg) db1 i = Ok db1.
Proof.
  intros S Q E Si. destruct (SiteMP.mp_step cfg radix2 step1 py db F r S Q) as (G & [SG _] & N). rewrite E in SG. cbn [after] in SG.
  assert (Hi := served_saves _ _ _ _ _ _ _ db1 i N E Si ltac:(cbn; intros; subst; auto)).
  apply (SiteMP.mp_pks cfg _ _ SG) in Hi. apply in_map_iff in Hi. destruct Hi as (x & <- & Hx).
  destruct (mp_resave cfg radix2 step1 db1 G x SG Hx) as (E1 & db2 & E2 & E3). cbn [mp_site s_resave]. rewrite E1. cbn [bind]. rewrite E2. f_equal.
  revert E2. unfold save_row. destruct (existsb _ _); [discriminate|]. destruct (existsb _ _); intros X; injection X as <-; cbn [db_rows] in E3; rewrite E3; destruct db1; auto.
Qed.

Theorem C55_mp_partial st db F l : careful st -> stores cfg (db_rows db) F -> ordered o F ->
  let rs := made (mp_site cfg) st db l in all_ok (mp_serve cfg) (SiteMP.mp_ok cfg) db rs ->
  picks l rs /\ visits (mp_site cfg) st db l = days (mp_serve cfg) db rs /\
  exists G, stores cfg (db_rows (visits (mp_site cfg) st db l)) G /\ ordered o G /\
    life (mp_serve cfg) (SiteMP.mp_kind cfg) o db F rs G.
Proof.
  intros C S O rs A.
  destruct (visits_days _ (mp_site cfg) st C (SiteMP.mp_kind cfg) o (fun db F => stores cfg (db_rows db) F /\ ordered o F)
    (SiteMP.mp_ok cfg) (SiteMP.mp_step cfg radix2 step1 py) mp_resaved l db F (conj S O) A) as [P V].
  split; auto. split; auto. fold rs in V. rewrite V. apply C54_mp_partial; auto.
Qed.

(** The converse: what may be done, has no errors and is done by the site (C54) is done here. *)
Theorem C55_mp_done st u db F v r db1 : careful st -> stores cfg (db_rows db) F -> ordered o F -> asks v = Some r ->
  SiteMP.mp_ok cfg db r -> granted u v -> flawless v -> whole_branch u F v -> mp_serve cfg db r = Done db1 ->
  visit (mp_site cfg) st u db v = (db1, Saved).
Proof.
  intros C S O Ev Q Gr Fl Wb E. destruct (SiteMP.mp_step cfg radix2 step1 py db F r (conj S O) Q) as (G & _ & N).
  apply (visit_done _ (mp_site cfg) st u db v r db1); auto.
  - intros n Hn. apply (served_names _ _ _ _ u v _ _ _ _ N E Ev Wb) in Hn. apply (SiteMP.mp_pks cfg _ _ S) in Hn.
    apply in_map_iff in Hn. destruct Hn as (x & <- & Hx). apply existsb_exists. exists x. rewrite Nat.eqb_refl. auto.
  - intros n En. exists [n]. split; auto. intros i [<-|[]]. apply (Wb n En). auto.
  - intros i. apply (mp_resaved db F r db1 i (conj S O) Q E).
Qed.
End MP.

Section NS.
Import NSModel NSInv NSReads.
Variable o : ordering.

Lemma ns_resaved db F r db1 i : stores (ns_rows db) F /\ ordered o F -> SiteNS.ns_ok o db r -> ns_serve o db r = Done db1 -> saves r i ->
  s_resave (ns_site o) db1 i = Ok db1.
Proof.
  intros S Q E Si. destruct (SiteNS.ns_step o db F r S Q) as (G & [SG _] & N). rewrite E in SG. cbn [after] in SG.
  assert (Hi := served_saves _ _ _ _ _ _ _ db1 i N E Si ltac:(cbn; intros; subst; auto)).
  apply (SiteNS.ns_pks _ _ SG) in Hi. apply in_map_iff in Hi. destruct Hi as (x & <- & Hx).
  assert (S2 := SG). destruct S2 as (W & ts & I & Pm). cbn [ns_site s_resave]. rewrite (get_by_pk_in _ _ _ W I Pm _ Hx). cbn [bind]. f_equal.
  unfold save_row. replace (existsb (fun y => n_pk y =? n_pk x) (ns_rows db1)) with true.
  - rewrite map_same; [destruct db1; auto|]. intros y Hy Ey. eapply row_eq; eauto.
  - symmetry. apply existsb_exists. exists x. rewrite Nat.eqb_refl. auto.
Qed.

Theorem C55_ns_partial st db F l : careful st -> stores (ns_rows db) F -> ordered o F ->
  let rs := made (ns_site o) st db l in all_ok (ns_serve o) (SiteNS.ns_ok o) db rs ->
  picks l rs /\ visits (ns_site o) st db l = days (ns_serve o) db rs /\
  exists G, stores (ns_rows (visits (ns_site o) st db l)) G /\ ordered o G /\ life (ns_serve o) SiteNS.ns_kind o db F rs G.
Proof.
  intros C S O rs A.
  destruct (visits_days _ (ns_site o) st C SiteNS.ns_kind o (fun db F => stores (ns_rows db) F /\ ordered o F)
    (SiteNS.ns_ok o) (SiteNS.ns_step o) ns_resaved l db F (conj S O) A) as [P V].
  split; auto. split; auto. fold rs in V. rewrite V. apply C54_ns_partial; auto.
Qed.

Theorem C55_ns_done st u db F v r db1 : careful st -> stores (ns_rows db) F -> ordered o F -> asks v = Some r ->
  SiteNS.ns_ok o db r -> granted u v -> flawless v -> whole_branch u F v -> ns_serve o db r = Done db1 ->
  visit (ns_site o) st u db v = (db1, Saved).
Proof.
  intros C S O Ev Q Gr Fl Wb E. destruct (SiteNS.ns_step o db F r (conj S O) Q) as (G & _ & N).
  apply (visit_done _ (ns_site o) st u db v r db1); auto.
  - intros n Hn. apply (served_names _ _ _ _ u v _ _ _ _ N E Ev Wb) in Hn. apply (SiteNS.ns_pks _ _ S) in Hn.
    apply in_map_iff in Hn. destruct Hn as (x & <- & Hx). apply existsb_exists. exists x. rewrite Nat.eqb_refl. auto.
  - intros n En. exists [n]. split; auto. intros i [<-|[]]. apply (Wb n En). auto.
  - intros i. apply (ns_resaved db F r db1 i (conj S O) Q E).
Qed.
End NS.

Section AL.
Import ALModel ALInv ALReads ALAnswers.
Variable o : ordering.

Lemma al_resaved t F r t1 i : stores o t F -> SiteAL.al_ok o t r -> al_serve o t r = Done t1 -> saves r i ->
  s_resave (al_site o) t1 i = Ok t1.
Proof.
  intros S Q E Si. destruct (SiteAL.al_step o t F r S Q) as (G & SG & N). rewrite E in SG. cbn [after] in SG.
  assert (Hi := served_saves _ _ _ _ _ _ _ t1 i N E Si ltac:(cbn; intros; subst; auto)).
  destruct (SiteAL.al_get o t1 G i SG) as [[_ H]|(x & Ex & Hx & <- & _)]; [tauto|].
  cbn [al_site s_resave]. rewrite Ex. cbn [bind]. f_equal. unfold save_row. replace (existsb (fun y => a_pk y =? a_pk x) t1) with true.
  - apply map_same. intros y Hy Ey. destruct SG as (W & _ & so & Fit & _). eapply pk_same; eauto.
  - symmetry. apply existsb_exists. exists x. rewrite Nat.eqb_refl. auto.
Qed.

Theorem C55_al_partial st t F l : careful st -> stores o t F ->
  let rs := made (al_site o) st t l in all_ok (al_serve o) (SiteAL.al_ok o) t rs ->
  picks l rs /\ visits (al_site o) st t l = days (al_serve o) t rs /\
  exists G, stores o (visits (al_site o) st t l) G /\ life (al_serve o) SiteAL.al_kind o t F rs G.
Proof.
  intros C S rs A.
  destruct (visits_days _ (al_site o) st C SiteAL.al_kind o (stores o) (SiteAL.al_ok o) (SiteAL.al_step o) al_resaved l t F S A) as [P V].
  split; auto. split; auto. fold rs in V. rewrite V. apply C54_al_partial; auto.
Qed.

(** The nodes that Django's deletion finds are the whole branch. *)
Lemma al_collected t F n : stores o t F -> In n (ids F) -> exists l, s_collected (al_site o) t n = Ok l /\
  forall i, In i l <-> i = n \/ descends F n i.
Proof.
  intros S Hi. cbn [al_site s_collected]. destruct (SiteAL.al_get o t F n S) as [[_ H]|(r & -> & Hr & Er & _)]; [tauto|]. cbn [bind].
  destruct (PropsAL.C27_ties o t F S) as (F' & S' & An & Sm). assert (Sk : same_kids F F') by exact Sm.
  destruct (an_descendants _ _ _ An (fresh r) None Hr ltac:(intros ? ? X; discriminate)) as (k & A & L & Ek & _ & _ & EL & _ & (c & _ & Ed) & _).
  cbn [option_map fresh o_row] in *. rewrite Ed. cbn [bind]. rewrite Er in Ek. eexists. split; [reflexivity|].
  change (prune_opt (levels None) k) with k in EL.
  assert (EI : map (fun x => a_pk (o_row x)) L = ids k).
  { unfold ids. rewrite <- (preorder_d_snd (Datatypes.S (Datatypes.S (length A))) k), map_map.
    transitivity (map (fun y => nid (snd y)) (map at_level (preorder_d (Datatypes.S (Datatypes.S (length A))) k))); [|rewrite map_map; auto].
    rewrite <- EL, map_map. reflexivity. }
  intros i. cbn [map In o_row]. rewrite EI, Er. split.
  - intros [<-|H]; auto. right. apply (same_descends F' F); [exact (proj1 S')|exact (proj1 S)|apply same_sym; exact Sk|]. exists k. auto.
  - intros [->|D]; auto. right. apply (same_descends F F') in D; [|exact (proj1 S)|exact (proj1 S')|exact Sk].
    destruct D as (k' & Ek' & D). congruence.
Qed.

(** A node of an adjacency list is deleted only by users who may delete all that is below it. *)
Theorem C55_al_delete st u t F n : stores o t F -> snd (visit (al_site o) st u t (DeleteNode n)) = Saved ->
  whole_branch u F (DeleteNode n).
Proof.
  intros S. cbn [visit]. destruct (may_delete u _); cbn [negb]; [|discriminate].
  destruct (s_has (al_site o) t n) eqn:Hn; cbn [negb]; [|discriminate]. cbn [al_site s_has] in Hn.
  apply existsb_exists in Hn. destruct Hn as (x & Hx & En). apply Nat.eqb_eq in En. subst n.
  assert (Hi : In (a_pk x) (ids F)) by (apply (SiteAL.al_pks o _ _ S), in_map, Hx).
  destruct (al_collected t F _ S Hi) as (l & -> & Hl).
  destruct (forallb (fun i => may_delete u (Some i)) l) eqn:B; cbn [negb]; [|discriminate].
  intros _ n X. injection X as <-. split; auto. rewrite forallb_forall in B. intros i D. apply B, Hl, D.
Qed.

Theorem C55_al_done st u t F v r t1 : careful st -> stores o t F -> asks v = Some r ->
  SiteAL.al_ok o t r -> granted u v -> flawless v -> whole_branch u F v -> al_serve o t r = Done t1 ->
  visit (al_site o) st u t v = (t1, Saved).
Proof.
  intros C S Ev Q Gr Fl Wb E. destruct (SiteAL.al_step o t F r S Q) as (G & _ & N).
  apply (visit_done _ (al_site o) st u t v r t1); auto.
  - intros n Hn. apply (served_names _ _ _ _ u v _ _ _ _ N E Ev Wb) in Hn. apply (SiteAL.al_pks o _ _ S) in Hn.
    apply in_map_iff in Hn. destruct Hn as (x & <- & Hx). apply existsb_exists. exists x. rewrite Nat.eqb_refl. auto.
  - intros n En. destruct (Wb n En) as [Hi Hb]. destruct (al_collected t F n S Hi) as (l & El & Hl). exists l. split; auto.
    intros i D. apply Hb, Hl, D.
  - intros i. apply (al_resaved t F r t1 i S Q E).
Qed.
End AL.

Section LT.
Import LTModel LTInv LTReads.
Variable cfg : lt_cfg.
Hypothesis max2 : 2 <= label_max cfg.
Notation o := (lt_order cfg).

Lemma lt_resaved db F r db1 i : stores cfg (lt_rows db) F -> SiteLT.lt_ok cfg db r -> lt_serve cfg db r = Done db1 -> saves r i ->
  s_resave (lt_site cfg) db1 i = Ok db1.
Proof.
  intros S Q E Si. destruct (SiteLT.lt_step cfg max2 db F r S Q) as (G & SG & N). rewrite E in SG. cbn [after] in SG.
  assert (Hi := served_saves _ _ _ _ _ _ _ db1 i N E Si ltac:(cbn; intros H Sk Hi; apply (same_ids H G Sk); auto)).
  apply (BulkLT.stores_pks cfg _ _ i SG) in Hi. apply in_map_iff in Hi. destruct Hi as (x & <- & Hx).
  assert (S2 := SG). destruct S2 as (f & L & EF & W). rewrite <- EF in W.
  cbn [lt_site s_resave]. rewrite (get_by_pk_lay cfg _ f x L W Hx). cbn [bind]. unfold lt_save.
  assert (Es : save_row cfg (lt_rows db1) x = Ok (lt_rows db1)).
  { assert (Sm : map (fun y => if l_pk y =? l_pk x then x else y) (lt_rows db1) = lt_rows db1).
    { apply map_same. intros y Hy Ey. eapply pk_inj; eauto. }
    unfold save_row.
    replace (fits_ltree cfg (l_path x)) with true by (symmetry; apply LTAdd.valid_fits; destruct (lay_in cfg _ _ _ L Hx) as (y & Hy & ->); apply (kvalid_path cfg f y); auto; apply L). cbn [negb].
    replace (existsb (fun y => l_pk y =? l_pk x) (lt_rows db1)) with true.
    - rewrite Sm. auto.
    - symmetry. apply existsb_exists. exists x. rewrite Nat.eqb_refl. auto. }
  rewrite Es. cbn [bind]. destruct db1; auto.
Qed.

Theorem C55_lt_partial st db F l : careful st -> stores cfg (lt_rows db) F ->
  let rs := made (lt_site cfg) st db l in all_ok (lt_serve cfg) (SiteLT.lt_ok cfg) db rs ->
  picks l rs /\ visits (lt_site cfg) st db l = days (lt_serve cfg) db rs /\
  exists G, stores cfg (lt_rows (visits (lt_site cfg) st db l)) G /\ life (lt_serve cfg) (SiteLT.lt_kind cfg) o db F rs G.
Proof.
  intros C S rs A.
  destruct (visits_days _ (lt_site cfg) st C (SiteLT.lt_kind cfg) o (fun db => stores cfg (lt_rows db)) (SiteLT.lt_ok cfg)
    (SiteLT.lt_step cfg max2) lt_resaved l db F S A) as [P V].
  split; auto. split; auto. fold rs in V. rewrite V. apply C54_lt_partial; auto.
Qed.

Theorem C55_lt_done st u db F v r db1 : careful st -> stores cfg (lt_rows db) F -> asks v = Some r ->
  SiteLT.lt_ok cfg db r -> granted u v -> flawless v -> whole_branch u F v -> lt_serve cfg db r = Done db1 ->
  visit (lt_site cfg) st u db v = (db1, Saved).
Proof.
  intros C S Ev Q Gr Fl Wb E. destruct (SiteLT.lt_step cfg max2 db F r S Q) as (G & _ & N).
  apply (visit_done _ (lt_site cfg) st u db v r db1); auto.
  - intros n Hn. apply (served_names _ _ _ _ u v _ _ _ _ N E Ev Wb) in Hn. apply (BulkLT.stores_pks cfg _ _ n S) in Hn.
    apply in_map_iff in Hn. destruct Hn as (x & <- & Hx). apply existsb_exists. exists x. rewrite Nat.eqb_refl. auto.
  - intros n En. exists [n]. split; auto. intros i [<-|[]]. apply (Wb n En). auto.
  - intros i. apply (lt_resaved db F r db1 i S Q E).
Qed.
End LT.

(** ** Concrete users: [boss] may do everything, [guest] only look, [clerk] may change 4 and 9 and
    delete 4 and 2 only. *)
Definition boss : user := mkUser true true (fun _ => true) (fun _ => true).
Definition guest : user := mkUser true false (fun _ => false) (fun _ => false).
Definition clerk : user :=
  mkUser true false (fun n => match n with Some 4 | Some 9 => true | _ => false end)
    (fun n => match n with Some 4 | Some 2 => true | _ => false end).
Definition usual : setup := mkSetup true true.

(** A drag by the guest, one by the clerk, a form with a wrong inline, one with a wrong field, a new node, a form
    of the clerk for another node, a deletion by the guest. *)
Definition crowd : list (user * view) :=
  [(guest, MoveNode 5 4 (Some true)); (clerk, MoveNode 4 1 (Some true)); (boss, ChangeForm 9 d5 None "first-child" true false);
   (boss, ChangeForm 9 d5 None "first-child" false true); (boss, AddForm (nd 11 1) (Some 9) "first-child" true true);
   (clerk, ChangeForm 2 d5 None "first-child" true true); (guest, DeleteNode 1); (boss, AddForm (nd 12 1) (Some 9) "first-child" true false);
   (boss, MoveNode 5 4 None); (boss, MoveNode 5 44 (Some true)); (boss, DeleteNode 3); (guest, ListOf None)].
Definition crowd_did : list request := [Drag 4 1 true; Create (nd 11 1) (Some 9) "first-child"; Call (CDelete [3])].

Example C55_mp_example : made (mp_site PropsMP.c10) usual PropsMP.ex_db crowd = crowd_did /\
  all_ok (mp_serve PropsMP.c10) (SiteMP.mp_ok PropsMP.c10) PropsMP.ex_db crowd_did /\
  map MPModel.m_pk (MPModel.get_tree (MPModel.db_rows (visits (mp_site PropsMP.c10) usual PropsMP.ex_db crowd)) None None) =
    [7; 1; 5; 4; 6; 2; 9; 11; 10] /\
  snd (visit (mp_site PropsMP.c10) usual clerk PropsMP.ex_db (ListOf (Some 2))) =
    Listed [(mkEntry 4 2 2 true, true); (mkEntry 9 2 2 true, true)].
Proof.
  split; [vm_compute; reflexivity|]. split; [|vm_compute; auto]. unfold crowd_did.
  by_steps ltac:(fun _ => unfold SiteMP.mp_ok; split; [asked|split; [asked|first [asked|split; asked]]]).
Qed.

Example C55_ns_example : made (ns_site []) usual PropsNS.ex_db crowd = crowd_did /\
  all_ok (ns_serve []) (SiteNS.ns_ok []) PropsNS.ex_db crowd_did /\
  map NSModel.n_pk (NSModel.get_tree (NSModel.ns_rows (visits (ns_site []) usual PropsNS.ex_db crowd)) None None) = [7; 1; 5; 4; 6; 2; 9; 11; 10].
Proof.
  split; [vm_compute; reflexivity|]. split; [|vm_compute; auto]. unfold crowd_did.
  by_steps ltac:(fun _ => unfold SiteNS.ns_ok; split; [asked|split; [asked|first [asked|intros F P _ E; injection E as <-; left; reflexivity]]]).
Qed.

Example C55_al_example : made (al_site []) usual PropsAL.ex_t crowd = crowd_did /\
  all_ok (al_serve []) (SiteAL.al_ok []) PropsAL.ex_t crowd_did /\
  length (visits (al_site []) usual PropsAL.ex_t crowd) = 9 /\
  snd (visit (al_site []) usual clerk PropsAL.ex_t (DeleteNode 4)) = Denied /\
  snd (visit (al_site []) usual boss PropsAL.ex_t (DeleteNode 4)) = Saved.
Proof.
  split; [vm_compute; reflexivity|]. split; [|vm_compute; auto]. unfold crowd_did.
  by_steps ltac:(fun _ => unfold SiteAL.al_ok; split; [asked|split; [asked|first [asked|discriminate]]]).
Qed.

Example C55_lt_example : made (lt_site PropsLT.c0) usual PropsLT.ex_db crowd = crowd_did /\
  all_ok (lt_serve PropsLT.c0) (SiteLT.lt_ok PropsLT.c0) PropsLT.ex_db crowd_did /\
  map LTModel.l_pk (LTModel.get_tree (LTModel.lt_rows (visits (lt_site PropsLT.c0) usual PropsLT.ex_db crowd)) None None) =
    [7; 1; 5; 4; 6; 2; 9; 11; 10].
Proof.
  split; [vm_compute; reflexivity|]. split; [|vm_compute; auto]. unfold crowd_did.
  by_steps ltac:(fun _ => unfold SiteLT.lt_ok; split; asked).
Qed.

(** ** What is not so

    The model is in another database and the default database has ATOMIC_REQUESTS: the form is
    shown with its errors, but the node has been moved. *)
Theorem C55_other_database_refuted : exists st u db v, ~ careful st /\ ~ flawless v /\
  MPInv.stores PropsMP.c10 (MPModel.db_rows db) ex_F /\
  snd (visit (mp_site PropsMP.c10) st u db v) = FormShown /\
  let db' := fst (visit (mp_site PropsMP.c10) st u db v) in
  map MPModel.m_pk (MPModel.get_tree (MPModel.db_rows db) None None) = [7; 1; 3; 5; 2; 4; 6; 9; 10] /\
  map MPModel.m_pk (MPModel.get_tree (MPModel.db_rows db') None None) = [9; 10; 7; 1; 3; 5; 2; 4; 6].
Proof.
  exists (mkSetup false true), boss, PropsMP.ex_db, (ChangeForm 9 d5 None "first-child" true false).
  split; [intros [H|H]; discriminate|]. split; [intros [_ H]; discriminate|]. split; [exact PropsMP.ex_stores|].
  vm_compute. auto.
Qed.

(** With materialized paths, nested sets and ltree a user deletes a node together with nodes below it that
    they may not delete. *)
Theorem C55_delete_refuted : exists u n, 
  (snd (visit (mp_site PropsMP.c10) usual u PropsMP.ex_db (DeleteNode n)) = Saved /\
   snd (visit (ns_site []) usual u PropsNS.ex_db (DeleteNode n)) = Saved /\
   snd (visit (lt_site PropsLT.c0) usual u PropsLT.ex_db (DeleteNode n)) = Saved) /\
  ~ whole_branch u ex_F (DeleteNode n) /\
  existsb (fun r => MPModel.m_pk r =? 6) (MPModel.db_rows (fst (visit (mp_site PropsMP.c10) usual u PropsMP.ex_db (DeleteNode n)))) = false /\
  may_delete u (Some 6) = false.
Proof.
  exists clerk, 4. split; [vm_compute; auto|]. split; [|vm_compute; auto].
  intros H. destruct (H 4 eq_refl) as [_ H']. specialize (H' 6). cbn in H'. discriminate H'.
  right. exists (Cons (nd 6 60) Nil Nil). split; [reflexivity|left; reflexivity].
Qed.

Print Assumptions C55_rolled_back.
Print Assumptions C55_granted.
Print Assumptions C55_flags.
Print Assumptions C55_mp_partial.
Print Assumptions C55_mp_done.
Print Assumptions C55_ns_partial.
Print Assumptions C55_ns_done.
Print Assumptions C55_al_partial.
Print Assumptions C55_al_delete.
Print Assumptions C55_al_done.
Print Assumptions C55_lt_partial.
Print Assumptions C55_lt_done.
Print Assumptions C55_other_database_refuted.
Print Assumptions C55_delete_refuted.
