(** What the lists with a search and an ordering show. *)
From Coq Require Import String List Arith Lia Bool ZArith Sorted Permutation.
From Verif Require Import Prelude Forest SpecFacts SpecSane SpecKids CommonModel Order AdminModel SearchModel BulkMP PropsAdmin.
From Verif Require MPFixModel.
Import ListNotations.
Local Open Scope nat_scope.

Lemma isort_map {A B} (f : A -> B) (le : B -> B -> bool) l : map f (isort (fun a b => le (f a) (f b)) l) = isort le (map f l).
Proof.
  induction l as [|x l IH]; auto. cbn [isort map]. rewrite <- IH. generalize (isort (fun a b => le (f a) (f b)) l). intros m.
  induction m as [|y m IHm]; auto. cbn [insert map]. destruct (le (f x) (f y)); cbn [map]; auto. rewrite IHm. auto.
Qed.

Section View.
Variable found : fields -> bool.
Variable o : ordering.
Definition arrange (L : list node) : list node := changelist ndata found o L.

Lemma changelist_map {R} (data : R -> fields) (nodes : R -> node) rows : (forall r, ndata (nodes r) = data r) ->
  map nodes (changelist data found o rows) = arrange (map nodes rows).
Proof.
  intros H. unfold arrange, changelist.
  rewrite (filter_ext (fun r => found (data r)) (fun r => found (ndata (nodes r)))) by (intros; rewrite H; auto).
  transitivity (map nodes (isort (fun a b => negb (MPFixModel.col_lt o (ndata (nodes b)) (ndata (nodes a)))) (filter (fun r => found (ndata (nodes r))) rows))).
  - f_equal. generalize (filter (fun r => found (ndata (nodes r))) rows). intros l. induction l as [|x l IH]; auto. cbn [isort]. rewrite IH.
    generalize (isort (fun a b : R => negb (MPFixModel.col_lt o (ndata (nodes b)) (ndata (nodes a)))) l). intros m.
    induction m as [|y m IHm]; auto. cbn [insert]. rewrite !H, IHm. auto.
  - rewrite (isort_map nodes (fun a b => negb (MPFixModel.col_lt o (ndata b) (ndata a)))). f_equal.
    induction rows as [|r rows IH]; auto. cbn [filter map]. destruct (found (ndata (nodes r))); cbn [map]; rewrite IH; auto.
Qed.

Lemma changelist_in {R} (data : R -> fields) rows r : In r (changelist data found o rows) -> In r rows.
Proof. intros H. apply (Permutation_in _ (isort_perm _ _)) in H. apply filter_In in H. tauto. Qed.

Lemma search_rows {R} (data : R -> fields) (nodes : R -> node) (ent : R -> entry) rows F parent L :
  (forall r, ndata (nodes r) = data r) -> map nodes rows = L -> map ent rows = listed F parent L ->
  map ent (changelist data found o rows) = listed F parent (arrange L).
Proof.
  intros H EL E. unfold listed in *. set (g := fun a : node => mkEntry _ _ _ _) in *.
  rewrite <- EL, <- (changelist_map data nodes rows H), map_map.
  apply map_ext_in. intros r Hr. apply changelist_in in Hr. rewrite <- EL, map_map in E.
  clear EL. revert E Hr. induction rows as [|x rows IH]; [intros _ []|]. cbn [map]. intros E [<-|Hr]; injection E; auto.
Qed.

(** ** The tree that is shown *)
Fixpoint finsert (a : node) (k : forest node) (l : forest node) : forest node :=
  match l with
  | Nil => Cons a k Nil
  | Cons b kb r => if negb (MPFixModel.col_lt o (ndata b) (ndata a)) then Cons a k l else Cons b kb (finsert a k r)
  end.
Fixpoint view (F : forest node) : forest node :=
  match F with
  | Nil => Nil
  | Cons a k r => if found (ndata a) then finsert a (view k) (view r) else view r
  end.

Lemma roots_finsert a k l : roots (finsert a k l) = insert (fun a b => negb (MPFixModel.col_lt o (ndata b) (ndata a))) a (roots l).
Proof. induction l as [|b kb _ r IH]; auto. cbn [finsert roots insert]. destruct (negb _); cbn [roots]; auto. rewrite IH. auto. Qed.

Lemma roots_view F : roots (view F) = arrange (roots F).
Proof.
  induction F as [|a k _ r IH]; auto. cbn [view roots]. unfold arrange, changelist in *. cbn [filter].
  destruct (found (ndata a)); cbn [isort]; [rewrite roots_finsert, IH|]; auto.
Qed.

Lemma ids_finsert a k l : Permutation (ids (finsert a k l)) (nid a :: ids k ++ ids l).
Proof.
  induction l as [|b kb _ r IH]; cbn [finsert].
  - rewrite ids_cons. auto.
  - destruct (negb _).
    + rewrite ids_cons. auto.
    + rewrite !ids_cons, IH.
      change (nid b :: ids kb ++ nid a :: ids k ++ ids r) with ((nid b :: ids kb) ++ nid a :: ids k ++ ids r).
      rewrite <- Permutation_middle. constructor. exact (Permutation_app_swap_app (nid b :: ids kb) (ids k) (ids r)).
Qed.

Lemma view_wf F : wf_ids F -> wf_ids (view F) /\ incl (ids (view F)) (ids F).
Proof.
  induction F as [|a k IHk r IHr]; [split; auto; intros x []|]. intros W. apply wf_cons_inv in W. destruct W as (Ak & Ar & Wk & Wr & D).
  destruct (IHk Wk) as (Vk & Ik). destruct (IHr Wr) as (Vr & Ir). cbn [view]. rewrite ids_cons. destruct (found (ndata a)).
  - split.
    + unfold wf_ids in *. rewrite (ids_finsert a (view k) (view r)). constructor.
      * rewrite in_app_iff. intros [H|H]; auto.
      * apply NoDup_app_iff. split; auto. split; auto. intros x Hx Hy. apply (D x); auto.
    + intros x Hx. apply (Permutation_in _ (ids_finsert a (view k) (view r))) in Hx. cbn in *. rewrite in_app_iff in *. intuition.
  - split; auto. intros x Hx. cbn. rewrite in_app_iff. auto.
Qed.

(** The rows that the view [V] of a part of [F] gives, top down. *)
Fixpoint outline (F : forest node) (parent : nat) (level : Z) (V : forest node) : list entry :=
  match V with
  | Nil => []
  | Cons a k r => mkEntry (nid a) parent level (has_kids (nid a) F) :: outline F (nid a) (level + 1) k ++ outline F parent level r
  end.

Lemma outline_finsert F p lv a k l : forall X, outline F p lv (finsert a k l) = X ->
  Permutation X (outline F p lv (Cons a k l)).
Proof.
  intros X <-. induction l as [|b kb _ r IH]; cbn [finsert]; auto. destruct (negb _); auto. cbn [outline] in *.
  rewrite IH. set (A := outline F (nid a) (lv + 1) k). set (B := outline F (nid b) (lv + 1) kb). set (R := outline F p lv r).
  set (ea := mkEntry (nid a) p lv _). set (eb := mkEntry (nid b) p lv _).
  change (eb :: B ++ ea :: A ++ R) with ((eb :: B) ++ ea :: A ++ R). change (eb :: B ++ R) with ((eb :: B) ++ R).
  rewrite <- Permutation_middle. constructor. exact (Permutation_app_swap_app (eb :: B) A R).
Qed.

(** The roots with what is below them. *)
Fixpoint subs (V : forest node) : list (node * forest node) :=
  match V with Nil => [] | Cons a k r => (a, k) :: subs r end.

Lemma subs_roots V a k : In (a, k) (subs V) -> In a (roots V).
Proof. induction V as [|b kb _ r IH]; cbn; auto. intros [E|H]; [injection E as -> ->|]; auto. Qed.

Lemma subs_finsert a k l x : In x (subs (finsert a k l)) -> x = (a, k) \/ In x (subs l).
Proof. induction l as [|b kb _ r IH]; cbn [finsert subs]; [intros [H|[]]; auto|]. destruct (negb _); cbn [subs In]; intuition. Qed.

Lemma subs_view F a k : In (a, k) (subs (view F)) -> exists k0, In (a, k0) (subs F) /\ k = view k0.
Proof.
  induction F as [|b kb _ r IH]; [intros []|]. cbn [view subs]. destruct (found (ndata b)).
  - intros H. apply subs_finsert in H. destruct H as [E|H]; [injection E as -> ->; exists kb; split; [left; auto|auto]|].
    destruct (IH H) as (k0 & H0 & E). exists k0. split; [right; auto|auto].
  - intros H. destruct (IH H) as (k0 & H0 & E). exists k0. split; [right; auto|auto].
Qed.

Lemma subs_height K a k : In (a, k) (subs K) -> height k < height K.
Proof.
  induction K as [|b kb _ r IH]; [intros []|]. cbn [subs height]. intros [E|H]; [injection E as -> ->; lia|]. apply IH in H. lia.
Qed.

Lemma subs_children F a k : wf_ids F -> In (a, k) (subs F) -> children_of (nid a) F = Some k.
Proof.
  induction F as [|b kb _ r IH]; [intros _ []|]. intros W. apply wf_cons_inv in W. destruct W as (Ak & Ar & Wk & Wr & D).
  cbn [subs children_of]. intros [E|H]; [injection E as -> ->; rewrite Nat.eqb_refl; auto|].
  assert (Hr : In (nid a) (ids r)) by (apply roots_ids, in_map, (subs_roots _ _ _ H)).
  destruct (Nat.eqb_spec (nid b) (nid a)) as [E|_]; [rewrite E in *; tauto|].
  rewrite children_of_notin; auto. intros X. apply (D _ X Hr).
Qed.

Lemma children_wf i F K : wf_ids F -> children_of i F = Some K -> wf_ids K /\ incl (ids K) (ids F).
Proof.
  induction F as [|b kb IHk r IHr]; [discriminate|]. intros W. apply wf_cons_inv in W. destruct W as (Ak & Ar & Wk & Wr & D).
  cbn [children_of]. rewrite ids_cons. destruct (nid b =? i).
  - intros E. injection E as <-. split; auto. intros x Hx. cbn. rewrite in_app_iff. auto.
  - destruct (children_of i kb) as [c|].
    + intros E. injection E as ->. destruct (IHk Wk eq_refl) as (H1 & H2). split; auto. intros x Hx. cbn. rewrite in_app_iff. auto.
    + intros E. destruct (IHr Wr E) as (H1 & H2). split; auto. intros x Hx. cbn. rewrite in_app_iff. auto.
Qed.

Lemma children_children i F K j k : wf_ids F -> children_of i F = Some K -> children_of j K = Some k -> children_of j F = Some k.
Proof.
  intros W E1 E2. assert (Hj := children_in _ _ _ E2). revert W E1.
  induction F as [|b kb IHk r IHr]; [discriminate|]. intros W. apply wf_cons_inv in W. destruct W as (Ak & Ar & Wk & Wr & D).
  cbn [children_of]. destruct (Nat.eqb_spec (nid b) i) as [Ei|Ei].
  - intros E. injection E as ->. destruct (Nat.eqb_spec (nid b) j) as [<-|]; [tauto|]. rewrite E2. auto.
  - destruct (children_of i kb) as [c|] eqn:Ec.
    + intros E. injection E as ->. destruct (children_wf _ _ _ Wk Ec) as (_ & Hi).
      destruct (Nat.eqb_spec (nid b) j) as [<-|]; [exfalso; auto|]. rewrite (IHk Wk eq_refl). auto.
    + intros E. destruct (children_wf _ _ _ Wr E) as (_ & Hi).
      destruct (Nat.eqb_spec (nid b) j) as [<-|]; [exfalso; auto|]. rewrite (children_of_notin j kb); auto. intros X. apply (D j X). auto.
Qed.

Lemma kids_subs parent F K a k : wf_ids F -> kids_of parent F = Some K -> In (a, k) (subs K) -> kids_of (Some (nid a)) F = Some k.
Proof.
  intros W E H. destruct parent as [i|]; cbn [kids_of] in *.
  - apply (children_children i F K); auto. apply subs_children; auto. apply (children_wf _ _ _ W E).
  - injection E as ->. apply subs_children; auto.
Qed.

(** Opening everything. *)
Section Open.
Variable F : forest node.
Variable answer : option nat -> res (list entry).
Hypothesis W : wf_ids F.
Hypothesis answer_ok : forall parent, answer parent =
  match kid_list parent F with Some L => Ok (listed F parent (arrange L)) | None => Err DoesNotExist end.

(** [K] is the forest of children of [parent] in [F]. *)
Lemma open_all_ok fuel : forall parent K, kids_of parent F = Some K -> height K < fuel ->
  open_all fuel answer parent = Ok (outline F match parent with Some q => q | None => 0 end
    match parent with Some q => Z.of_nat (level_of q F) + 1 | None => 1 end%Z (view K)).
Proof.
  induction fuel as [|fuel IH]; intros parent K EK Hh; [lia|]. cbn [open_all]. rewrite answer_ok.
  unfold kid_list. rewrite EK. cbn [option_map bind]. rewrite <- roots_view.
  set (par := match parent with Some q => q | None => 0 end).
  set (lv := match parent with Some q => (Z.of_nat (level_of q F) + 1)%Z | None => 1%Z end).
  assert (Sub : forall V, (forall a k, In (a, k) (subs V) -> exists k0, kids_of (Some (nid a)) F = Some k0 /\ k = view k0 /\ height k0 < fuel /\
      (Z.of_nat (level_of (nid a) F) = lv)%Z) ->
    open_rows (fun n => open_all fuel answer (Some n)) (listed F parent (roots V)) = Ok (outline F par lv V)).
  { induction V as [|a k _ r IHr]; intros HV; auto. cbn [roots listed map open_rows]. fold par lv.
    destruct (HV a k) as (k0 & E0 & -> & H0 & HL); [left; auto|]. cbn [e_kids e_node].
    assert (Eb : (if has_kids (nid a) F then open_all fuel answer (Some (nid a)) else Ok []) = Ok (outline F (nid a) (lv + 1) (view k0))).
    { unfold has_kids, kid_list. rewrite E0. cbn [option_map]. destruct k0 as [|b kb rb]; [reflexivity|]. cbn [roots].
      rewrite (IH (Some (nid a)) _ E0 H0). rewrite HL. auto. }
    rewrite Eb. cbn [bind]. unfold listed in IHr. fold par lv in IHr.
    rewrite IHr by (intros x kx Hx; apply HV; right; auto). cbn [bind]. auto. }
  apply Sub. clear Sub. intros a k Hk. destruct (subs_view K a k Hk) as (k0 & H0 & ->). exists k0.
  split; [apply (kids_subs parent F K); auto|]. split; auto. split; [assert (Hs := subs_height _ _ _ H0); lia|].
  assert (EL : kid_list parent F = Some (roots K)) by (unfold kid_list; rewrite EK; auto).
  destruct (C45_listed F parent _ W EL) as (_ & _ & H).
  assert (Ha : In (mkEntry (nid a) par lv (has_kids (nid a) F)) (listed F parent (roots K))).
  { unfold listed. apply in_map_iff. exists a. split; auto. apply (subs_roots _ _ _ H0). }
  destruct (H _ Ha) as ((A & EA & El) & _). cbn [e_node e_level] in *. unfold level_of. rewrite EA. auto.
Qed.
End Open.

Lemma outline_ids F V : forall p lv, map e_node (outline F p lv V) = ids V.
Proof. induction V as [|a k IHk r IHr]; intros p lv; auto. cbn [outline map]. rewrite map_app, IHk, IHr, ids_cons. auto. Qed.

Lemma open_all_in fuel answer : forall parent l e, open_all fuel answer parent = Ok l -> In e l -> exists q m, answer q = Ok m /\ In e m.
Proof.
  induction fuel as [|fuel IH]; intros parent l e; [discriminate|]. cbn [open_all]. destruct (answer parent) as [m|] eqn:Em; [|discriminate].
  cbn [bind]. intros E He.
  assert (G : In e m \/ exists q m', answer q = Ok m' /\ In e m').
  { clear Em. revert l E He. induction m as [|x m IHm]; intros l E He; [injection E as <-; destruct He|]. cbn [open_rows] in E.
    destruct (if e_kids x then _ else _) as [b|] eqn:Eb; [|discriminate]. cbn [bind] in E.
    destruct (open_rows _ m) as [r|] eqn:Er; [|discriminate]. injection E as <-. destruct He as [<-|He]; [left; left; auto|].
    apply in_app_iff in He. destruct He as [He|He].
    - destruct (e_kids x); [|injection Eb as <-; destruct He]. right. apply (IH _ _ _ Eb He).
    - destruct (IHm _ eq_refl He); auto. left. right. auto. }
  destruct G as [G|G]; eauto.
Qed.

Lemma outline_listed F : wf_ids F -> forall e, In e (outline F 0 1 (view F)) -> exists up L, kid_list up F = Some L /\ In e (listed F up L).
Proof.
  intros W e He. set (answer := fun parent => match kid_list parent F with Some L => Ok (listed F parent (arrange L)) | None => Err DoesNotExist end).
  assert (E := open_all_ok F answer W (fun p => eq_refl) (S (height F)) None F eq_refl (Nat.lt_succ_diag_r _)).
  destruct (open_all_in _ _ _ _ e E He) as (q & m & Em & Hm). unfold answer in Em. destruct (kid_list q F) as [L|] eqn:EL; [|discriminate].
  injection Em as <-. exists q, L. split; auto. unfold listed in *. apply in_map_iff in Hm. destruct Hm as (a & <- & Ha).
  apply in_map_iff. exists a. split; auto. apply changelist_in in Ha. auto.
Qed.

(** ** Which nodes are shown *)
Lemma view_in F : forall i, wf_ids F -> In i (ids (view F)) <->
  exists A x, ancestors_of i F = Some A /\ In x (preorder F) /\ nid x = i /\ Forall (fun a => found (ndata a) = true) (A ++ [x]).
Proof.
  induction F as [|a k IHk r IHr]; intros i W.
  { split; [intros []|intros (A & x & E & _); discriminate]. }
  apply wf_cons_inv in W. destruct W as (Ak & Ar & Wk & Wr & D). cbn [view ancestors_of].
  assert (Anc : forall i f L, ancestors_of i f = Some L -> In i (ids f)).
  { clear. intros i. induction f as [|a k IHk r IHr]; intros L; [discriminate|]. cbn [ancestors_of]. rewrite ids_cons. simpl. rewrite in_app_iff.
    destruct (Nat.eqb_spec (nid a) i) as [<-|]; auto. destruct (ancestors_of i k); eauto. }
  assert (Pin : forall x f, In x (preorder f) -> In (nid x) (ids f)) by (intros; apply in_map; auto).
  assert (R : In i (ids (view r)) <-> i <> nid a /\ ~ In i (ids k) /\ exists A x, ancestors_of i r = Some A /\ In x (preorder (Cons a k r)) /\ nid x = i /\ Forall (fun a => found (ndata a) = true) (A ++ [x])).
  { rewrite (IHr i Wr). cbn [preorder]. split.
    - intros (A & x & E & Hx & Ex & Fo). assert (Hi := Anc _ _ _ E). split; [intros ->; auto|]. split; [intros X; apply (D _ X Hi)|].
      exists A, x. split; auto. split; auto. right. apply in_app_iff. auto.
    - intros (N1 & N2 & A & x & E & Hx & Ex & Fo). exists A, x. split; auto. split; auto. destruct Hx as [->|Hx]; [congruence|].
      apply in_app_iff in Hx. destruct Hx as [Hx|Hx]; auto. exfalso. apply N2. rewrite <- Ex. auto. }
  destruct (Nat.eqb_spec (nid a) i) as [Ei|Ei].
  - assert (Nr : ~ In i (ids (view r))) by (rewrite R; intros (H & _); auto).
    destruct (found (ndata a)) eqn:Fa.
    + split.
      * intros _. exists [], a. split; auto. split; [left; auto|]. split; auto. repeat constructor. auto.
      * intros _. apply (Permutation_in _ (Permutation_sym (ids_finsert a (view k) (view r)))). left. auto.
    + split; [tauto|]. intros (A & x & E & Hx & Ex & Fo). injection E as <-. cbn [preorder] in Hx. exfalso.
      assert (x = a).
      { destruct Hx as [->|Hx]; auto. exfalso. apply in_app_iff in Hx. destruct Hx as [Hx|Hx]; apply Pin in Hx; rewrite Ex, <- Ei in Hx; auto. }
      subst x. inversion Fo. congruence.
  - assert (K : In i (ids k) -> In i (ids (view k)) <-> exists A x, (match ancestors_of i k with Some l => Some (a :: l) | None => ancestors_of i r end) = Some (a :: A) /\ In x (preorder (Cons a k r)) /\ nid x = i /\ Forall (fun a => found (ndata a) = true) (A ++ [x])).
    { intros Hi. rewrite (IHk i Wk). cbn [preorder]. split.
      - intros (A & x & E & Hx & Ex & Fo). exists A, x. rewrite E. split; auto. split; auto. right. apply in_app_iff. auto.
      - intros (A & x & E & Hx & Ex & Fo). exists A, x. split.
        + destruct (ancestors_of i k) as [l|] eqn:El; [injection E as ->; auto|]. exfalso. apply (D i Hi). apply (Anc _ _ _ E).
        + split; auto. destruct Hx as [->|Hx]; [congruence|]. apply in_app_iff in Hx. destruct Hx as [Hx|Hx]; auto. exfalso. apply (D i Hi). rewrite <- Ex. auto. }
    assert (Vi := proj2 (view_wf k Wk)).
    destruct (in_dec Nat.eq_dec i (ids k)) as [Hk|Hk].
    + assert (Nr : ~ In i (ids (view r))) by (rewrite R; intros (_ & H & _); auto).
      assert (Ek : exists l, ancestors_of i k = Some l).
      { destruct (anc_parent i k Wk Hk) as (A & EA & _). eauto. }
      destruct Ek as (l & El). rewrite El in *.
      destruct (found (ndata a)) eqn:Fa.
      * split.
        -- intros H. apply (Permutation_in _ (ids_finsert a (view k) (view r))) in H. destruct H as [H|H]; [congruence|].
           apply in_app_iff in H. destruct H as [H|H]; [|tauto]. apply (K Hk) in H. destruct H as (A & x & E & Hx & Ex & Fo). injection E as ->.
           exists (a :: A), x. split; auto. split; auto. split; auto. cbn [app]. constructor; auto.
        -- intros (A & x & E & Hx & Ex & Fo). injection E as <-. apply (Permutation_in _ (Permutation_sym (ids_finsert a (view k) (view r)))).
           right. apply in_app_iff. left. apply (K Hk). exists l, x. split; auto. split; auto. split; auto. inversion Fo; auto.
      * split; [tauto|]. intros (A & x & E & Hx & Ex & Fo). injection E as <-. inversion Fo. congruence.
    + assert (Ek : ancestors_of i k = None) by (destruct (ancestors_of i k) eqn:E; auto; exfalso; apply Hk; apply (Anc _ _ _ E)). rewrite Ek.
      assert (E1 : In i (ids (if found (ndata a) then finsert a (view k) (view r) else view r)) <-> In i (ids (view r))).
      { destruct (found (ndata a)); [|tauto]. split.
        - intros H. apply (Permutation_in _ (ids_finsert a (view k) (view r))) in H. destruct H as [H|H]; [congruence|].
          apply in_app_iff in H. destruct H as [H|H]; auto. exfalso. auto.
        - intros H. apply (Permutation_in _ (Permutation_sym (ids_finsert a (view k) (view r)))). right. apply in_app_iff. auto. }
      rewrite E1, R. split.
      * intros (_ & _ & H). exact H.
      * intros H. auto.
Qed.
(** ** The children of the nodes that are shown *)
Lemma wf_cons_intro (a : node) k r : ~ In (nid a) (ids k) -> ~ In (nid a) (ids r) -> wf_ids k -> wf_ids r ->
  (forall x, In x (ids k) -> In x (ids r) -> False) -> wf_ids (Cons a k r).
Proof.
  intros H1 H2 H3 H4 H5. unfold wf_ids in *. rewrite ids_cons. constructor; [rewrite in_app_iff; tauto|].
  apply NoDup_app_iff. auto.
Qed.

Lemma children_finsert a k l i : wf_ids (Cons a k l) -> children_of i (finsert a k l) = children_of i (Cons a k l).
Proof.
  induction l as [|b kb _ r IH]; auto. intros W. cbn [finsert]. destruct (negb _); auto.
  assert (W' := W). apply wf_cons_inv in W. destruct W as (Ak & Ar & Wk & Wr & D).
  apply wf_cons_inv in Wr. destruct Wr as (Bk & Br & Wkb & Wr & Db). rewrite ids_cons in Ar, D. simpl in Ar. rewrite in_app_iff in Ar.
  assert (Wa : wf_ids (Cons a k r)).
  { apply wf_cons_intro; auto. intros x Hx Hr. apply (D x Hx). right. apply in_app_iff. auto. }
  specialize (IH Wa). cbn [children_of] in *. rewrite IH.
  destruct (Nat.eqb_spec (nid b) i) as [Eb|Eb], (Nat.eqb_spec (nid a) i) as [Ea|Ea]; auto.
  - exfalso. apply Ar. left. congruence.
  - rewrite (children_of_notin i k); auto. intros H. apply (D i H). left. auto.
  - rewrite (children_of_notin i kb); auto. intros H. apply Ar. right. left. congruence.
  - destruct (in_dec Nat.eq_dec i (ids k)) as [Hk|Hk].
    + rewrite (children_of_notin i kb); auto. intros H. apply (D i Hk). right. apply in_app_iff. auto.
    + rewrite (children_of_notin i k) by auto. auto.
Qed.

Lemma children_view F i : wf_ids F -> In i (ids (view F)) -> children_of i (view F) = option_map view (children_of i F).
Proof.
  induction F as [|a k IHk r IHr]; intros W Hi; [destruct Hi|].
  apply wf_cons_inv in W. destruct W as (Ak & Ar & Wk & Wr & D).
  destruct (view_wf k Wk) as [Vk Ik]. destruct (view_wf r Wr) as [Vr Ir]. cbn [view] in *.
  destruct (found (ndata a)).
  - assert (Wv : wf_ids (Cons a (view k) (view r))).
    { apply wf_cons_intro; auto. intros x Hx Hr. apply (D x); auto. }
    rewrite (children_finsert a (view k) (view r) i Wv). apply (Permutation_in _ (ids_finsert a (view k) (view r))) in Hi. cbn [children_of].
    destruct (Nat.eqb_spec (nid a) i) as [Ea|Ea]; auto. destruct Hi as [Hi|Hi]; [congruence|]. apply in_app_iff in Hi.
    destruct (in_dec Nat.eq_dec i (ids (view k))) as [Hk|Hk].
    + rewrite (IHk Wk Hk). destruct (children_of i k) eqn:E; auto. destruct (children_some i k (Ik _ Hk)). congruence.
    + destruct Hi as [Hi|Hi]; [tauto|]. rewrite (children_of_notin i (view k)) by auto. rewrite (children_of_notin i k); auto.
      intros H. apply (D i H). auto.
  - rewrite (IHr Wr Hi). cbn [children_of]. destruct (Nat.eqb_spec (nid a) i) as [Ea|Ea]; [exfalso; subst i; auto|].
    rewrite (children_of_notin i k); auto. intros H. apply (D i H). auto.
Qed.
End View.

(** ** Sorting keeps the order of equal rows *)
Section Stable.
Variables (A : Type) (lt : A -> A -> bool).
Hypothesis lt_irr : forall a, lt a a = false.
Hypothesis lt_trans : forall a b c, lt b a = false -> lt c b = false -> lt c a = false.
Definition ties (a b : A) : bool := negb (lt a b) && negb (lt b a).

Lemma insert_ties v x m : filter (ties v) (insert (fun a b => negb (lt b a)) x m) = filter (ties v) (x :: m).
Proof.
  induction m as [|y m IH]; auto. cbn [insert]. destruct (lt y x) eqn:E; cbn [negb]; auto.
  cbn [filter] in *. rewrite IH. destruct (ties v x) eqn:Ex, (ties v y) eqn:Ey; auto. exfalso.
  unfold ties in *. apply andb_true_iff in Ex, Ey. destruct Ex as [X1 X2], Ey as [Y1 Y2].
  apply negb_true_iff in X1, X2, Y1, Y2. rewrite (lt_trans x v y) in E; auto. discriminate.
Qed.

Lemma isort_ties v l : filter (ties v) (isort (fun a b => negb (lt b a)) l) = filter (ties v) l.
Proof. induction l as [|x l IH]; auto. cbn [isort]. rewrite insert_ties. cbn [filter]. rewrite IH. auto. Qed.
End Stable.
