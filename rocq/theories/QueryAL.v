(** The exact number of statements of the reads of adjacency lists. *)
From Coq Require Import String List Arith ZArith Lia Bool Permutation Sorted.
From Verif Require Import Prelude Forest SpecFacts SpecSane CommonModel Order History SpecRun SpecKids ALModel ALInv ALReads
  QueryModel QueryFacts QueryBounds.
Import ListNotations.

(** The number of nodes that have children. *)
Fixpoint inner {A} (F : forest A) : nat :=
  match F with
  | Nil => 0
  | Cons _ k r => match k with Nil => 0 | _ => S (inner k) end + inner r
  end.

Lemma perm_sum {A} (c : A -> nat) l l' : Permutation l l' -> list_sum (map c l) = list_sum (map c l').
Proof. unfold list_sum. induction 1; cbn [map fold_right] in *; lia. Qed.

Lemma collect_count {A B} (f : A -> counted (list B)) l : (forall x, In x l -> exists L, fst (f x) = Ok L) ->
  (exists L, fst (AL.collect f l) = Ok L) /\ snd (AL.collect f l) = list_sum (map (fun x => snd (f x)) l).
Proof.
  induction l as [|x l IH]; intros H; cbn [AL.collect map].
  - cbn. eauto.
  - destruct (H x (or_introl eq_refl)) as (L & E). destruct IH as ((L' & E') & N); [intros; apply H; right; auto|].
    change (list_sum (snd (f x) :: map (fun x0 => snd (f x0)) l)) with (snd (f x) + list_sum (map (fun x0 => snd (f x0)) l)).
    destruct (f x) as [r n]. cbn [fst snd] in *. subst r. cbn [andthen].
    destruct (AL.collect f l) as [r' n']. cbn [fst snd] in *. subst r'. cbn. split; [eauto|lia].
Qed.

Lemma query_then {A B} (a : A) (f : A -> counted B) L n : fst (f a) = Ok L -> snd (f a) = n ->
  (exists L, fst (andthen (query (Ok a)) f) = Ok L) /\ snd (andthen (query (Ok a)) f) = S n.
Proof. intros E1 E2. cbn. destruct (f a). cbn in *. subst. cbn. eauto. Qed.

Lemma tree_rec_Sq o k t parent nhc depth m : AL.tree_rec o (S k) t parent nhc depth m =
  if too_deep m depth then free (Ok [])
  else ask qs <- match parent with
                 | Some _ => if nhc then query (Ok (kids o t parent)) else free (Ok [])
                 | None => query (Ok (get_root_nodes o t))
                 end;
       AL.collect (fun n => ask sub <- AL.tree_rec o k t (Some (a_pk n)) (has_children t (a_pk n)) (depth + 1)%Z m;
                            free (Ok (mkAObj n (Some depth) :: sub))) qs.
Proof. reflexivity. Qed.

Section Tree.
Variables (o : ordering) (so : nat -> Z) (t : al_table).

Definition fit_below (l : forest node) : Prop :=
  forall q c, children_of q l = Some c -> Permutation (kids o t (Some q)) (map (arow so (Some q)) (roots c)) /\
    has_children t q = match c with Nil => false | _ => true end.

(** The body of the loop of get_tree for one row. *)
Let body (fuel : nat) (d : Z) (m : option Z) (n : alrow) : counted (list alobj) :=
  ask sub <- AL.tree_rec o fuel t (Some (a_pk n)) (has_children t (a_pk n)) (d + 1)%Z m;
  free (Ok (mkAObj n (Some d) :: sub)).

Lemma body_count fuel d m n L : fst (AL.tree_rec o fuel t (Some (a_pk n)) (has_children t (a_pk n)) (d + 1)%Z m) = Ok L ->
  (exists L', fst (body fuel d m n) = Ok L') /\
  snd (body fuel d m n) = snd (AL.tree_rec o fuel t (Some (a_pk n)) (has_children t (a_pk n)) (d + 1)%Z m).
Proof.
  intros E. unfold body. destruct (AL.tree_rec _ _ _ _ _ _ _) as [r k]. cbn [fst] in E. subst r. cbn. split; [eauto|lia].
Qed.

Lemma tree_count l : wf_ids l -> fit_below l -> forall fuel up d lv, size l <= fuel -> (1 <= d)%Z -> lv <> Some 0 ->
  (forall a, In a (roots l) -> exists L, fst (body fuel d (maxd lv d) (arow so up a)) = Ok L) /\
  list_sum (map (fun a => snd (body fuel d (maxd lv d) (arow so up a))) (roots l)) = inner (prune_opt lv l).
Proof.
  induction l as [|a k IHk r IHr]; intros W H fuel up d lv Hs Hd Hl.
  - split; [intros ? []|]. destruct lv; reflexivity.
  - assert (Wl := wf_cons_inv W). destruct Wl as (W1 & W2 & W3 & W4 & W5).
    cbn [size] in Hs. destruct fuel as [|fuel]; [lia|].
    assert (Ha : Permutation (kids o t (Some (nid a))) (map (arow so (Some (nid a))) (roots k)) /\
      has_children t (nid a) = match k with Nil => false | _ => true end).
    { apply H. cbn [children_of]. rewrite Nat.eqb_refl. auto. }
    assert (Hk : fit_below k).
    { intros q c E. apply H. cbn [children_of]. assert (X := children_in _ _ _ E).
      destruct (Nat.eqb_spec (nid a) q) as [Eq|_]; [subst q; tauto|]. rewrite E. auto. }
    assert (Hr : fit_below r).
    { intros q c E. apply H. cbn [children_of]. assert (X := children_in _ _ _ E).
      destruct (Nat.eqb_spec (nid a) q) as [Eq|_]; [subst q; tauto|]. rewrite (children_of_notin q k) by (intros Hq; eauto). auto. }
    destruct Ha as (Ha & Hc).
    specialize (IHr W4 Hr (S fuel) up d lv ltac:(lia) Hd Hl). destruct IHr as (IHr1 & IHr2).
    assert (E : (exists L, fst (AL.tree_rec o (S fuel) t (Some (nid a)) (has_children t (nid a)) (d + 1)%Z (maxd lv d)) = Ok L) /\
      snd (AL.tree_rec o (S fuel) t (Some (nid a)) (has_children t (nid a)) (d + 1)%Z (maxd lv d)) =
      match prune_opt (option_map pred lv) k with Nil => 0 | _ => S (inner (prune_opt (option_map pred lv) k)) end).
    { rewrite tree_rec_Sq, Hc.
      assert (Z : forall lv', lv' <> Some 0 -> maxd lv d = maxd lv' (d + 1) -> option_map pred lv = lv' ->
        let x := (ask qs <- (if match k with Nil => false | Cons _ _ _ => true end then query (Ok (kids o t (Some (nid a)))) else free (Ok []));
                  AL.collect (body fuel (d + 1) (maxd lv d)) qs) in
        (exists L, fst x = Ok L) /\ snd x = match prune_opt (option_map pred lv) k with Nil => 0 | _ => S (inner (prune_opt (option_map pred lv) k)) end).
      { intros lv' Hl' Em Ep x. rewrite Ep. unfold x. clear x. rewrite Em.
        destruct k as [|b kb rb].
        - rewrite then_ok. cbn. split; [eauto|]. destruct lv'; reflexivity.
        - specialize (IHk W3 Hk fuel (Some (nid a)) (d + 1)%Z lv' ltac:(lia) ltac:(lia) Hl'). destruct IHk as (I1 & I2).
          destruct (collect_count (body fuel (d + 1) (maxd lv' (d + 1))) (kids o t (Some (nid a)))) as ((L & E1) & E2).
          + intros x Hx. apply (Permutation_in _ Ha) in Hx. apply in_map_iff in Hx. destruct Hx as (b' & <- & Hb). apply I1. auto.
          + rewrite (perm_sum _ _ _ Ha), map_map in E2. rewrite I2 in E2.
            destruct (query_then (kids o t (Some (nid a))) (AL.collect (body fuel (d + 1) (maxd lv' (d + 1)))) _ _ E1 E2) as (Q1 & Q2).
            split; [exact Q1|]. etransitivity; [exact Q2|]. destruct lv' as [[|n]|]; [congruence| |]; reflexivity. }
      destruct lv as [n|]; [destruct n as [|n]; [congruence|]|].
      - cbn [maxd too_deep]. destruct n as [|n].
        + replace (d - 1 + Z.of_nat 1 =? 0)%Z with false by (symmetry; apply Z.eqb_neq; lia).
          replace (d - 1 + Z.of_nat 1 <? d + 1)%Z with true by (symmetry; apply Z.ltb_lt; lia). cbn [negb andb].
          split; [cbn; eauto|]. destruct k; reflexivity.
        + replace (d - 1 + Z.of_nat (S (S n)) =? 0)%Z with false by (symmetry; apply Z.eqb_neq; lia).
          replace (d - 1 + Z.of_nat (S (S n)) <? d + 1)%Z with false by (symmetry; apply Z.ltb_ge; lia). cbn [negb andb].
          apply (Z (Some (S n))); [discriminate| |reflexivity]. cbn [maxd]. f_equal. lia.
      - cbn [maxd too_deep]. apply (Z None); [discriminate|reflexivity|reflexivity]. }
    destruct E as ((L & E1) & E2). destruct (body_count (S fuel) d (maxd lv d) (arow so up a) L E1) as (B1 & B2).
    cbn [roots map]. split.
    + intros b [<-|Hb]; auto.
    + change (list_sum (?x :: ?l)) with (x + list_sum l). cbn [list_sum fold_right]. fold (list_sum (map (fun a0 => snd (body (S fuel) d (maxd lv d) (arow so up a0))) (roots r))).
      rewrite IHr2, B2. cbn [a_pk arow]. rewrite E2. destruct lv as [[|n]|]; [congruence| |]; reflexivity.
Qed.
End Tree.

Section Reads.
Variables (o : ordering) (so : nat -> Z) (t : al_table) (F : forest node).
Hypothesis W : wf_ids F.
Hypothesis Fit : fits so t F.

Lemma fit_all : fit_below o so t F.
Proof.
  intros q c E. assert (K : kl (Some q) F = roots c) by (apply kl_some; exact E). rewrite <- K. split; [apply perm_kids; auto|].
  rewrite (has_children_kl so t F Fit), K. destruct c; reflexivity.
Qed.
Lemma fit_kids n l : children_of n F = Some l -> fit_below o so t l.
Proof.
  intros E q c Eq. apply fit_all. rewrite (children_sub n F l q); auto. eapply children_in; eauto.
Qed.

Lemma count_tree lv : lv <> Some 0 ->
  snd (AL.get_tree o t None (option_map Z.of_nat lv)) = 1 + inner (prune_opt lv F).
Proof.
  intros Hl. unfold AL.get_tree. rewrite tree_rec_Sq.
  assert (E : option_map Z.of_nat lv = maxd lv 1) by (destruct lv; cbn; auto).
  rewrite E. replace (too_deep (maxd lv 1) 1) with false.
  - destruct (tree_count o so t F W fit_all (S (length t)) None 1%Z lv) as (I1 & I2); auto; try lia.
    { rewrite (fits_length so t F W Fit). lia. }
    assert (P : Permutation (get_root_nodes o t) (map (arow so None) (roots F))) by apply (perm_kids so t F Fit o None).
    match goal with |- snd (andthen _ ?g) = _ => 
      destruct (collect_count (fun n => ask sub <- AL.tree_rec o (S (length t)) t (Some (a_pk n)) (has_children t (a_pk n)) (1 + 1)%Z (maxd lv 1);
                            free (Ok (mkAObj n (Some 1%Z) :: sub))) (get_root_nodes o t)) as ((L & E1) & E2) end.
    { intros x Hx. apply (Permutation_in _ P) in Hx. apply in_map_iff in Hx. destruct Hx as (b & <- & Hb). apply I1. auto. }
    rewrite (perm_sum _ _ _ P), map_map in E2. rewrite I2 in E2. cbn [andthen query].
    match goal with |- context [AL.collect ?f ?l] => destruct (AL.collect f l) as [r' n'] end.
    cbn [fst snd] in *. subst. reflexivity.
  - destruct lv as [n|]; auto. cbn [maxd too_deep]. symmetry. apply andb_false_iff. right. apply Z.ltb_ge.
    assert (n <> 0) by congruence. lia.
Qed.

(** *** Ancestors *)
Lemma chain_count : forall fuel r A, In r t -> ancestors_of (a_pk r) F = Some A -> length A < fuel ->
  snd (AL.up_chain fuel t r) = length A.
Proof.
  induction fuel as [|fuel IH]; intros r A Hr E Hl; [lia|].
  destruct (fits_pk so t F W Fit r Hr) as (Hi & P & _).
  destruct (anc_parent _ F W Hi) as (A0 & E0 & H). rewrite E in E0. injection E0 as <-.
  cbn [AL.up_chain]. destruct H as [(P' & ->)|(q & A' & P' & Hq & Eq & ->)].
  - rewrite P in P'. injection P' as ->. reflexivity.
  - rewrite P in P'. injection P' as ->.
    assert (Hqi : In (nid q) (ids F)) by (apply in_map; auto).
    destruct (kl_ex F _ W Hqi) as (u & b & Hb & Eb & _).
    assert (b = q) as -> by (apply (node_eq F); eauto using kl_pre).
    rewrite (get_node so t F W Fit u q Hb). rewrite app_length in *. cbn [length] in *.
    assert (Hin : In (arow so u q) t) by (eapply fits_node; eauto).
    assert (E2 : ancestors_of (a_pk (arow so u q)) F = Some A') by auto.
    specialize (IH (arow so u q) A' Hin E2 ltac:(lia)).
    destruct (chain_read so t F W Fit fuel (arow so u q) A' Hin E2 ltac:(lia)) as (L & EL & _).
    rewrite <- (al_up_chain t fuel) in EL. unfold query. cbn [andthen].
    destruct (AL.up_chain fuel t (arow so u q)) as [r' n']. cbn [fst snd] in *. subst r' n'. cbn. lia.
Qed.

Lemma count_ancestors r A : In r t -> ancestors_of (a_pk r) F = Some A -> snd (AL.get_ancestors t r) = length A.
Proof.
  intros Hr E. apply chain_count; auto. rewrite (fits_length so t F W Fit). assert (X := anc_length _ _ _ W E). lia.
Qed.

Lemma count_depth_n r A : In r t -> ancestors_of (a_pk r) F = Some A -> snd (AL.get_depth t (fresh r) false) = length A.
Proof.
  intros Hr E. unfold AL.get_depth. cbn [o_row fresh o_depth]. destruct (a_parent r) as [p|] eqn:Ep.
  - assert (C := count_ancestors r A Hr E). destruct (read_ancestors so t F W Fit r Hr) as (L & A' & EL & _).
    rewrite <- al_get_ancestors in EL. destruct (AL.get_ancestors t r) as [x n]. cbn [fst snd] in *. subst x n. cbn. lia.
  - destruct (fits_pk so t F W Fit _ Hr) as (Hi & P & _). rewrite Ep in P.
    destruct (anc_parent _ F W Hi) as (A0 & E0 & [(_ & ->)|(q & A' & P' & _)]); [|congruence].
    rewrite E in E0. injection E0 as ->. reflexivity.
Qed.

(** get_tree of a node read from the database: the ancestors for its depth, is_leaf, and the
    inner nodes of its branch. *)
Lemma count_branch r A l lv : In r t -> ancestors_of (a_pk r) F = Some A -> children_of (a_pk r) F = Some l -> lv <> Some 0 ->
  snd (AL.get_tree o t (Some (fresh r)) (option_map Z.of_nat lv)) =
  length A + 1 + match l with Nil => 0 | _ => S (inner (prune_opt lv l)) end.
Proof.
  intros Hr EA El Hl. assert (C := count_depth_n r A Hr EA).
  destruct (get_depth_ok so t F W Fit (fresh r) false Hr I) as (d & c & Ed & Hd & Ha).
  cbn [o_row fresh] in Ed. destruct Ha as (A' & EA' & Hda); [right; reflexivity|]. clear EA' A' Hda.
  unfold AL.get_tree. rewrite <- al_get_depth in Ed. fold (fresh r) in Ed.
  destruct (AL.get_depth t (fresh r) false) as [x n]. cbn [fst snd] in *. subst x n.
  assert (E : match option_map Z.of_nat lv with Some v => if (v =? 0)%Z then Some v else Some (v + d)%Z | None => None end
     = maxd lv (d + 1)).
  { destruct lv as [n0|]; auto. cbn [option_map maxd]. assert (n0 <> 0) by congruence.
    replace (Z.of_nat n0 =? 0)%Z with false by (symmetry; apply Z.eqb_neq; lia). f_equal. lia. }
  cbn [andthen query o_row]. cbv zeta. rewrite E, tree_rec_Sq.
  replace (too_deep (maxd lv (d + 1)) (d + 1)) with false.
  2:{ destruct lv as [n0|]; auto. cbn [maxd too_deep]. symmetry. apply andb_false_iff. right. apply Z.ltb_ge.
      assert (n0 <> 0) by congruence. lia. }
  destruct (fit_all _ _ El) as (P & Hc).
  assert (Lf : negb (is_leaf o t r) = match l with Nil => false | _ => true end).
  { unfold is_leaf, get_children. destruct l as [|a k s].
    - cbn [roots map] in P. apply Permutation_sym, Permutation_nil in P. rewrite P. reflexivity.
    - destruct (kids o t (Some (a_pk r))) as [|z zs]; [|reflexivity]. apply Permutation_nil in P. discriminate P. }
  rewrite Lf. destruct l as [|a k s].
  - rewrite then_ok. cbn. lia.
  - destruct (tree_count o so t (Cons a k s)) with (fuel := S (length t)) (up := Some (a_pk r)) (d := (d + 1)%Z) (lv := lv) as (I1 & I2); auto; try lia.
    { eapply wf_kids with (q := Some _); [exact W|exact El]. }
    { eapply fit_kids; eauto. }
    { rewrite (fits_length so t F W Fit). apply kids_size in El. lia. }
    destruct (collect_count (fun n => ask sub <- AL.tree_rec o (S (length t)) t (Some (a_pk n)) (has_children t (a_pk n)) (d + 1 + 1)%Z (maxd lv (d + 1));
                            free (Ok (mkAObj n (Some (d + 1)%Z) :: sub))) (kids o t (Some (a_pk r)))) as ((L & E1) & E2).
    { intros x Hx. apply (Permutation_in _ P) in Hx. apply in_map_iff in Hx. destruct Hx as (b & <- & Hb). apply I1. auto. }
    rewrite (perm_sum _ _ _ P), map_map in E2. rewrite I2 in E2. cbn [andthen query].
    match goal with |- context [AL.collect ?f ?l] => destruct (AL.collect f l) as [r' n'] end.
    cbn [fst snd] in *. subst. cbn. lia.
Qed.
End Reads.
