(** Theorems about annotated lists (C36) for the four implementations. *)
From Coq Require Import String List Arith Lia Bool ZArith Permutation.
From Verif Require Import Prelude Forest SpecFacts SpecSane CommonModel Order History SpecKids Fixture AnnModel AnnFacts.
From Verif Require MPModel MPInv MPReads PropsMP NSModel NSInv NSReads PropsNS ALModel ALInv ALReads ALAnswers PropsAL
  LTModel LTInv LTReads PropsLT.
Import ListNotations.
Local Open Scope nat_scope.

(** The specification: [html B] is the nested list markup of the forest [B]; [right_list]
    says that the template makes this markup of the list and that the levels are those of
    [B], counted from the top of the branch; [up_to m d B] are the levels of [B] up to the
    absolute level [m] when its top is at level [d]. *)

(** The loop on its own: for every forest whose top is at level [d] or deeper. *)
Theorem C36_loop {A} (B : forest A) d : 1 <= d ->
  page (get_annotated_list_qs (leveled d B)) = html B /\
  map (fun x => (fst x, i_level (snd x))) (get_annotated_list_qs (leveled d B)) = leveled 0 B.
Proof. apply ann_forest. Qed.

(** The tree of the documentation's example (/repo/docs/source/api.rst:352-372):
    a(ab(aba, abb, abc), ac).  The documentation prints close [0,1] for abc and [0] for ac;
    the code gives [0] and [0,1], which is what balances the tags. *)
Example C36_loop_example :
  let B := Cons 1 (Cons 2 (Cons 3 Nil (Cons 4 Nil (Cons 5 Nil Nil))) (Cons 6 Nil Nil)) Nil in
  get_annotated_list_qs (leveled 1 B) =
    [(1, mkInfo true [] 0); (2, mkInfo true [] 1); (3, mkInfo true [] 2); (4, mkInfo false [] 2);
     (5, mkInfo false [0] 2); (6, mkInfo false [0; 1] 1)] /\
  html B = [Ul; Li; Txt 1; Ul; Li; Txt 2; Ul; Li; Txt 3; LiEnd; Li; Txt 4; LiEnd; Li; Txt 5; LiEnd; UlEnd;
            LiEnd; Li; Txt 6; LiEnd; UlEnd; LiEnd; UlEnd].
Proof. vm_compute. auto. Qed.

(** The levels that are shown. *)
Theorem C36_levels m d (B : forest node) : leveled d (up_to (Some m) d B) =
  if (m =? 0)%Z then leveled d B else filter (fun x => snd x <=? m)%Z (leveled d B).
Proof. apply up_to_spec. Qed.

(** ** Materialized paths *)
Theorem C36_mp cfg t F parent m : 2 <= MPModel.radix cfg -> 1 <= MPModel.steplen cfg -> MPInv.stores cfg t F ->
  (forall p, parent = Some p -> In p t) -> let p := option_map MPModel.m_pk parent in
  right_list MPReads.node_of (mp_annotated_list t parent m) (up_to m (top_level p F) (branch p F)).
Proof.
  intros R2 S1 St Hp p. assert (W := PropsMP.stores_wf _ _ _ St).
  assert (Sub : forall r, In r (MPModel.get_tree t parent None) -> In r t).
  { intros r Hr. assert (X : forall P, In r (MPModel.order_path (filter P t)) -> In r t).
    { intros P H. apply (Permutation_in _ (isort_perm _ _)) in H. apply filter_In in H. tauto. }
    unfold MPModel.get_tree in Hr. destruct parent as [q|]; [destruct (MPModel.is_leaf q)|]; eauto. }
  apply (listing_ok MPReads.node_of (fun r => Z.of_nat (MPModel.m_depth r)) F p m (MPModel.get_tree t parent None) W).
  - intros q E. destruct parent as [r|]; [|discriminate]. injection E as <-. eapply PropsMP.stores_ids; eauto.
  - destruct parent as [r|]; [|apply (PropsMP.C07_tree cfg R2 S1 t F None St)].
    destruct (PropsMP.C07_descendants cfg R2 S1 t F r None St (Hp r eq_refl)) as (k & Ek & E & _).
    rewrite E. symmetry. apply (branch_preorder F (MPReads.node_of r) k); auto.
    assert (E0 := PropsMP.C07_tree cfg R2 S1 t F None St). cbn [prune_opt] in E0. rewrite <- E0. apply in_map.
    apply (Permutation_in _ (Permutation_sym (isort_perm _ _))). apply filter_In. auto.
  - intros r Hr. destruct (PropsMP.C07_ancestors cfg R2 S1 t F r St (Sub r Hr)) as (l & El & _ & Ed & _). exists l. split; auto.
Qed.

(** ** Nested sets *)
Theorem C36_ns t F parent m : NSInv.stores t F ->
  (forall p, parent = Some p -> In p t) -> let p := option_map NSModel.n_pk parent in
  right_list NSReads.row_node (ns_annotated_list t parent m) (up_to m (top_level p F) (branch p F)).
Proof.
  intros St Hp p. assert (W := PropsNS.stores_wf _ _ St).
  assert (Sub : forall r, In r (NSModel.get_tree t parent None) -> In r t).
  { intros r Hr. assert (X : forall P, In r (NSModel.order_rows (filter P t)) -> In r t).
    { intros P H. apply (Permutation_in _ (isort_perm _ _)) in H. apply filter_In in H. tauto. }
    unfold NSModel.get_tree in Hr. destruct parent as [q|]; [destruct (NSModel.is_leaf q)|]; eauto. }
  assert (All : forall r, In r t -> In (NSReads.row_node r) (preorder F)).
  { intros r Hr. destruct (PropsNS.C20_tree t F None St) as (E & _). cbn [option_map prune_opt] in E.
    change (NSReads.levels None) with (@None nat) in E. cbn in E.
    rewrite <- E. apply in_map. apply (Permutation_in _ (Permutation_sym (isort_perm _ _))). apply filter_In. auto. }
  apply (listing_ok NSReads.row_node NSModel.n_depth F p m (NSModel.get_tree t parent None) W).
  - intros q E. destruct parent as [r|]; [|discriminate]. injection E as <-. apply (in_map nid _ _ (All r (Hp r eq_refl))).
  - destruct parent as [r|]; [|apply (PropsNS.C20_tree t F None St)].
    destruct (PropsNS.C20_descendants t F r None St (Hp r eq_refl)) as (k & Ek & E & _).
    cbn [option_map] in E. rewrite E. symmetry. apply (branch_preorder F (NSReads.row_node r) k); auto.
  - intros r Hr. destruct (PropsNS.C20_ancestors t F r St (Sub r Hr)) as (l & El & _ & Ed & _). exists l. split; auto.
    rewrite Ed. lia.
Qed.

(** ** ltree, without [max_depth] (or 0); any other limit raises FieldError, C36_lt_limit *)
Theorem C36_lt cfg t F parent m : LTInv.stores cfg t F -> (forall p, parent = Some p -> In p t) ->
  m = None \/ m = Some 0%Z -> let p := option_map LTModel.l_pk parent in
  exists L, lt_annotated_list t parent m = Ok L /\ right_list LTReads.node_of L (branch p F).
Proof.
  intros St Hp Hm p. assert (W := PropsLT.stores_wf _ _ _ St).
  assert (Sub : forall r, In r (LTModel.get_tree t parent None) -> In r t).
  { intros r Hr. unfold LTModel.get_tree in Hr. apply (Permutation_in _ (isort_perm _ _)) in Hr. apply filter_In in Hr. tauto. }
  assert (All : forall r, In r t -> In (LTReads.node_of r) (preorder F)).
  { intros r Hr. assert (E := PropsLT.C32_tree cfg t F None St). cbn in E. rewrite <- E. apply in_map.
    apply (Permutation_in _ (Permutation_sym (isort_perm _ _))). apply filter_In. auto. }
  assert (G : right_list LTReads.node_of (get_annotated_list_qs (map (fun r => (r, Z.of_nat (LTModel.get_depth r))) (LTModel.get_tree t parent None))) (branch p F)).
  { apply (listing_ok LTReads.node_of (fun r => Z.of_nat (LTModel.get_depth r)) F p None (LTModel.get_tree t parent None) W).
    - intros q E. destruct parent as [r|]; [|discriminate]. injection E as <-. apply (in_map nid _ _ (All r (Hp r eq_refl))).
    - destruct parent as [r|]; [|apply (PropsLT.C32_tree cfg t F None St)].
      destruct (PropsLT.C32_descendants cfg t F r None St (Hp r eq_refl)) as (k & Ek & E & _); [discriminate|].
      rewrite E. symmetry. apply (branch_preorder F (LTReads.node_of r) k); auto.
    - intros r Hr. destruct (PropsLT.C32_ancestors cfg t F r St (Sub r Hr)) as (l & El & _ & Ed & _). exists l. split; auto. }
  eexists. destruct Hm as [-> | ->]; split; try exact G; reflexivity.
Qed.

(** ** Adjacency lists *)
Section AL.
Import ALModel ALInv ALReads ALAnswers.
Local Open Scope Z_scope.

Lemma al_depth_right o t F n : stores o t F -> In (o_row n) t -> good_depth F n -> exists A c,
  ancestors_of (a_pk (o_row n)) F = Some A /\ get_depth t n false = Ok (Z.of_nat (S (length A)), mkAObj (o_row n) c).
Proof.
  intros (W & _ & so & Fit & _) Hn Hg. destruct (read_depth so t F W Fit _ Hn) as (A & EA & Ec).
  assert (Hc : cache_pos n).
  { unfold cache_pos. destruct (o_depth n) as [z|] eqn:Ez; auto. rewrite (Hg _ _ Ez EA). lia. }
  destruct (get_depth_ok so t F W Fit n false Hn Hc) as (z & c & Ed & _ & X). exists A, c. split; auto. rewrite Ed. do 2 f_equal.
  unfold get_depth in Ed. destruct (o_depth n) as [y|] eqn:Ey.
  - destruct (a_parent (o_row n)) eqn:Ep; injection Ed as <- _; [apply (Hg _ _ Ey EA)|].
    destruct (fits_pk so t F W Fit _ Hn) as (Hi & P & _). rewrite Ep in P.
    destruct (anc_parent _ F W Hi) as (A0 & E0 & [(_ & ->)|(q & A' & P' & _)]); [|congruence].
    rewrite EA in E0. injection E0 as ->. auto.
  - destruct X as (A' & EA' & X); auto. congruence.
Qed.

Lemma al_depths_right o t F : stores o t F -> forall l, (forall n, In n l -> In (o_row n) t /\ good_depth F n) ->
  exists l', al_depths t l = Ok l' /\
    map (fun x => (obj_node (fst x), snd x)) l' =
    map (fun n => (obj_node n, match ancestors_of (nid (obj_node n)) F with Some A => Z.of_nat (S (length A)) | None => 0 end)) l.
Proof.
  intros St. induction l as [|n l IH]; intros H; [exists []; auto|].
  destruct (H n (or_introl eq_refl)) as (Hn & Hg). destruct (al_depth_right o t F n St Hn Hg) as (A & c & EA & Ed).
  destruct IH as (l' & E & M); [intros; apply H; right; auto|].
  exists ((mkAObj (o_row n) c, Z.of_nat (S (length A))) :: l'). split.
  - cbn [al_depths]. rewrite Ed. cbn [bind]. rewrite E. auto.
  - cbn [map fst snd]. rewrite M. f_equal. unfold obj_node at 3. cbn [row_node nid]. rewrite EA. auto.
Qed.

Lemma al_listing o t F parent : stores o t F -> answers o t F ->
  (forall p, parent = Some p -> In (o_row p) t /\ good_depth F p) ->
  let p := option_map (fun p => a_pk (o_row p)) parent in
  exists L, get_tree o t parent None = Ok L /\ map obj_node L = preorder (branch p F) /\
     forall n, In n L -> In (o_row n) t /\ good_depth F n.
Proof.
  intros St AN Hp p. assert (W := PropsAL.stores_wf _ _ _ St).
  assert (All : forall r, In r t -> In (row_node r) (preorder F)).
  { intros r Hr. destruct St as (_ & _ & so & Fit & _). destruct (fits_pk so t F W Fit r Hr) as (_ & _ & X & _). apply (kl_pre _ _ _ X). }
  assert (Hq : forall q, p = Some q -> In q (ids F)).
  { intros q E. destruct parent as [r|]; [|discriminate]. injection E as <-. apply (in_map nid _ _ (All _ (proj1 (Hp r eq_refl)))). }
  destruct (branch_levels F p W Hq) as (X1 & X2).
  (* objects with their levels *)
  assert (GD : forall L d B, map with_level L = map at_level (preorder_d d B) -> incl (preorder_d d B) (preorder_d 1 F) ->
     forall x, In x L -> good_depth F x).
  { intros L d B E I x Hx z A Ez EA. assert (Hw : In (with_level x) (map at_level (preorder_d d B))) by (rewrite <- E; apply in_map; auto).
    apply in_map_iff in Hw. destruct Hw as ((e & b) & Hw & Hb). unfold with_level, at_level in Hw. cbn [fst snd] in Hw.
    rewrite Ez in Hw. injection Hw as Hw1 Hw2. destruct (level_anc F 1 e b W (I _ Hb)) as (A' & EA' & Ee).
    rewrite Hw2 in EA'. unfold obj_node in EA'. cbn [row_node nid] in EA'. rewrite EA in EA'. injection EA' as <-. lia. }
    destruct parent as [r|].
    - destruct (Hp r eq_refl) as (Hr & Hg). destruct (an_descendants _ _ _ AN r None Hr Hg) as (k & A & L & Ek & EA & _ & EL & HL & (c & Et & _) & _).
      destruct (al_depth_right o t F r St Hr Hg) as (A' & c' & EA' & Ed).
      exists (mkAObj (o_row r) c :: L). split; auto.
      assert (B : preorder (branch p F) = row_node (o_row r) :: preorder k) by (apply (branch_preorder F (row_node (o_row r)) k); auto).
      split.
      + rewrite B. cbn [map]. f_equal. assert (X : map snd (map with_level L) = map snd (map at_level (preorder_d (S (S (length A))) k))) by (rewrite EL; auto).
        rewrite !map_map in X. cbn [snd with_level at_level] in X. rewrite preorder_d_snd in X. exact X.
      + intros n [<-|Hn].
        * split; auto. intros z A2 Ez EA2. cbn [o_row o_depth] in *. 
          cbn [option_map] in Et. unfold get_tree in Et. rewrite Ed in Et. cbn [bind] in Et.
          destruct (tree_rec _ _ _ _ _ _ _) in Et; [|discriminate]. cbn [bind] in Et. injection Et as Et _. subst c'.
          (* the object returned by get_depth *)
          unfold get_depth in Ed. destruct (a_parent (o_row r)); [|injection Ed as _ Er; apply (Hg z A2); auto; rewrite Er; auto].
          destruct (o_depth r) as [y|] eqn:Ey; [injection Ed as _ Er; apply (Hg z A2); auto; rewrite Er; auto|].
          destruct (count_depth t (o_row r)); [|discriminate]. cbn [bind] in Ed. injection Ed as Ed1 Ed2. rewrite EA2 in EA'. injection EA' as ->. rewrite Ez in Ed2. injection Ed2 as ->. auto.
        * split; auto. apply (GD L (S (S (length A))) k); auto. 
          destruct (branch_levels F (Some (a_pk (o_row r))) W Hq) as (_ & I). cbn [top_level branch] in I. rewrite EA in I.
          assert (Es := subtree_children (a_pk (o_row r)) F). rewrite Ek in Es. destruct Es as (a & _ & _ & Es). rewrite Es in I.
          intros x Hx. apply I. right. cbn. rewrite app_nil_r. auto.
    - destruct (an_tree _ _ _ AN None) as (L & E & EL & HL). exists L. split; auto. split.
      + assert (X : map snd (map with_level L) = map snd (map at_level (preorder_d 1 F))) by (rewrite EL; auto).
        rewrite !map_map in X. cbn [snd with_level at_level] in X. rewrite preorder_d_snd in X. exact X.
      + intros n Hn. split; auto. apply (GD L 1%nat F); auto.
Qed.

(** Without [max_depth] (or 0): any other limit raises AttributeError, C36_al_limit.
    [answers] is what C27_reads gives for [F] if there are no ties, and C27_ties in general
    for some order of the tied siblings. *)
Theorem C36_al o t F parent m : stores o t F -> answers o t F ->
  (forall p, parent = Some p -> In (o_row p) t /\ good_depth F p) ->
  m = None \/ m = Some 0 -> let p := option_map (fun p => a_pk (o_row p)) parent in
  exists L, al_annotated_list o t parent m = Ok L /\ right_list obj_node L (branch p F).
Proof.
  intros St AN Hp Hm p. assert (W := PropsAL.stores_wf _ _ _ St).
  assert (All : forall r, In r t -> In (row_node r) (preorder F)).
  { intros r Hr. destruct St as (_ & _ & so & Fit & _). destruct (fits_pk so t F W Fit r Hr) as (_ & _ & X & _). apply (kl_pre _ _ _ X). }
  assert (Hq : forall q, p = Some q -> In q (ids F)).
  { intros q E. destruct parent as [r|]; [|discriminate]. injection E as <-. apply (in_map nid _ _ (All _ (proj1 (Hp r eq_refl)))). }
  destruct (branch_levels F p W Hq) as (X1 & X2).
  destruct (al_listing o t F parent St AN Hp) as (L & EL & ML & HL).
  destruct (al_depths_right o t F St L HL) as (L' & ED & MD).
  assert (R : right_list obj_node (get_annotated_list_qs L') (branch p F)).
  { apply (listing_qs obj_node (top_level p F) (branch p F) None L'); auto. rewrite MD.
    apply (listed_levels obj_node (fun n => match ancestors_of (nid (obj_node n)) F with Some A => Z.of_nat (S (length A)) | None => 0 end) F); auto.
    intros r Hr. destruct (HL r Hr) as (H1 & H2). destruct (al_depth_right o t F r St H1 H2) as (A & c & EA & _).
    exists A. unfold obj_node. cbn [row_node nid]. rewrite EA. auto. }
  exists (get_annotated_list_qs L'). split; auto. unfold al_annotated_list. rewrite EL. cbn [bind].
  destruct Hm as [-> | ->]; [|cbn [Z.eqb]]; rewrite ED; auto.
Qed.
End AL.

(** A limit cannot be used with these two implementations: a list has no method filter, and
    the model has no field depth. *)
Theorem C36_al_limit o t parent m qs : m <> 0%Z -> ALModel.get_tree o t parent None = Ok qs ->
  al_annotated_list o t parent (Some m) = Err AttributeError.
Proof. intros Hm E. unfold al_annotated_list. rewrite E. cbn [bind]. apply Z.eqb_neq in Hm. rewrite Hm. auto. Qed.

Theorem C36_lt_limit t parent m : m <> 0%Z -> lt_annotated_list t parent (Some m) = Err FieldError.
Proof. intros Hm. unfold lt_annotated_list. apply Z.eqb_neq in Hm. rewrite Hm. auto. Qed.

(** The branch of node 2 of the example tree, 2(4(6), 9(10)), and its first two levels. *)
Example C36_example :
  let t := MPModel.db_rows PropsMP.ex_db in let r := PropsMP.row PropsMP.ex_db 2 in
  In r t /\
  map (fun x => (MPModel.m_pk (fst x), snd x)) (mp_annotated_list t (Some r) None) =
    [(2, mkInfo true [] 0); (4, mkInfo true [] 1); (6, mkInfo true [0] 2); (9, mkInfo false [] 1); (10, mkInfo true [0; 1; 2] 2)] /\
  map (fun x => (MPModel.m_pk (fst x), snd x)) (mp_annotated_list t (Some r) (Some 2%Z)) =
    [(2, mkInfo true [] 0); (4, mkInfo true [] 1); (9, mkInfo false [0; 1] 1)] /\
  map nid (preorder (branch (Some 2) ex_F)) = [2; 4; 6; 9; 10].
Proof. vm_compute. auto 20. Qed.

(** Elsewhere max_depth counts from the given node (mp_tree.py:99-123, get_tree); here it is
    the absolute level: asking for one level below node 9 gives an empty list. *)
Theorem C36_relative_refuted : exists t r, MPInv.stores PropsMP.c10 t ex_F /\ In r t /\
  map MPModel.m_pk (MPModel.get_tree t (Some r) (Some 1)) = [9; 10] /\ mp_annotated_list t (Some r) (Some 1%Z) = [].
Proof.
  exists (MPModel.db_rows PropsMP.ex_db), (PropsMP.row PropsMP.ex_db 9). split; [apply PropsMP.ex_stores|].
  vm_compute. auto 20.
Qed.

(** A list with gaps (documented as incorrect, models.py:395-397): the tags do not balance. *)
Theorem C36_gaps_refuted : exists l : list (nat * Z), let p := page (get_annotated_list_qs l) in
  length (filter (fun x => match x with Ul => true | _ => false end) p) <>
  length (filter (fun x => match x with UlEnd => true | _ => false end) p).
Proof. exists [(1, 1%Z); (2, 3%Z); (3, 1%Z)]. vm_compute. discriminate. Qed.

Print Assumptions C36_loop.
Print Assumptions C36_mp.
Print Assumptions C36_ns.
Print Assumptions C36_al.
Print Assumptions C36_lt.
Print Assumptions C36_al_limit.
Print Assumptions C36_gaps_refuted.
Print Assumptions C36_levels.
Print Assumptions C36_lt_limit.
Print Assumptions C36_relative_refuted.
