(** The forest operations explained by the lists of children they change.

    An ordered forest is the same thing as the function that maps every node (and
    the root level) to its list of children, [kid_list].  Here each operation of
    Forest.v is characterised by what it does to that function, independently of
    the recursive definitions. *)
From Coq Require Import List Arith Lia Bool Permutation.
From Verif Require Import Prelude Forest SpecFacts.
Import ListNotations.

(** The children of [q] in order ([None]: the roots); nothing if there is no [q]. *)
Definition kid_list (q : option nat) (F : forest node) : option (list node) :=
  option_map (@roots node) (kids_of q F).

(** ** Forests are determined by their lists of children *)
Fixpoint rebuild (fuel : nat) (m : nat -> option (list node)) (L : list node) : forest node :=
  match fuel with
  | 0 => Nil
  | S fuel =>
      match L with
      | [] => Nil
      | a :: L' => Cons a (rebuild fuel m (match m (nid a) with Some K => K | None => [] end))
                     (rebuild fuel m L')
      end
  end.

Lemma rebuild_ok m : forall fuel f, size f < fuel -> wf_ids f ->
  (forall q k, children_of q f = Some k -> m q = Some (roots k)) -> rebuild fuel m (roots f) = f.
Proof.
  induction fuel as [|fuel IH]; intros f Hs W H; [lia|].
  destruct f as [|a k r]; [reflexivity|].
  assert (Wl := wf_cons_inv W). destruct Wl as (W1 & W2 & W3 & W4 & W5).
  cbn [size] in Hs. cbn [roots rebuild].
  rewrite (H (nid a) k) by (cbn [children_of]; rewrite Nat.eqb_refl; auto).
  rewrite !IH; auto; try lia.
  - intros q x E. apply H. cbn [children_of].
    assert (Hq : In q (ids r)).
    { destruct (in_dec Nat.eq_dec q (ids r)) as [|Hn]; auto. rewrite (children_of_notin q r Hn) in E. discriminate. }
    destruct (Nat.eqb_spec (nid a) q) as [Ea|_]; [subst q; tauto|].
    rewrite (children_of_notin q k); eauto.
  - intros q x E. apply H. cbn [children_of].
    assert (Hq : In q (ids k)).
    { destruct (in_dec Nat.eq_dec q (ids k)) as [|Hn]; auto. rewrite (children_of_notin q k Hn) in E. discriminate. }
    destruct (Nat.eqb_spec (nid a) q) as [Ea|_]; [subst q; tauto|].
    rewrite E. auto.
Qed.

Theorem kid_list_ext F G : wf_ids F -> wf_ids G ->
  (forall q, kid_list q F = kid_list q G) -> F = G.
Proof.
  intros WF WG H. set (m := fun q => kid_list (Some q) F).
  assert (EF : rebuild (S (size F + size G)) m (roots F) = F).
  { apply rebuild_ok; auto; [lia|]. intros q k E. unfold m, kid_list. cbn [kids_of]. rewrite E. auto. }
  assert (EG : rebuild (S (size F + size G)) m (roots G) = G).
  { apply rebuild_ok; auto; [lia|]. intros q k E. unfold m. rewrite H. unfold kid_list. cbn [kids_of]. rewrite E. auto. }
  assert (E := H None). unfold kid_list in E. cbn in E. injection E as E. congruence.
Qed.

(** ** Inserting *)
Lemma roots_at_node p h f : roots (at_node p h f) = roots f.
Proof.
  induction f as [|a k _ r IH]; auto. cbn [at_node]. destruct (nid a =? p); cbn [roots]; congruence.
Qed.

Lemma at_node_other p h q : q <> p -> forall F, wf_ids F ->
  (forall k, children_of p F = Some k ->
     option_map (@roots node) (children_of q (h k)) = option_map (@roots node) (children_of q k)) ->
  option_map (@roots node) (children_of q (at_node p h F)) = option_map (@roots node) (children_of q F).
Proof.
  intros Nq. induction F as [|a k IHk r IHr]; intros W H; auto.
  assert (Wl := wf_cons_inv W). destruct Wl as (W1 & W2 & W3 & W4 & W5).
  cbn [at_node children_of] in *. destruct (Nat.eqb_spec (nid a) p) as [Ea|Na].
  - cbn [children_of]. destruct (Nat.eqb_spec (nid a) q) as [Eq|_]; [congruence|].
    specialize (H k eq_refl). destruct (children_of q (h k)), (children_of q k); cbn in *; congruence.
  - cbn [children_of]. destruct (Nat.eqb_spec (nid a) q) as [Eq|Nq'].
    + cbn. rewrite roots_at_node. auto.
    + assert (Hk : option_map (@roots node) (children_of q (at_node p h k)) = option_map (@roots node) (children_of q k)).
      { apply IHk; auto. intros x Ex. apply H. rewrite Ex. auto. }
      assert (Hr : option_map (@roots node) (children_of q (at_node p h r)) = option_map (@roots node) (children_of q r)).
      { apply IHr; auto. intros x Ex. apply H.
        assert (In p (ids r)).
        { destruct (in_dec Nat.eq_dec p (ids r)) as [|Hn]; auto. rewrite (children_of_notin p r Hn) in Ex. discriminate. }
        rewrite (children_of_notin p k); eauto. }
      destruct (children_of q (at_node p h k)), (children_of q k); cbn in *; congruence.
Qed.

Lemma at_node_self p h F k : wf_ids F -> children_of p F = Some k -> children_of p (at_node p h F) = Some (h k).
Proof.
  induction F as [|a c IHc r IHr]; intros W E; [discriminate|].
  assert (Wl := wf_cons_inv W). destruct Wl as (W1 & W2 & W3 & W4 & W5).
  cbn [at_node children_of] in *. destruct (Nat.eqb_spec (nid a) p) as [Ea|Na]; cbn [children_of].
  - rewrite (proj2 (Nat.eqb_eq _ _) Ea). congruence.
  - rewrite (proj2 (Nat.eqb_neq _ _) Na). destruct (children_of p c) as [x|] eqn:Ec.
    + injection E as ->. rewrite IHc; auto.
    + rewrite at_node_notin.
      * rewrite Ec. apply IHr; auto.
      * intros Hp. destruct (kids_ctx _ _ Hp) as (l & Hl). destruct (Hl Nil) as (f' & C).
        assert (X := Ctx_kids_of C W3). cbn [kids_of] in X. congruence.
Qed.

Lemma children_of_fapp q f g :
  children_of q (fapp f g) = match children_of q f with Some k => Some k | None => children_of q g end.
Proof.
  induction f as [|a k _ r IH]; auto. cbn [fapp children_of].
  destruct (nid a =? q); auto. rewrite IH. destruct (children_of q k); auto.
Qed.

(** Every place splits a list of children. *)
Definition place_ok (w : place) (L : list node) : Prop :=
  match w with PBefore s | PAfter s => In s (map nid L) | _ => True end.

Lemma first_split (P : node -> bool) L :
  (exists L1 a L2, L = L1 ++ a :: L2 /\ P a = true /\ forall x, In x L1 -> P x = false) \/
  (forall x, In x L -> P x = false).
Proof.
  induction L as [|b L IH]; [right; intros x []|].
  destruct (P b) eqn:E.
  - left. exists [], b, L. repeat split; auto. intros x [].
  - destruct IH as [(L1 & a & L2 & -> & Pa & H)|H].
    + left. exists (b :: L1), a, L2. repeat split; auto. intros x [<-|Hx]; auto.
    + right. intros x [<-|Hx]; auto.
Qed.

Lemma ins_split_ex w L : place_ok w L -> exists L1 L2, L = L1 ++ L2 /\ ins_split w L1 L2.
Proof.
  destruct w as [| |s|s|gt]; cbn [place_ok ins_split]; intros H.
  - exists [], L. auto.
  - exists L, []. rewrite app_nil_r. auto.
  - destruct (first_split (fun x => nid x =? s) L) as [(L1 & a & L2 & -> & Pa & H')|H'].
    + exists L1, (a :: L2). apply Nat.eqb_eq in Pa. split; auto. split.
      * intros x Hx. apply Nat.eqb_neq. auto.
      * exists a, L2. auto.
    + apply in_map_iff in H. destruct H as (x & E & Hx). apply H' in Hx. apply Nat.eqb_neq in Hx. tauto.
  - destruct (first_split (fun x => nid x =? s) L) as [(L1 & a & L2 & -> & Pa & H')|H'].
    + exists (L1 ++ [a]), L2. apply Nat.eqb_eq in Pa. rewrite <- app_assoc. split; auto.
      exists L1, a. repeat split; auto. intros x Hx. apply Nat.eqb_neq. auto.
    + apply in_map_iff in H. destruct H as (x & E & Hx). apply H' in Hx. apply Nat.eqb_neq in Hx. tauto.
  - destruct (first_split gt L) as [(L1 & a & L2 & -> & Pa & H')|H'].
    + exists L1, (a :: L2). split; auto. split; auto. intros b L' E. injection E as <- <-. auto.
    + exists L, []. rewrite app_nil_r. split; auto. split; auto. intros a L' E. discriminate.
Qed.

Lemma ids_tree a c : ids (Cons a c Nil) = nid a :: ids c.
Proof. rewrite ids_cons. f_equal. apply app_nil_r. Qed.

(** Inserting the tree [a] over [c] below [up]. *)
Lemma ins_lists up w a c F l : wf_ids F -> kids_of up F = Some l -> place_ok w (roots l) ->
  (forall i, In i (nid a :: ids c) -> ~ In i (ids F)) -> wf_ids c -> ~ In (nid a) (ids c) ->
  let G := at_kids up (ins w (Cons a c Nil)) F in
  exists L1 L2, roots l = L1 ++ L2 /\ ins_split w L1 L2 /\ kid_list up G = Some (L1 ++ a :: L2) /\
    (forall q, q <> up -> ~ In q (map Some (nid a :: ids c)) -> kid_list q G = kid_list q F) /\
    kid_list (Some (nid a)) G = Some (roots c) /\
    (forall q, In q (ids c) -> kid_list (Some q) G = kid_list (Some q) c).
Proof.
  intros W E Ok Fr Wc Na G. destruct (ins_split_ex w (roots l) Ok) as (L1 & L2 & EL & Sp).
  destruct (roots_app_split l L1 L2 EL) as (l1 & l2 & -> & <- & <-).
  assert (Ei : forall T, ins w T (fapp l1 l2) = fapp l1 (fapp T l2)) by (intros; apply ins_split_ok; auto).
  assert (Hin : forall i, In i (ids (fapp l1 l2)) -> In i (ids F)).
  { intros i Hi. destruct up as [p|]; cbn [kids_of] in E.
    - assert (Hp : In p (ids F)).
      { destruct (in_dec Nat.eq_dec p (ids F)) as [|Hn]; auto. rewrite (children_of_notin p F Hn) in E. discriminate. }
      destruct (kids_ctx _ _ Hp) as (l & Hl). destruct (Hl Nil) as (f' & C).
      assert (X := Ctx_kids_of C W). cbn [kids_of] in X. rewrite E in X. injection X as <-.
      apply (Ctx_incl i C); auto.
    - injection E as E. rewrite E. auto. }
  (* the children of [q] below the changed list *)
  assert (Hq : forall q, ~ In q (nid a :: ids c) ->
    children_of q (ins w (Cons a c Nil) (fapp l1 l2)) = children_of q (fapp l1 l2)).
  { intros q Hq. cbn in Hq. rewrite Ei, !children_of_fapp. cbn [children_of].
    destruct (Nat.eqb_spec (nid a) q) as [Ea|_]; [tauto|].
    rewrite (children_of_notin q c) by tauto. auto. }
  assert (Hc : forall q k, children_of q (Cons a c Nil) = Some k ->
    children_of q (ins w (Cons a c Nil) (fapp l1 l2)) = Some k).
  { intros q k Hk. rewrite Ei, !children_of_fapp, Hk.
    assert (In q (nid a :: ids c)).
    { destruct (in_dec Nat.eq_dec q (ids (Cons a c Nil))) as [H|H].
      - rewrite ids_tree in H. auto.
      - rewrite (children_of_notin _ _ H) in Hk. discriminate. }
    rewrite (children_of_notin q l1); auto. intros Hl. apply (Fr q); auto. apply Hin. rewrite ids_fapp, in_app_iff. auto. }
  assert (Hsub : forall q k, children_of q (Cons a c Nil) = Some k -> children_of q G = Some k).
  { intros q k Hk. unfold G. destruct up as [p|]; cbn [at_kids kids_of] in *.
    - assert (Hp : In p (ids F)).
      { destruct (in_dec Nat.eq_dec p (ids F)) as [|Hn]; auto. rewrite (children_of_notin p F Hn) in E. discriminate. }
      destruct (kids_ctx _ _ Hp) as (l & Hl). destruct (Hl (ins w (Cons a c Nil) l)) as (f' & C).
      assert (X := Ctx_kids_of C W). cbn [kids_of] in X. rewrite E in X. injection X as <-.
      assert (Y := Ctx_at_kids (ins w (Cons a c Nil)) C W eq_refl). cbn [at_kids] in Y. rewrite Y.
      assert (Hn : In q (nid a :: ids c)).
      { destruct (in_dec Nat.eq_dec q (ids (Cons a c Nil))) as [H|H].
        - rewrite ids_tree in H. auto.
        - rewrite (children_of_notin _ _ H) in Hk. discriminate. }
      apply Fr in Hn. specialize (Hc q k Hk). clear - C Hn Hc. set (l' := ins w (Cons a c Nil) (fapp l1 l2)) in *. clearbody l'.
      set (l := fapp l1 l2) in *. clearbody l.
      revert Hn. remember (Some p) as up.
      induction C as [|b l l' rb|up b kb kb' l l' rb C IH|up b kb l l' rb rb' C IH]; try discriminate;
        rewrite ?ids_cons; cbn [In]; rewrite ?in_app_iff; intros Hn; cbn [children_of];
        (destruct (Nat.eqb_spec (nid b) q); [tauto|]).
      + rewrite Hc. auto.
      + rewrite IH by tauto. auto.
      + rewrite (children_of_notin q kb) by tauto. apply IH; tauto.
    - injection E as ->. auto. }
  exists (roots l1), (roots l2). rewrite roots_fapp. split; [auto|]. split; [auto|]. split; [|split; [|split]].
  - unfold kid_list, G. destruct up as [p|]; cbn [kids_of at_kids] in *.
    + rewrite (at_node_self p _ F _ W E), Ei. cbn. rewrite !roots_fapp. auto.
    + injection E as ->. rewrite Ei. cbn. rewrite !roots_fapp. auto.
  - intros q Nq Hn. unfold kid_list, G. destruct up as [p|], q as [q|]; cbn [kids_of at_kids] in *; try congruence.
    + apply at_node_other; [congruence|auto|]. intros k Ek. rewrite E in Ek. injection Ek as <-.
      rewrite Hq; auto. intros H. apply Hn. cbn [map In]. destruct H as [->|H]; [left; auto|right; apply in_map; auto].
    + cbn. rewrite roots_at_node. auto.
    + injection E as ->. rewrite Hq; auto. intros H. apply Hn. cbn [map In]. destruct H as [->|H]; [left; auto|right; apply in_map; auto].
  - unfold kid_list. cbn [kids_of]. rewrite (Hsub (nid a) c); auto. cbn [children_of]. rewrite Nat.eqb_refl. auto.
  - intros q Hin'. unfold kid_list. cbn [kids_of]. destruct (kids_ctx _ _ Hin') as (x & Hx). destruct (Hx Nil) as (f' & C).
    assert (X := Ctx_kids_of C Wc). cbn [kids_of] in X. rewrite X, (Hsub q x); auto.
    cbn [children_of]. destruct (Nat.eqb_spec (nid a) q) as [Ea|_]; [subst q; tauto|]. rewrite X. auto.
Qed.

Lemma kids_in q F l i : kids_of q F = Some l -> In i (ids l) -> In i (ids F).
Proof.
  destruct q as [q|]; cbn [kids_of]; [|congruence]. revert l.
  induction F as [|a k IHk r IHr]; intros l E Hi; [discriminate|].
  cbn [children_of] in E. rewrite ids_cons. cbn [In]. rewrite in_app_iff.
  destruct (nid a =? q); [injection E as ->; auto|].
  destruct (children_of q k); [injection E as ->|]; eauto.
Qed.

Lemma children_some q F : In q (ids F) -> exists l, children_of q F = Some l.
Proof.
  induction F as [|a k IHk r IHr]; [intros []|]. rewrite ids_cons. cbn [In children_of]. rewrite in_app_iff.
  intros H. destruct (Nat.eqb_spec (nid a) q); eauto. destruct H as [H|[H|H]]; [tauto| |].
  - destruct (IHk H) as (l & ->). eauto.
  - destruct (children_of q k); eauto.
Qed.

Lemma children_in q F l : children_of q F = Some l -> In q (ids F).
Proof.
  intros E. destruct (in_dec Nat.eq_dec q (ids F)) as [|Hn]; auto. rewrite (children_of_notin q F Hn) in E. discriminate.
Qed.

Lemma children_sub n F c p : wf_ids F -> children_of n F = Some c -> In p (ids c) ->
  children_of p F = children_of p c.
Proof.
  induction F as [|a k IHk r IHr]; intros W E Hp; [discriminate|].
  assert (Wl := wf_cons_inv W). destruct Wl as (W1 & W2 & W3 & W4 & W5). cbn [children_of] in *.
  assert (P := kids_in (Some n)). cbn [kids_of] in P.
  destruct (Nat.eqb_spec (nid a) n) as [Ea|Na].
  - injection E as ->. destruct (Nat.eqb_spec (nid a) p) as [Eb|_]; [subst p; tauto|].
    destruct (children_some p c Hp) as (l & ->). auto.
  - destruct (children_of n k) as [x|] eqn:Ek.
    + injection E as ->. assert (Hk := P k c p Ek Hp).
      destruct (Nat.eqb_spec (nid a) p) as [Eb|_]; [subst p; tauto|].
      rewrite IHk; auto. destruct (children_some p c Hp) as (l & ->). auto.
    + assert (Hr := P r c p E Hp).
      destruct (Nat.eqb_spec (nid a) p) as [Eb|_]; [subst p; tauto|].
      rewrite (children_of_notin p k); eauto.
Qed.

Lemma subtree_children n F : match children_of n F with
  | Some c => exists a, nid a = n /\ In a (preorder F) /\ subtree n F = Cons a c Nil
  | None => subtree n F = Nil
  end.
Proof.
  induction F as [|a k IHk r IHr]; cbn [children_of subtree preorder]; auto.
  destruct (Nat.eqb_spec (nid a) n) as [E|N]; [exists a; cbn; auto|].
  destruct (children_of n k) as [c|].
  - destruct IHk as (b & Eb & Hb & ->). exists b. cbn [In]. rewrite in_app_iff. auto.
  - rewrite IHk. destruct (children_of n r) as [c|]; auto.
    destruct IHr as (b & Eb & Hb & ->). exists b. cbn [In]. rewrite in_app_iff. auto.
Qed.

Lemma parent_kids s F : wf_ids F -> In s (ids F) ->
  exists up l, parent_of s F = Some up /\ kids_of up F = Some l /\ In s (map nid (roots l)).
Proof.
  intros W H. destruct (node_ctx _ _ H) as (up & l & Hl & C). destruct (C Nil) as (f' & Cx).
  exists up, l. split; [apply (Ctx_parent_of s Cx W Hl)|]. split; auto. apply (Ctx_kids_of Cx W).
Qed.

(** *** The add operations *)
(** [G] is [F] with the new leaf [x] put between the children [L1] and [L2] of [up]. *)
Record added (F G : forest node) (up : option nat) (x : node) (L1 L2 : list node) : Prop := {
  ad_before : kid_list up F = Some (L1 ++ L2);
  ad_after : kid_list up G = Some (L1 ++ x :: L2);
  ad_leaf : kid_list (Some (nid x)) G = Some [];
  ad_rest : forall q, q <> up -> q <> Some (nid x) -> kid_list q G = kid_list q F }.

Lemma ins_added up w x F l : wf_ids F -> kids_of up F = Some l -> place_ok w (roots l) -> ~ In (nid x) (ids F) ->
  exists L1 L2, ins_split w L1 L2 /\ added F (at_kids up (ins w (leaf x)) F) up x L1 L2.
Proof.
  intros W E Ok Hx. destruct (ins_lists up w x Nil F l) as (L1 & L2 & EL & Sp & H1 & H2 & H3 & H4); auto.
  - intros i [<-|[]]. auto.
  - apply NoDup_nil.
  - exists L1, L2. split; auto. constructor; auto.
    + unfold kid_list. rewrite E. cbn. congruence.
    + intros q Nu Nq. apply H2; auto. intros [<-|[]]. tauto.
Qed.

(** A new root comes last; with a sorting, before the first greater root. *)
Theorem add_root_sane gt x F : wf_ids F -> ~ In (nid x) (ids F) ->
  exists L1 L2, added F (sp_add_root gt x F) None x L1 L2 /\
    match gt with None => L2 = [] | Some g => ins_split (PSorted g) L1 L2 end.
Proof.
  intros W Hx. destruct (ins_added None (match gt with None => PLast | Some g => PSorted g end) x F F W eq_refl) as (L1 & L2 & Sp & A); auto.
  - destruct gt; exact I.
  - exists L1, L2. split; [exact A|]. destruct gt; auto.
Qed.

Theorem add_child_sane gt p x F : wf_ids F -> In p (ids F) -> ~ In (nid x) (ids F) ->
  exists L1 L2, added F (sp_add_child gt p x F) (Some p) x L1 L2 /\
    match gt with None => L2 = [] | Some g => ins_split (PSorted g) L1 L2 end.
Proof.
  intros W Hp Hx. destruct (children_some p F Hp) as (l & E).
  destruct (ins_added (Some p) (match gt with None => PLast | Some g => PSorted g end) x F l W E) as (L1 & L2 & Sp & A); auto.
  - destruct gt; exact I.
  - exists L1, L2. split; [exact A|]. destruct gt; auto.
Qed.

(** A new sibling gets the parent of the target and the documented place. *)
Theorem add_sibling_sane t P gt x F : wf_ids F -> In t (ids F) -> ~ In (nid x) (ids F) -> is_sib_pos P ->
  exists up L1 L2, parent_of t F = Some up /\ added F (sp_add_sibling t P gt x F) up x L1 L2 /\
    ins_split (sib_place P t gt) L1 L2.
Proof.
  intros W Ht Hx HP. destruct (parent_kids t F W Ht) as (up & l & Ep & El & Hl).
  unfold sp_add_sibling. rewrite (resolve_sib P t gt F up HP Ep).
  destruct (ins_added up (sib_place P t gt) x F l W El) as (L1 & L2 & Sp & A); auto.
  - destruct P; cbn; auto.
  - exists up, L1, L2. auto.
Qed.

(** ** Removing *)
Lemma roots_remove n F : wf_ids F -> roots (remove n F) = drop n (roots F).
Proof.
  induction F as [|a k _ r IH]; intros W; auto.
  assert (Wl := wf_cons_inv W). destruct Wl as (W1 & W2 & W3 & W4 & W5).
  cbn [remove roots]. unfold drop. cbn [filter]. destruct (Nat.eqb_spec (nid a) n) as [E|N]; cbn [negb roots].
  - symmetry. apply drop_notin. intros H. apply roots_ids in H. congruence.
  - f_equal. apply IH; auto.
Qed.

Lemma remove_lists n F : wf_ids F -> forall q, q <> n -> (forall c, children_of n F = Some c -> ~ In q (ids c)) ->
  kid_list (Some q) (remove n F) = option_map (drop n) (kid_list (Some q) F).
Proof.
  unfold kid_list. cbn [kids_of].
  induction F as [|a k IHk r IHr]; intros W q Nq Hq; auto.
  assert (Wl := wf_cons_inv W). destruct Wl as (W1 & W2 & W3 & W4 & W5).
  cbn [remove children_of] in *. destruct (Nat.eqb_spec (nid a) n) as [Ea|Na].
  - destruct (Nat.eqb_spec (nid a) q) as [Eq|_]; [congruence|].
    rewrite (children_of_notin q k (Hq k eq_refl)).
    destruct (children_of q r) as [l|] eqn:E; auto. cbn. f_equal. symmetry. apply drop_notin.
    intros H. apply roots_ids in H. assert (X := kids_in (Some q) r l n E H). congruence.
  - cbn [children_of]. destruct (Nat.eqb_spec (nid a) q) as [Eq|Nq2].
    + cbn. f_equal. apply roots_remove; auto.
    + assert (Hk : option_map (@roots node) (children_of q (remove n k)) = option_map (drop n) (option_map (@roots node) (children_of q k))).
      { apply IHk; auto. intros c Ec. apply Hq. rewrite Ec. auto. }
      assert (Hr : option_map (@roots node) (children_of q (remove n r)) = option_map (drop n) (option_map (@roots node) (children_of q r))).
      { apply IHr; auto. intros c Ec. apply Hq. rewrite (children_of_notin n k); auto.
        intros H. apply (W5 n); auto. eapply children_in; eauto. }
      destruct (children_of q (remove n k)), (children_of q k); cbn in *; congruence.
Qed.

Lemma remove_gone n F c i : wf_ids F -> children_of n F = Some c -> i = n \/ In i (ids c) -> ~ In i (ids (remove n F)).
Proof.
  induction F as [|a k IHk r IHr]; intros W E Hi; [discriminate|].
  assert (Wl := wf_cons_inv W). destruct Wl as (W1 & W2 & W3 & W4 & W5).
  assert (P := kids_in (Some n)). cbn [kids_of] in P.
  assert (Ri : forall G, In i (ids (remove n G)) -> In i (ids G)).
  { intros G. induction G as [|b u IHu v IHv]; auto. cbn [remove]. rewrite ids_cons. cbn [In]. rewrite in_app_iff.
    destruct (nid b =? n); auto. rewrite ids_cons. cbn [In]. rewrite in_app_iff. tauto. }
  cbn [remove children_of] in *. destruct (Nat.eqb_spec (nid a) n) as [Ea|Na].
  - injection E as ->. subst n. destruct Hi as [->|Hi]; eauto.
  - rewrite ids_cons. cbn [In]. rewrite in_app_iff. destruct (children_of n k) as [x|] eqn:Ek.
    + injection E as ->. assert (Hk : In i (ids k)). { destruct Hi as [->|Hi]; eauto using children_in. }
      intros [H|[H|H]]; [subst i; tauto|apply (IHk W3 eq_refl Hi H)|]. apply Ri in H. eauto.
    + assert (Hr : In i (ids r)). { destruct Hi as [->|Hi]; eauto using children_in. }
      intros [H|[H|H]]; [subst i; tauto| |apply (IHr W4 E Hi H)]. apply Ri in H. eauto.
Qed.

Lemma opt_dec (x y : option nat) : {x = y} + {x <> y}.
Proof. decide equality. apply Nat.eq_dec. Qed.

(** ** Moving *)

(** [G] is [F] with the node [a] taken out of its place and put between [L1] and [L2],
    the other children of [up]; every other list of children just loses [a]. *)
Record moved (F G : forest node) (up : option nat) (a : node) (L1 L2 : list node) : Prop := {
  mv_node : In a (preorder F);
  mv_before : exists L, kid_list up F = Some L /\ drop (nid a) L = L1 ++ L2;
  mv_after : kid_list up G = Some (L1 ++ a :: L2);
  mv_rest : forall q, q <> up -> kid_list q G = option_map (drop (nid a)) (kid_list q F) }.

Theorem move_sane n t P gt F : wf_ids F -> In n (ids F) -> In t (ids F) -> ~ inside F n t P ->
  (n = t /\ (P = Left \/ P = Right) /\ sp_move n t P gt F = F) \/
  exists up a L1 L2,
    (if is_child_pos P then up = Some t else parent_of t F = Some up) /\
    nid a = n /\ moved F (sp_move n t P gt F) up a L1 L2 /\ ins_split (sib_place P t gt) L1 L2.
Proof.
  intros W Hn Ht NI.
  destruct (children_some n F Hn) as (c & Ec).
  assert (St := subtree_children n F). rewrite Ec in St. destruct St as (a & Ea & Ha & Es).
  (* the receiving list of children *)
  assert (Up : exists up l, resolve t P gt F = (up, sib_place P t gt) /\ kids_of up F = Some l /\
     (if is_child_pos P then up = Some t else parent_of t F = Some up /\ In t (map nid (roots l)))).
  { destruct (is_child_pos P) eqn:EP.
    - destruct (children_some t F Ht) as (l & El). exists (Some t), l. unfold resolve.
      destruct P; try discriminate; auto.
    - destruct (parent_kids t F W Ht) as (up & l & Ep & El & Hl). exists up, l. unfold resolve. rewrite Ep.
      destruct P; try discriminate; auto. }
  destruct Up as (up & l & Er & El & Hup).
  assert (Nup : forall q, up = Some q -> q <> n /\ ~ In q (ids c)).
  { intros q ->. destruct (is_child_pos P) eqn:EP.
    - injection Hup as ->. split.
      + intros ->. apply NI. right. auto.
      + intros H. apply NI. left. exists c. auto.
    - destruct Hup as (Ep & Hl). cbn [kids_of] in El. split.
      + intros ->. apply NI. left. exists c. split; auto. rewrite Ec in El. injection El as ->. apply roots_ids; auto.
      + intros H. apply NI. left. exists c. split; auto. rewrite (children_sub n F c q W Ec H) in El.
        apply (kids_in (Some q) c l t); auto. apply roots_ids; auto. }
  unfold sp_move. rewrite Er. destruct (place_is_self n (sib_place P t gt)) eqn:Ps.
  { left. destruct P; cbn in Ps; try discriminate; apply Nat.eqb_eq in Ps; auto. }
  right.
  assert (Wr : wf_ids (remove n F)) by (rewrite <- (remove_all_one n W); apply remove_all_wf; auto).
  assert (Lr : kid_list up (remove n F) = Some (drop n (roots l))).
  { destruct up as [q|].
    - rewrite remove_lists; auto.
      + unfold kid_list. rewrite El. auto.
      + apply (Nup q eq_refl).
      + intros c' Ec'. rewrite Ec in Ec'. injection Ec' as <-. apply (Nup q eq_refl).
    - unfold kid_list. cbn. f_equal. injection El as <-. apply roots_remove; auto. }
  unfold kid_list in Lr. destruct (kids_of up (remove n F)) as [l'|] eqn:El'; [|discriminate]. cbn in Lr. injection Lr as Lr.
  assert (Wc : wf_ids c).
  { destruct (kids_ctx _ _ Hn) as (x & Hx). destruct (Hx Nil) as (f' & C).
    assert (X := Ctx_kids_of C W). cbn [kids_of] in X. rewrite Ec in X. injection X as <-. apply (Ctx_wf_l C W). }
  assert (Nac : ~ In n (ids c)).
  { intros H. assert (X := children_sub n F c n W Ec H). rewrite Ec in X. symmetry in X.
    assert (S1 : forall G k, children_of n G = Some k -> size k < size G).
    { clear. induction G as [|b u IHu v IHv]; intros k E; [discriminate|]. cbn [children_of size] in *.
      destruct (nid b =? n); [injection E as ->; lia|].
      destruct (children_of n u); [injection E as ->; specialize (IHu _ eq_refl); lia|specialize (IHv _ E); lia]. }
    apply S1 in X. lia. }
  rewrite Es.
  destruct (ins_lists up (sib_place P t gt) a c (remove n F) l') as (L1 & L2 & EL & Sp & H1 & H2 & H3 & H4); auto.
  - rewrite Lr. destruct P; cbn; auto; cbn in Hup, Ps; destruct Hup as (_ & Hup); apply Nat.eqb_neq in Ps;
      apply in_map_iff in Hup; destruct Hup as (x & Ex & Hx); apply in_map_iff; exists x; split; auto;
      apply drop_in; split; auto; congruence.
  - intros i Hi. apply (remove_gone n F c i W Ec). destruct Hi as [<-|Hi]; auto.
  - congruence.
  - exists up, a, L1, L2. split; [destruct (is_child_pos P); tauto|]. split; [auto|]. split; [|auto].
    constructor; auto.
    + exists (roots l). split; [unfold kid_list; rewrite El; auto|congruence].
    + intros q Nq. rewrite Ea. destruct (in_dec opt_dec q (map Some (nid a :: ids c))) as [Hin|Hout].
      * destruct Hin as [<-|Hin].
        -- rewrite H3. unfold kid_list. cbn [kids_of]. rewrite Ea, Ec. cbn. f_equal. symmetry. apply drop_notin.
           intros H. apply roots_ids in H. tauto.
        -- apply in_map_iff in Hin. destruct Hin as (i & <- & Hi). rewrite (H4 i Hi). unfold kid_list. cbn [kids_of].
           rewrite (children_sub n F c i W Ec Hi). destruct (children_of i c) as [k|] eqn:Ek; auto. cbn. f_equal.
           symmetry. apply drop_notin. intros H. apply roots_ids in H. apply Nac. apply (kids_in (Some i) c k n); auto.
      * rewrite H2 by auto. destruct q as [q|].
        -- apply remove_lists; auto.
           ++ intros ->. apply Hout. left. congruence.
           ++ intros c' Ec'. rewrite Ec in Ec'. injection Ec' as <-. intros H. apply Hout. right. apply in_map. auto.
        -- unfold kid_list. cbn. f_equal. apply roots_remove; auto.
Qed.

(** ** Deleting *)

(** [q] survives when neither it nor an ancestor is selected; its children lose the
    selected ones.  The others are gone. *)
Theorem remove_all_sane S F q A : wf_ids F -> ancestors_of q F = Some A ->
  kid_list (Some q) (remove_all S F) =
    if S q || existsb (fun a => S (nid a)) A then None
    else option_map (filter (fun x => negb (S (nid x)))) (kid_list (Some q) F).
Proof.
  unfold kid_list. cbn [kids_of]. revert A.
  assert (Rr : forall G, roots (remove_all S G) = filter (fun x => negb (S (nid x))) (roots G)).
  { induction G as [|b u _ v IH]; auto. cbn [remove_all roots filter]. destruct (S (nid b)); cbn [negb roots]; congruence. }
  induction F as [|a k IHk r IHr]; intros A W E; [discriminate|].
  assert (Wl := wf_cons_inv W). destruct Wl as (W1 & W2 & W3 & W4 & W5).
  assert (Kn : forall G, ancestors_of q G <> None -> In q (ids G)).
  { intros G H. destruct (in_dec Nat.eq_dec q (ids G)) as [|Hn]; auto. rewrite (ancestors_of_notin q G Hn) in H. tauto. }
  assert (Out : forall G, ~ In q (ids G) -> children_of q (remove_all S G) = None).
  { intros G H. apply children_of_notin. intros H'. apply remove_all_incl in H'. tauto. }
  cbn [ancestors_of children_of remove_all] in *. destruct (Nat.eqb_spec (nid a) q) as [Ea|Na].
  - injection E as <-. subst q. cbn [existsb]. rewrite orb_false_r. destruct (S (nid a)).
    + rewrite Out; auto.
    + cbn [children_of]. rewrite Nat.eqb_refl. cbn. f_equal. auto.
  - destruct (ancestors_of q k) as [l|] eqn:Ek.
    + injection E as <-. assert (Hq : In q (ids k)) by (apply Kn; congruence).
      cbn [existsb]. destruct (S (nid a)) eqn:Sa.
      * rewrite orb_true_r. rewrite Out; auto. eauto.
      * cbn [children_of orb]. rewrite (proj2 (Nat.eqb_neq _ _) Na).
        rewrite (Out r) by eauto. assert (X := IHk l W3 eq_refl).
        destruct (children_some q k Hq) as (x & Ex). rewrite Ex in *.
        destruct (children_of q (remove_all S k)); auto.
    + assert (Hq : In q (ids r)) by (apply Kn; congruence). assert (X := IHr A W4 E).
      rewrite (children_of_notin q k) by eauto. destruct (S (nid a)); auto.
      cbn [children_of]. rewrite (proj2 (Nat.eqb_neq _ _) Na). rewrite (Out k) by eauto. auto.
Qed.

Theorem remove_all_roots S F : kid_list None (remove_all S F) =
  option_map (filter (fun x => negb (S (nid x)))) (kid_list None F).
Proof.
  unfold kid_list. cbn. f_equal. induction F as [|b u _ v IH]; auto.
  cbn [remove_all roots filter]. destruct (S (nid b)); cbn [negb roots]; congruence.
Qed.
