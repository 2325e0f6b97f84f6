(** The read API of adjacency lists. *)
From Coq Require Import String List Arith ZArith Lia Bool Permutation Sorted.
From Verif Require Import Prelude Forest SpecFacts SpecSane CommonModel Order History SpecRun SpecKids ALModel ALInv.
Import ListNotations.

Lemma nhc_kids o t k : (if has_children t k then kids o t (Some k) else []) = kids o t (Some k).
Proof.
  destruct (has_children t k) eqn:E; auto. unfold kids. rewrite filter_none; auto.
  unfold has_children in E. rewrite existsb_false in E. auto.
Qed.

Lemma leaf_kids o t r : (if negb (is_leaf o t r) then kids o t (Some (a_pk r)) else []) = kids o t (Some (a_pk r)).
Proof. unfold is_leaf, get_children. destruct (kids o t (Some (a_pk r))); auto. Qed.

Lemma tree_rec_S o k t parent nhc depth m : tree_rec o (S k) t parent nhc depth m =
  if too_deep m depth then Ok []
  else collect (fun n => do sub <- tree_rec o k t (Some (a_pk n)) (has_children t (a_pk n)) (depth + 1)%Z m;
                         Ok (mkAObj n (Some depth) :: sub))
         (match parent with Some _ => if nhc then kids o t parent else [] | None => get_root_nodes o t end).
Proof. reflexivity. Qed.

(** ** Trees *)

(** The objects get_tree returns for a list of siblings below [up] at level [d]. *)
Fixpoint objs (so : nat -> Z) (up : option nat) (d : Z) (F : forest node) : list alobj :=
  match F with
  | Nil => []
  | Cons a k r => mkAObj (arow so up a) (Some d) :: objs so (Some (nid a)) (d + 1) k ++ objs so up d r
  end.

Definition obj_node (x : alobj) : node := row_node (o_row x).

Lemma objs_nodes so F : forall up d, map obj_node (objs so up d F) = preorder F.
Proof.
  induction F as [|a k IHk r IHr]; intros up d; auto. cbn [objs map preorder]. rewrite map_app, IHk, IHr.
  unfold obj_node at 1. cbn [o_row]. rewrite row_node_arow. auto.
Qed.

Lemma objs_depths so F : forall up d, map (fun x => (o_depth x, obj_node x)) (objs so up (Z.of_nat d) F)
  = map (fun x => (Some (Z.of_nat (fst x)), snd x)) (preorder_d d F).
Proof.
  induction F as [|a k IHk r IHr]; intros up d; auto. cbn [objs map preorder_d]. rewrite !map_app, IHr.
  unfold obj_node at 1. cbn [o_row o_depth fst snd]. rewrite row_node_arow.
  replace (Z.of_nat d + 1)%Z with (Z.of_nat (S d)) by lia. rewrite IHk. auto.
Qed.

Lemma objs_ids so F up d : map (fun x => a_pk (o_row x)) (objs so up d F) = ids F.
Proof.
  unfold ids. rewrite <- (objs_nodes so F up d), map_map. auto.
Qed.

Definition maxd (lv : option nat) (d : Z) : option Z :=
  match lv with None => None | Some n => Some (d - 1 + Z.of_nat n)%Z end.

Section Tree.
Variables (o : ordering) (so : nat -> Z) (t : al_table).

Definition listed_below (l : forest node) : Prop :=
  forall q c, children_of q l = Some c -> kids o t (Some q) = map (arow so (Some q)) (roots c).

Lemma tree_collect l : wf_ids l -> listed_below l -> forall fuel up d lv, size l <= fuel -> (1 <= d)%Z -> lv <> Some 0 ->
  collect (fun n => do sub <- tree_rec o fuel t (Some (a_pk n)) (has_children t (a_pk n)) (d + 1)%Z (maxd lv d);
                    Ok (mkAObj n (Some d) :: sub)) (map (arow so up) (roots l))
  = Ok (objs so up d (prune_opt lv l)).
Proof.
  induction l as [|a k IHk r IHr]; intros W H fuel up d lv Hs Hd Hl.
  - destruct lv; reflexivity.
  - assert (Wl := wf_cons_inv W). destruct Wl as (W1 & W2 & W3 & W4 & W5).
    cbn [size] in Hs. destruct fuel as [|fuel]; [lia|].
    assert (Ha : kids o t (Some (nid a)) = map (arow so (Some (nid a))) (roots k)).
    { apply H. cbn [children_of]. rewrite Nat.eqb_refl. auto. }
    assert (Hk : listed_below k).
    { intros q c E. apply H. cbn [children_of]. assert (X := children_in _ _ _ E).
      destruct (Nat.eqb_spec (nid a) q) as [Eq|_]; [subst q; tauto|]. rewrite E. auto. }
    assert (Hr : listed_below r).
    { intros q c E. apply H. cbn [children_of]. assert (X := children_in _ _ _ E).
      destruct (Nat.eqb_spec (nid a) q) as [Eq|_]; [subst q; tauto|]. rewrite (children_of_notin q k) by (intros Hq; eauto). auto. }
    cbn [roots map collect].
    specialize (IHr W4 Hr (S fuel) up d lv ltac:(lia) Hd Hl). rewrite IHr.
    assert (E : tree_rec o (S fuel) t (Some (a_pk (arow so up a))) (has_children t (a_pk (arow so up a))) (d + 1)%Z (maxd lv d)
      = Ok (objs so (Some (nid a)) (d + 1) (prune_opt (option_map pred lv) k))).
    { cbn [tree_rec a_pk arow]. destruct lv as [n|]; [destruct n as [|n]; [congruence|]|].
      - cbn [maxd option_map pred prune_opt too_deep]. destruct n as [|n].
        + replace (d - 1 + Z.of_nat 1 =? 0)%Z with false by (symmetry; apply Z.eqb_neq; lia).
          replace (d - 1 + Z.of_nat 1 <? d + 1)%Z with true by (symmetry; apply Z.ltb_lt; lia). cbn.
          destruct k; auto.
        + replace (d - 1 + Z.of_nat (S (S n)) =? 0)%Z with false by (symmetry; apply Z.eqb_neq; lia).
          replace (d - 1 + Z.of_nat (S (S n)) <? d + 1)%Z with false by (symmetry; apply Z.ltb_ge; lia). cbn [negb andb].
          rewrite nhc_kids, Ha. specialize (IHk W3 Hk fuel (Some (nid a)) (d + 1)%Z (Some (S n)) ltac:(lia) ltac:(lia)).
          cbn [maxd] in IHk. replace (d + 1 - 1 + Z.of_nat (S n))%Z with (d - 1 + Z.of_nat (S (S n)))%Z in IHk by lia.
          apply IHk. discriminate.
      - cbn [maxd option_map prune_opt too_deep]. rewrite nhc_kids, Ha.
        apply (IHk W3 Hk fuel (Some (nid a)) (d + 1)%Z None); [lia|lia|discriminate]. }
    rewrite E. cbn [bind]. destruct lv as [[|n]|]; [congruence| |]; reflexivity.
Qed.
End Tree.

(** ** All reads, for a table whose queries list siblings as in [F] *)
Section Reads.
Variables (o : ordering) (so : nat -> Z) (t : al_table) (F : forest node).
Hypothesis W : wf_ids F.
Hypothesis Fit : fits so t F.
Hypothesis Ls : lists o so t F.

Lemma read_roots : get_root_nodes o t = map (arow so None) (roots F).
Proof. apply (Ls None). Qed.

Lemma read_children r : In r t -> exists l, children_of (a_pk r) F = Some l /\
  get_children o t r = map (arow so (Some (a_pk r))) (roots l).
Proof.
  intros Hr. destruct (fits_pk so t F W Fit r Hr) as (Hi & _). destruct (children_some _ _ Hi) as (l & E).
  exists l. split; auto. unfold get_children. rewrite (Ls (Some (a_pk r))), (kl_some _ _ l); auto.
Qed.

Lemma read_siblings r : In r t -> get_siblings o t r = map (arow so (a_parent r)) (siblings_of (a_pk r) F).
Proof.
  intros Hr. destruct (fits_pk so t F W Fit r Hr) as (Hi & P & _). rewrite (siblings_kl _ _ _ P).
  unfold get_siblings. destruct (a_parent r); apply Ls.
Qed.

Lemma listed_all : listed_below o so t F.
Proof. intros q c E. rewrite (Ls (Some q)), (kl_some _ _ c); auto. Qed.

Lemma listed_kids n l : children_of n F = Some l -> listed_below o so t l.
Proof.
  intros E q c Eq. apply listed_all. rewrite (children_sub n F l q); auto. eapply children_in; eauto.
Qed.

Lemma kids_size n l : children_of n F = Some l -> size l < size F.
Proof.
  clear. revert l. induction F as [|a k IHk r IHr]; intros l E; [discriminate|]. cbn [children_of size] in *.
  destruct (nid a =? n); [injection E as ->; lia|]. destruct (children_of n k) as [c|].
  - injection E as ->. specialize (IHk l eq_refl). lia.
  - specialize (IHr l E). lia.
Qed.

Lemma read_tree lv : lv <> Some 0 ->
  get_tree o t None (option_map Z.of_nat lv) = Ok (objs so None 1 (prune_opt lv F)).
Proof.
  intros Hl. unfold get_tree. rewrite tree_rec_S.
  assert (E : option_map Z.of_nat lv = maxd lv 1) by (destruct lv; cbn; auto).
  rewrite E. replace (too_deep (maxd lv 1) 1) with false.
  - rewrite read_roots. apply tree_collect; auto; try lia.
    + apply listed_all.
    + rewrite (fits_length so t F W Fit). lia.
  - destruct lv as [n|]; auto. cbn [maxd too_deep]. symmetry. apply andb_false_iff. right. apply Z.ltb_ge.
    assert (n <> 0) by congruence. lia.
Qed.

(** *** Ancestors *)
Lemma chain_read : forall fuel r A, In r t -> ancestors_of (a_pk r) F = Some A -> length A < fuel ->
  exists L, up_chain fuel t r = Ok L /\ map row_node L = A /\ (forall x, In x L -> In x t).
Proof.
  induction fuel as [|fuel IH]; intros r A Hr E Hl; [lia|].
  destruct (fits_pk so t F W Fit r Hr) as (Hi & P & _).
  destruct (anc_parent _ F W Hi) as (A0 & E0 & H). rewrite E in E0. injection E0 as <-.
  cbn [up_chain]. destruct H as [(P' & ->)|(q & A' & P' & Hq & Eq & ->)].
  - rewrite P in P'. injection P' as ->. exists []. repeat split; auto. intros x [].
  - rewrite P in P'. injection P' as ->.
    assert (Hqi : In (nid q) (ids F)) by (apply in_map; auto).
    destruct (kl_ex F _ W Hqi) as (u & b & Hb & Eb & _).
    assert (b = q) as -> by (apply (node_eq F); eauto using kl_pre).
    rewrite (get_node so t F W Fit u q Hb). cbn [bind].
    destruct (IH (arow so u q) A') as (L & -> & EL & HL); auto.
    + eapply fits_node; eauto.
    + rewrite app_length in Hl. cbn in Hl. lia.
    + cbn [bind]. exists (L ++ [arow so u q]). rewrite map_app, EL. cbn [map]. rewrite row_node_arow.
      repeat split; auto. intros x Hx. apply in_app_iff in Hx. destruct Hx as [Hx|[<-|[]]]; auto. eapply fits_node; eauto.
Qed.

Lemma read_ancestors r : In r t -> exists L A, get_ancestors t r = Ok L /\ ancestors_of (a_pk r) F = Some A /\
  map row_node L = A /\ (forall x, In x L -> In x t).
Proof.
  intros Hr. destruct (fits_pk so t F W Fit r Hr) as (Hi & _).
  destruct (anc_parent _ F W Hi) as (A & E & _).
  destruct (chain_read (S (length t)) r A Hr E) as (L & EL & H1 & H2).
  - rewrite (fits_length so t F W Fit). assert (X := anc_length _ _ _ W E). lia.
  - exists L, A. auto.
Qed.

Lemma read_depth r : In r t -> exists A, ancestors_of (a_pk r) F = Some A /\ count_depth t r = Ok (Z.of_nat (S (length A))).
Proof.
  intros Hr. destruct (read_ancestors r Hr) as (L & A & E & EA & EL & _). exists A. split; auto.
  unfold count_depth. rewrite E. cbn [bind]. rewrite <- EL, map_length. f_equal. lia.
Qed.

(** The cached depth of a held object, if any, is positive (it may be outdated). *)
Definition cache_pos (n : alobj) : Prop := match o_depth n with Some d => (1 <= d)%Z | None => True end.

Lemma get_depth_ok n update : In (o_row n) t -> cache_pos n -> exists d c, get_depth t n update = Ok (d, mkAObj (o_row n) c) /\ (1 <= d)%Z /\
  (update = true \/ o_depth n = None -> exists A, ancestors_of (a_pk (o_row n)) F = Some A /\ d = Z.of_nat (S (length A))).
Proof.
  intros Hr Hc. unfold get_depth. destruct (read_depth _ Hr) as (A & EA & Ed).
  destruct (a_parent (o_row n)) as [p|] eqn:Ep.
  - assert (X : exists c, (do d <- count_depth t (o_row n); Ok (d, mkAObj (o_row n) (Some d)))
       = Ok (Z.of_nat (S (length A)), mkAObj (o_row n) c)) by (rewrite Ed; cbn [bind]; eauto).
    destruct X as (c & X). unfold cache_pos in Hc. destruct update, (o_depth n) as [d|] eqn:Eo.
    + rewrite X. exists (Z.of_nat (S (length A))), c. repeat split; eauto. lia.
    + rewrite X. exists (Z.of_nat (S (length A))), c. repeat split; eauto. lia.
    + exists d, (Some d). repeat split; auto.
      * destruct n; cbn in *; subst; auto.
      * intros [?|?]; discriminate.
    + rewrite X. exists (Z.of_nat (S (length A))), c. repeat split; eauto. lia.
  - exists 1%Z, (o_depth n). repeat split; [destruct n; auto|lia|]. intros _. exists A. split; auto.
    destruct (fits_pk so t F W Fit _ Hr) as (Hi & P & _). rewrite Ep in P.
    destruct (anc_parent _ F W Hi) as (A0 & E0 & [(_ & ->)|(q & A' & P' & _)]); [|congruence].
    rewrite EA in E0. injection E0 as ->. auto.
Qed.

Lemma read_descendants n lv : In (o_row n) t -> cache_pos n -> lv <> Some 0 ->
  exists l d c, children_of (a_pk (o_row n)) F = Some l /\
    get_depth t n false = Ok (d, mkAObj (o_row n) c) /\
    get_tree o t (Some n) (option_map Z.of_nat lv) =
      Ok (mkAObj (o_row n) c :: objs so (Some (a_pk (o_row n))) (d + 1) (prune_opt lv l)).
Proof.
  intros Hr Hc Hl. destruct (read_children _ Hr) as (l & El & Ek).
  destruct (get_depth_ok n false Hr Hc) as (d & c & Ed & Hd & _). exists l, d, c. split; auto. split; auto.
  unfold get_tree. rewrite Ed. cbn [bind o_row].
  assert (E : match option_map Z.of_nat lv with Some v => if (v =? 0)%Z then Some v else Some (v + d)%Z | None => None end
     = maxd lv (d + 1)).
  { destruct lv as [n0|]; auto. cbn [option_map maxd]. assert (n0 <> 0) by congruence.
    replace (Z.of_nat n0 =? 0)%Z with false by (symmetry; apply Z.eqb_neq; lia). f_equal. lia. }
  rewrite E, tree_rec_S, leaf_kids. unfold get_children in Ek. rewrite Ek.
  replace (too_deep (maxd lv (d + 1)) (d + 1)) with false.
  - rewrite (tree_collect o so t l); auto; try lia.
    + eapply wf_kids with (q := Some _); [exact W|exact El].
    + eapply listed_kids; eauto.
    + rewrite (fits_length so t F W Fit). apply kids_size in El. lia.
  - destruct lv as [n0|]; auto. cbn [maxd too_deep]. symmetry. apply andb_false_iff. right. apply Z.ltb_ge.
    assert (n0 <> 0) by congruence. lia.
Qed.

Lemma read_is_descendant n r : In (o_row n) t -> cache_pos n -> exists b, is_descendant_of o t r n = Ok b /\
  (b = true <-> descends F (a_pk (o_row n)) (a_pk r)).
Proof.
  intros Hn Hc. destruct (read_descendants n None Hn Hc) as (l & d & c & El & _ & E); [discriminate|].
  unfold is_descendant_of, get_descendants. cbn [option_map] in E. rewrite E. cbn [bind tl prune_opt].
  eexists. split; [reflexivity|]. rewrite existsb_exists. unfold descends. split.
  - intros (x & Hx & Ex). apply Nat.eqb_eq in Ex. exists l. split; auto. rewrite <- Ex, <- (objs_ids so l (Some (a_pk (o_row n))) (d + 1)).
    apply in_map_iff. exists x. auto.
  - intros (l' & El' & Hi). rewrite El in El'. injection El' as <-.
    rewrite <- (objs_ids so l (Some (a_pk (o_row n))) (d + 1)) in Hi. apply in_map_iff in Hi. destruct Hi as (x & Ex & Hx).
    exists x. split; auto. apply Nat.eqb_eq. auto.
Qed.
End Reads.

(** Descendants are the nodes with this ancestor. *)
Lemma desc_anc F n i : wf_ids F -> In i (ids F) ->
  (descends F n i <-> exists A, ancestors_of i F = Some A /\ In n (map nid A)).
Proof.
  unfold descends. revert n i. induction F as [|a k IHk r IHr]; intros n i W Hi; [destruct Hi|].
  assert (Wl := wf_cons_inv W). destruct Wl as (W1 & W2 & W3 & W4 & W5).
  rewrite ids_cons in Hi. cbn [In] in Hi. rewrite in_app_iff in Hi. cbn [children_of ancestors_of].
  assert (Anc : forall G, In i (ids G) -> wf_ids G -> exists A, ancestors_of i G = Some A).
  { intros G HG WG. destruct (anc_parent i G WG HG) as (A & E & _). eauto. }
  destruct (Nat.eqb_spec (nid a) i) as [Ei|Ni].
  - subst i. split.
    + intros (l & El & Hl). exfalso. destruct (Nat.eqb_spec (nid a) n) as [E|N].
      * injection El as <-. auto.
      * destruct (children_of n k) eqn:Ek.
        -- injection El as ->. apply (kids_in (Some n) k l) in Hl; auto.
        -- apply (kids_in (Some n) r l) in Hl; auto.
    + intros (A & E & H). injection E as <-. destruct H.
  - destruct Hi as [Hi|[Hi|Hi]]; [tauto| |].
    + destruct (Anc k Hi W3) as (A & EA). rewrite EA.
      destruct (Nat.eqb_spec (nid a) n) as [En|Nn].
      * split; [intros _|].
        -- exists (a :: A). split; auto. cbn. auto.
        -- intros _. exists k. auto.
      * assert (X := IHk n i W3 Hi). rewrite EA in X. split.
        -- intros (l & El & Hl). assert (children_of n k = Some l).
           { destruct (children_of n k) eqn:Ek; auto. exfalso. apply (kids_in (Some n) r l) in Hl; eauto. }
           destruct (proj1 X) as (A' & E' & HA); [eauto|]. injection E' as <-. exists (a :: A). split; auto. cbn; auto.
        -- intros (A' & E & H). injection E as <-. cbn in H. destruct H as [H|H]; [tauto|].
           destruct (proj2 X) as (l & El & Hl); [eauto|]. rewrite El. eauto.
    + rewrite (ancestors_of_notin i k) by (intros H; eauto). assert (X := IHr n i W4 Hi).
      destruct (Nat.eqb_spec (nid a) n) as [En|Nn].
      * split.
        -- intros (l & El & Hl). injection El as <-. exfalso; eauto.
        -- intros (A & E & H). apply in_map_iff in H. destruct H as (x & Ex & Hx).
           exfalso. apply W2. rewrite En, <- Ex. apply in_map. eapply anc_in; eauto.
      * rewrite <- X. split; intros (l & El & Hl).
        -- destruct (children_of n k) eqn:Ek; [|eauto]. injection El as ->.
           exfalso. apply (kids_in (Some n) k l) in Hl; eauto.
        -- rewrite (children_of_notin n k); eauto. intros Hn. apply children_in in El. eauto.
Qed.

(** ** Every table lists the forest up to the order of siblings *)
Lemma perm_top L L' : Permutation L L' -> forall F, roots F = L -> wf_ids F -> exists F', roots F' = L' /\ wf_ids F' /\
  Permutation (ids F) (ids F') /\ forall q, children_of q F' = children_of q F.
Proof.
  induction 1 as [|x L L' P IH|x y L|L L1 L2 P1 IH1 P2 IH2]; intros F E W.
  - exists F. auto.
  - destruct F as [|a k r]; [discriminate|]. cbn in E. injection E as -> E.
    assert (Wl := wf_cons_inv W). destruct Wl as (W1 & W2 & W3 & W4 & W5).
    destruct (IH r E W4) as (r' & E' & W' & I & C). exists (Cons x k r'). cbn [roots]. rewrite E'. split; auto.
    assert (P1 : Permutation (ids (Cons x k r)) (ids (Cons x k r'))) by (rewrite !ids_cons, I; auto).
    split; [unfold wf_ids; rewrite <- P1; auto|]. split; auto. intros q. cbn [children_of]. rewrite C. auto.
  - destruct F as [|a k [|b k' r]]; try discriminate. cbn in E. injection E as -> -> E.
    exists (Cons x k' (Cons y k r)). cbn [roots]. rewrite E. split; auto.
    assert (P1 : Permutation (ids (Cons y k (Cons x k' r))) (ids (Cons x k' (Cons y k r)))).
    { rewrite !ids_cons. change (nid y :: ids k ++ nid x :: ids k' ++ ids r) with ((nid y :: ids k) ++ (nid x :: ids k') ++ ids r).
      change (nid x :: ids k' ++ nid y :: ids k ++ ids r) with ((nid x :: ids k') ++ (nid y :: ids k) ++ ids r).
      rewrite !app_assoc. apply Permutation_app_tail, Permutation_app_comm. }
    split; [unfold wf_ids; rewrite <- P1; auto|]. split; auto. intros q. cbn [children_of].
    assert (Wl := wf_cons_inv W). destruct Wl as (W1 & W2 & W3 & W4 & W5).
    assert (Wl := wf_cons_inv W4). destruct Wl as (V1 & V2 & V3 & V4 & V5).
    rewrite ids_cons in W2, W5. cbn [In] in W2, W5. rewrite in_app_iff in W2.
    destruct (Nat.eqb_spec (nid y) q) as [Ey|Ny].
    + destruct (Nat.eqb_spec (nid x) q) as [Ex|Nx]; [exfalso; apply W2; left; congruence|].
      rewrite (children_of_notin q k'); auto. intros H. apply W2. rewrite Ey. auto.
    + destruct (Nat.eqb_spec (nid x) q) as [Ex|Nx].
      * rewrite (children_of_notin q k); auto. intros H. apply (W5 q); auto.
      * destruct (children_of q k) eqn:Ek; auto. rewrite (children_of_notin q k'); auto. intros H.
        apply children_in in Ek. apply (W5 q); auto. right. apply in_app_iff. auto.
  - destruct (IH1 F E W) as (F1 & E1 & W1 & I1 & C1). destruct (IH2 F1 E1 W1) as (F2 & E2 & W2 & I2 & C2).
    exists F2. split; auto. split; auto. split; [rewrite I1; auto|]. intros q. rewrite C2. auto.
Qed.

Lemma perm_inner (ord : nat -> list node) F : wf_ids F ->
  (forall q c, children_of q F = Some c -> Permutation (roots c) (ord q)) ->
  exists F', roots F' = roots F /\ wf_ids F' /\ Permutation (ids F) (ids F') /\
    forall q c, children_of q F = Some c -> exists c', children_of q F' = Some c' /\ roots c' = ord q.
Proof.
  induction F as [|a k IHk r IHr]; intros W H.
  - exists Nil. repeat split; auto. intros q c E. discriminate.
  - assert (Wl := wf_cons_inv W). destruct Wl as (W1 & W2 & W3 & W4 & W5).
    destruct IHk as (k1 & Ek & Wk & Ik & Ck); auto.
    { intros q c E. apply H. cbn [children_of]. assert (X := children_in _ _ _ E).
      destruct (Nat.eqb_spec (nid a) q) as [Eq|_]; [subst q; tauto|]. rewrite E. auto. }
    destruct IHr as (r1 & Er & Wr & Ir & Cr); auto.
    { intros q c E. apply H. cbn [children_of]. assert (X := children_in _ _ _ E).
      destruct (Nat.eqb_spec (nid a) q) as [Eq|_]; [subst q; tauto|]. rewrite (children_of_notin q k) by (intros Hq; eauto). auto. }
    assert (Pa : Permutation (roots k1) (ord (nid a))).
    { rewrite Ek. apply H. cbn [children_of]. rewrite Nat.eqb_refl. auto. }
    destruct (perm_top _ _ Pa k1 eq_refl Wk) as (k2 & E2 & Wk2 & I2 & C2).
    exists (Cons a k2 r1). assert (P : Permutation (ids (Cons a k r)) (ids (Cons a k2 r1))).
    { rewrite !ids_cons, Ik, I2, Ir. auto. }
    cbn [roots]. rewrite Er. split; auto. split; [unfold wf_ids; rewrite <- P; auto|]. split; auto.
    intros q c E. cbn [children_of] in *. destruct (Nat.eqb_spec (nid a) q) as [Eq|Nq].
    + subst q. exists k2. auto.
    + destruct (children_of q k) as [x|] eqn:Ex.
      * destruct (Ck q x Ex) as (c' & Ec & Hc). rewrite C2, Ec. eauto.
      * rewrite C2. rewrite (children_of_notin q k1).
        -- apply (Cr q c E).
        -- intros Hq. apply (Permutation_in _ (Permutation_sym Ik)) in Hq. apply children_some in Hq.
           destruct Hq as (l & El). congruence.
Qed.

Theorem relist o so t F : wf_ids F -> fits so t F -> exists F', wf_ids F' /\ fits so t F' /\ lists o so t F' /\
  Permutation (ids F) (ids F') /\ forall p, Permutation (kl p F) (kl p F').
Proof.
  intros W Fit. set (ord := fun p => map row_node (kids o t p)).
  assert (P : forall p, Permutation (kl p F) (ord p)).
  { intros p. unfold ord. rewrite (Permutation_map row_node (perm_kids so t F Fit o p)), map_row_node. auto. }
  destruct (perm_inner (fun q => ord (Some q)) F W) as (F1 & E1 & W1 & I1 & C1).
  { intros q c E. rewrite <- (kl_some (Some q) F c E). apply P. }
  assert (P0 : Permutation (roots F1) (ord None)) by (rewrite E1; apply (P None)).
  destruct (perm_top _ _ P0 F1 eq_refl W1) as (F2 & E2 & W2 & I2 & C2). exists F2.
  assert (K : forall p, kl p F2 = ord p).
  { intros [q|].
    - destruct (in_dec Nat.eq_dec q (ids F)) as [Hq|Hq].
      + destruct (children_some q F Hq) as (c & E). destruct (C1 q c E) as (c' & E' & Hc').
        rewrite (kl_some (Some q) F2 c'); auto. cbn [kids_of]. rewrite C2. auto.
      + rewrite (kl_notin q F2).
        * specialize (P (Some q)). rewrite (kl_notin q F Hq) in P. apply Permutation_nil in P. auto.
        * intros H. apply Hq. eapply Permutation_in; [symmetry; rewrite I1; apply I2|]. auto.
    - rewrite <- E2. apply (kl_some None F2 F2). auto. }
  assert (Ls : lists o so t F2).
  { intros p. rewrite K. unfold ord. rewrite map_map. rewrite <- (map_id (kids o t p)) at 1. apply map_ext_in.
    intros r Hr. apply (Permutation_in _ (perm_kids so t F Fit o p)) in Hr. apply in_map_iff in Hr.
    destruct Hr as (a & <- & _). rewrite row_node_arow. auto. }
  split; auto. split; [|split; [|split]]; auto.
  - intros p. rewrite <- (Ls p). unfold kids, order_rows. symmetry. apply isort_perm.
  - rewrite I1. auto.
  - intros p. rewrite K. apply P.
Qed.

(** Sortedness in terms of lists of children. *)
Lemma sorted_kl o F : wf_ids F -> (sorted_f o F <-> forall p, StronglySorted (not_after o) (kl p F)).
Proof.
  intros W. split.
  - intros S p. unfold kl, kid_list. destruct (kids_of p F) as [l|] eqn:E; cbn; [|constructor].
    apply roots_sorted. clear W. destruct p as [q|]; cbn [kids_of] in E; [|injection E as <-; auto].
    revert l E. induction F as [|a k IHk r IHr]; intros l E; [discriminate|]. cbn in S, E. destruct S as (S1 & S2 & S3).
    destruct (nid a =? q); [injection E as <-; auto|]. destruct (children_of q k); auto.
  - induction F as [|a k IHk r IHr]; intros H; cbn; auto.
    assert (Wl := wf_cons_inv W). destruct Wl as (W1 & W2 & W3 & W4 & W5).
    assert (Ha := H None). rewrite (kl_some None (Cons a k r) (Cons a k r) eq_refl) in Ha. cbn [roots] in Ha.
    apply StronglySorted_inv in Ha. destruct Ha as (Hr & Hf). split; [|split; auto].
    + apply IHk; auto. intros [q|].
      * destruct (in_dec Nat.eq_dec q (ids k)) as [Hq|Hq]; [|rewrite kl_notin; auto; constructor].
        specialize (H (Some q)). unfold kl, kid_list in *. cbn [kids_of children_of] in *.
        destruct (Nat.eqb_spec (nid a) q) as [Eq|_]; [subst q; tauto|].
        destruct (children_some q k Hq) as (l & El). rewrite El in *. auto.
      * specialize (H (Some (nid a))). rewrite (kl_some (Some (nid a)) (Cons a k r) k) in H; auto.
        cbn [kids_of children_of]. rewrite Nat.eqb_refl. auto.
    + apply IHr; auto. intros [q|].
      * destruct (in_dec Nat.eq_dec q (ids r)) as [Hq|Hq]; [|rewrite kl_notin; auto; constructor].
        specialize (H (Some q)). unfold kl, kid_list in *. cbn [kids_of children_of] in *.
        destruct (Nat.eqb_spec (nid a) q) as [Eq|_]; [subst q; tauto|].
        rewrite (children_of_notin q k) in H by (intros Hk; eauto). auto.
      * rewrite (kl_some None r r eq_refl). auto.
Qed.

Lemma insert_sorted {A} (le : A -> A -> bool) x l :
  (forall a b, In a (x :: l) -> In b (x :: l) -> le a b = false -> le b a = true) ->
  (forall a b c, In a (x :: l) -> In b (x :: l) -> In c (x :: l) -> le a b = true -> le b c = true -> le a c = true) ->
  StronglySorted (fun a b => le a b = true) l -> StronglySorted (fun a b => le a b = true) (insert le x l).
Proof.
  induction l as [|y l IH]; intros Tot Tr S; cbn [insert]; [repeat constructor|].
  apply StronglySorted_inv in S. destruct S as (S & Hf). rewrite Forall_forall in Hf.
  destruct (le x y) eqn:E.
  - constructor; [constructor; auto; apply Forall_forall; auto|]. apply Forall_forall.
    intros z [<-|Hz]; auto. apply (Tr x y z); cbn; auto.
  - constructor.
    + apply IH; auto.
      * intros a b Ha Hb. apply Tot; cbn in *; tauto.
      * intros a b c Ha Hb Hc. apply (Tr a b c); cbn in *; tauto.
    + apply Forall_forall. intros z Hz. apply (Permutation_in _ (insert_perm le x l)) in Hz.
      destruct Hz as [<-|Hz]; auto. apply Tot; cbn; auto.
Qed.

Lemma isort_sorted {A} (le : A -> A -> bool) l :
  (forall a b, In a l -> In b l -> le a b = false -> le b a = true) ->
  (forall a b c, In a l -> In b l -> In c l -> le a b = true -> le b c = true -> le a c = true) ->
  StronglySorted (fun a b => le a b = true) (isort le l).
Proof.
  induction l as [|x l IH]; intros Tot Tr; cbn [isort]; [constructor|].
  assert (P : forall z, In z (isort le l) -> In z l) by (intros z; apply (Permutation_in _ (isort_perm le l))).
  apply insert_sorted.
  - intros a b Ha Hb. apply Tot; cbn in *; intuition.
  - intros a b c Ha Hb Hc. apply (Tr a b c); cbn in *; intuition.
  - apply IH.
    + intros a b Ha Hb. apply Tot; cbn; auto.
    + intros a b c Ha Hb Hc. apply (Tr a b c); cbn; auto.
Qed.

Lemma StronglySorted_unmap {A B} (R : B -> B -> Prop) (f : A -> B) l :
  StronglySorted R (map f l) -> StronglySorted (fun a b => R (f a) (f b)) l.
Proof.
  induction l as [|a l IH]; cbn; intros S; [constructor|]. apply StronglySorted_inv in S. destruct S as (S & Hf).
  constructor; auto. apply Forall_forall. intros y Hy. rewrite Forall_forall in Hf. apply Hf, in_map. auto.
Qed.

(** The listed forest is again in order. *)
Lemma relist_ordered o so t F F' : wf_ids F -> wf_ids F' -> Permutation (ids F) (ids F') ->
  (forall p, Permutation (kl p F) (kl p F')) -> lists o so t F' -> fits so t F' ->
  ordered o F -> ordered o F'.
Proof.
  intros W W' I P Ls Fit O No. destruct (O No) as (S & V).
  assert (V' : values_f o F').
  { unfold values_f. apply Forall_forall. intros a Ha.
    assert (Hi : In (nid a) (ids F')) by (apply in_map; auto).
    destruct (kl_ex F' _ W' Hi) as (q & b & Hb & Eb & _).
    assert (b = a) as -> by (apply (node_eq F'); eauto using kl_pre).
    apply (values_kl o F q); auto. apply (Permutation_in _ (Permutation_sym (P q))). auto. }
  split; auto. apply sorted_kl; auto. intros p.
  assert (Es : is_sorted o = true) by (destruct o; [congruence|auto]).
  assert (Eb : forall a b, In a (kl p F') -> In b (kl p F') ->
    row_before o (arow so p a) (arow so p b) = lexlt o (ndata a) (ndata b)).
  { intros a b Ha Hb. unfold row_before. rewrite Es. cbn. apply sql_lex; eapply values_kl; eauto. }
  assert (X : StronglySorted (fun a b => negb (row_before o b a) = true) (map (arow so p) (kl p F'))).
  { rewrite <- (Ls p). unfold kids, order_rows.
    assert (Q : forall r, In r (filter (fun r => par_eqb (a_parent r) p) t) -> exists a, In a (kl p F') /\ r = arow so p a).
    { intros r Hr. apply (Permutation_in _ (Fit p)) in Hr. apply in_map_iff in Hr. destruct Hr as (a & <- & Ha). eauto. }
    apply (isort_sorted (fun a b => negb (row_before o b a))).
    - intros x y Hx Hy. destruct (Q x Hx) as (a & Ha & ->), (Q y Hy) as (b & Hb & ->). rewrite !Eb; auto.
      rewrite negb_false_iff, negb_true_iff. apply lexlt_asym.
    - intros x y z Hx Hy Hz. destruct (Q x Hx) as (a & Ha & ->), (Q y Hy) as (b & Hb & ->), (Q z Hz) as (c & Hc & ->).
      rewrite !Eb; auto. rewrite !negb_true_iff. apply lexlt_trans_false; eapply values_kl; eauto. }
  apply StronglySorted_unmap in X. eapply StronglySorted_In; [|exact X]. cbn beta. intros a b Ha Hb.
  rewrite Eb by auto. rewrite negb_true_iff. auto.
Qed.

(** The ancestors do not depend on the order of siblings. *)
Lemma relist_anc so t F F' i : wf_ids F -> wf_ids F' -> fits so t F -> fits so t F' -> In i (ids F) ->
  ancestors_of i F = ancestors_of i F'.
Proof.
  intros W W' Fit Fit' Hi. destruct (fits_ex so t F W Fit i Hi) as (r & Hr & <-).
  destruct (read_ancestors so t F W Fit r Hr) as (L & A & E & EA & EL & _).
  destruct (read_ancestors so t F' W' Fit' r Hr) as (L' & A' & E' & EA' & EL' & _). congruence.
Qed.

Lemma relist_descends so t F F' n i : wf_ids F -> wf_ids F' -> fits so t F -> fits so t F' -> Permutation (ids F) (ids F') ->
  In i (ids F) -> (descends F n i <-> descends F' n i).
Proof.
  intros W W' Fit Fit' P Hi. rewrite (desc_anc F), (desc_anc F'); auto.
  - rewrite (relist_anc so t F F' i); tauto.
  - apply (Permutation_in _ P). auto.
Qed.

(** is_descendant_of needs no particular order of siblings. *)
Lemma is_descendant_ok o so t F n r : wf_ids F -> fits so t F -> In (o_row n) t -> cache_pos n -> In r t ->
  exists b, is_descendant_of o t r n = Ok b /\ (b = true <-> descends F (a_pk (o_row n)) (a_pk r)).
Proof.
  intros W Fit Hn Hc Hr. destruct (relist o so t F W Fit) as (F' & W' & Fit' & Ls' & P & _).
  destruct (read_is_descendant o so t F' W' Fit' Ls' n r Hn Hc) as (b & E & Hb). exists b. split; auto.
  rewrite Hb. symmetry. apply (relist_descends so t); auto. apply (fits_pk so t F W Fit r Hr).
Qed.
