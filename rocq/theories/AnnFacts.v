(** The annotated list of a branch, rendered with the documented template, is the nested
    list of the branch. *)
From Coq Require Import List Arith Lia Bool ZArith.
From Verif Require Import Prelude Forest SpecFacts SpecSane AnnModel.
Import ListNotations.

(** ** Specification: the nested list of a forest *)
Fixpoint items {A} (f : forest A) : list (tok A) :=
  match f with
  | Nil => []
  | Cons a k r =>
      [Li; Txt a] ++ match k with Nil => [] | _ => [Ul] ++ items k ++ [UlEnd] end ++ [LiEnd] ++ items r
  end.

Definition html {A} (f : forest A) : list (tok A) :=
  match f with Nil => [] | _ => [Ul] ++ items f ++ [UlEnd] end.

(** The nodes of a forest with their levels, counted from [d]. *)
Definition leveled {A} (d : nat) (f : forest A) : list (A * Z) :=
  map (fun x => (snd x, Z.of_nat (fst x))) (preorder_d d f).

(** The branch of a node (the whole forest for [None]) and the level of its top. *)
Definition branch (p : option nat) (F : forest node) : forest node :=
  match p with None => F | Some p => subtree p F end.
Definition top_level (p : option nat) (F : forest node) : nat :=
  match p with
  | None => 1
  | Some p => match ancestors_of p F with Some l => S (length l) | None => 1 end
  end.

(** The part of a branch starting at level [d] with levels up to [m]; 0 is no limit. *)
Definition up_to (m : option Z) (d : nat) (B : forest node) : forest node :=
  match m with
  | None => B
  | Some m => if (m =? 0)%Z then B else prune (Z.to_nat (m + 1 - Z.of_nat d)) B
  end.

(** ** The loop as a function of neighbours *)
Section Loop.
Variable A : Type.
Local Open Scope Z_scope.
Implicit Types (l : list (A * Z)) (acc : list (A * info)).

Definition opens (prev : option Z) (d : Z) : bool :=
  negb (d =? 0) && match prev with None => true | Some p => p <? d end.

(* the depth of the next entry; after the last one everything is closed *)
Definition nxt (s : Z) l : Z := match l with [] => s - 1 | (_, d) :: _ => d end.

Fixpoint annot (s : Z) (prev : option Z) l : list (A * info) :=
  match l with
  | [] => []
  | (a, d) :: l' => (a, mkInfo (opens prev d) (range (d - nxt s l')) (d - s)) :: annot s (Some d) l'
  end.

Lemma range_neg k : k <= 0 -> range k = [].
Proof. intros H. unfold range. replace (Z.to_nat k) with 0%nat by lia. auto. Qed.

Lemma loop_annot s : 0 < s -> forall l a d o acc, exists p acc',
  ann_loop l (Some s) (Some d) ((a, mkInfo o [] (d - s)) :: acc) = (Some s, Some p, acc') /\
  rev (set_close (p - s + 1) acc') = rev acc ++ (a, mkInfo o (range (d - nxt s l)) (d - s)) :: annot s (Some d) l.
Proof.
  intros Hs. induction l as [|(b, e) l IH]; intros a d o acc.
  - exists d, ((a, mkInfo o [] (d - s)) :: acc). split; auto. cbn [set_close rev i_open i_level nxt annot].
    replace (d - (s - 1)) with (d - s + 1) by lia. auto.
  - cbn [ann_loop]. set (acc1 := if e <? d then _ else _).
    assert (E1 : acc1 = (a, mkInfo o (range (d - nxt s ((b, e) :: l))) (d - s)) :: acc).
    { unfold acc1. cbn [nxt]. destruct (Z.ltb_spec e d); [reflexivity|]. rewrite range_neg by lia. auto. }
    rewrite E1. destruct (IH b e (opens (Some d) e) ((a, mkInfo o (range (d - nxt s ((b, e) :: l))) (d - s)) :: acc)) as (p & acc' & E & R).
    exists p, acc'. unfold opens in E. split; [exact E|]. rewrite R. cbn [rev annot]. rewrite <- app_assoc. auto.
Qed.

Lemma qs_annot a s l : 0 < s -> get_annotated_list_qs ((a, s) :: l) = annot s None ((a, s) :: l).
Proof.
  intros Hs. unfold get_annotated_list_qs. cbn [ann_loop].
  destruct (loop_annot s Hs l a s (negb (s =? 0) && true) []) as (p & acc & E & R).
  rewrite E. assert (H1 : (s =? 0) = false) by (apply Z.eqb_neq; lia). assert (H2 : (0 <? s) = true) by (apply Z.ltb_lt; auto).
  rewrite H1, H2. cbn [negb andb]. rewrite R. cbn [rev app annot opens]. unfold opens. rewrite H1. auto.
Qed.

Lemma page_app (x y : list (A * info)) : page (x ++ y) = page x ++ page y.
Proof. apply flat_map_app. Qed.

Definition closes (k : Z) : list (tok A) := flat_map (fun _ => [LiEnd; UlEnd]) (range k).

Lemma closes_S k : 0 <= k -> closes (k + 1) = LiEnd :: UlEnd :: closes k.
Proof.
  intros H. unfold closes, range. replace (Z.to_nat (k + 1)) with (S (Z.to_nat k)) by lia. cbn [seq flat_map app].
  do 2 f_equal. rewrite <- seq_shift. induction (seq 0 (Z.to_nat k)) as [|x r IH]; auto. cbn. rewrite IH. auto.
Qed.

Lemma closes_0 k : k <= 0 -> closes k = [].
Proof. intros H. unfold closes. rewrite range_neg; auto. Qed.

(* the previous depth only matters through the comparison with the first depth *)
Lemma annot_prev s p q l : 0 < nxt s l \/ l = [] -> nxt s l <= p -> nxt s l <= q -> annot s (Some p) l = annot s (Some q) l.
Proof.
  destruct l as [|(a, d) l]; auto. cbn [nxt annot]. intros _ H1 H2. do 3 f_equal. unfold opens. f_equal.
  destruct (Z.ltb_spec p d), (Z.ltb_spec q d); auto; lia.
Qed.

Definition opening (b : bool) : list (tok A) := if b then [Ul; Li] else [LiEnd; Li].

(* the items of a list without the first opening and the last closing tag *)
Fixpoint tail_items (f : forest A) : list (tok A) :=
  match f with
  | Nil => []
  | Cons a k r => Txt a :: html k ++ match r with Nil => [] | _ => LiEnd :: Li :: tail_items r end
  end.

Lemma items_tail f : f <> Nil -> items f = Li :: tail_items f ++ [LiEnd].
Proof.
  induction f as [|a k _ r IH]; [congruence|]. intros _. cbn [items tail_items app]. do 2 f_equal.
  fold (html k). rewrite <- app_assoc. f_equal. cbn [app]. destruct r as [|b k2 r2]; auto.
  rewrite IH by discriminate. auto.
Qed.

Lemma leveled_cons d (a : A) k r : leveled d (Cons a k r) = (a, Z.of_nat d) :: leveled (S d) k ++ leveled d r.
Proof. unfold leveled. cbn [preorder_d map fst snd]. rewrite map_app. auto. Qed.

Lemma page_forest s : 0 < s -> forall f d prev l, f <> Nil -> (1 <= d)%nat -> nxt s l <= Z.of_nat d -> 
  page (annot s prev (leveled d f ++ l)) =
  opening (opens prev (Z.of_nat d)) ++ tail_items f ++ closes (Z.of_nat d - nxt s l) ++ page (annot s (Some (Z.of_nat d)) l).
Proof.
  intros Hs. induction f as [|a k IHk r IHr]; [congruence|]. intros d prev l _ Hd Hn.
  rewrite leveled_cons. cbn [app annot page flat_map]. unfold entry at 1. cbn [fst snd i_open i_close].
  fold (opening (opens prev (Z.of_nat d))). rewrite <- !app_assoc. f_equal. cbn [app tail_items]. f_equal.
  fold (page (annot s (Some (Z.of_nat d)) (leveled (S d) k ++ leveled d r ++ l))).
  set (l' := leveled d r ++ l).
  assert (Hn' : nxt s l' <= Z.of_nat d).
  { unfold l'. destruct r as [|b k2 r2]; [exact Hn|]. rewrite leveled_cons. cbn. lia. }
  (* what follows the children *)
  assert (R : closes (Z.of_nat d - nxt s l') ++ page (annot s (Some (Z.of_nat d)) l') =
    match r with Nil => [] | _ => LiEnd :: Li :: tail_items r end ++ closes (Z.of_nat d - nxt s l) ++ page (annot s (Some (Z.of_nat d)) l)).
  { unfold l'. destruct r as [|b k2 r2] eqn:Er; [auto|]. rewrite <- Er in *. 
    rewrite (IHr d (Some (Z.of_nat d)) l) by (auto; subst; discriminate). rewrite Er at 1. rewrite leveled_cons at 1. cbn [app nxt].
    rewrite closes_0 by lia. cbn [app]. unfold opens. rewrite Z.ltb_irrefl, andb_false_r. cbn [opening app].
    auto. }
  fold (closes (Z.of_nat d - nxt s (leveled (S d) k ++ l'))).
  destruct k as [|b k2 r2] eqn:Ek.
  - cbn [html app]. exact R.
  - rewrite <- Ek in *. assert (Nk : k <> Nil) by (subst; discriminate).
    assert (Nx : nxt s (leveled (S d) k ++ l') = Z.of_nat (S d)) by (rewrite Ek, leveled_cons; auto).
    rewrite Nx, closes_0 by lia. cbn [app]. rewrite (IHk (S d) (Some (Z.of_nat d)) l') by (auto; lia).
    replace (opens (Some (Z.of_nat d)) (Z.of_nat (S d))) with true.
    2:{ unfold opens. symmetry. apply andb_true_iff. split; [apply negb_true_iff, Z.eqb_neq; lia|apply Z.ltb_lt; lia]. }
    cbn [opening app]. replace (Z.of_nat (S d) - nxt s l') with (Z.of_nat d - nxt s l' + 1) by lia.
    rewrite closes_S by lia.
    assert (P : annot s (Some (Z.of_nat (S d))) l' = annot s (Some (Z.of_nat d)) l').
    { destruct l' as [|(c, e) l2]; auto. cbn [nxt] in Hn'. cbn [annot]. do 3 f_equal. unfold opens. f_equal.
      destruct (Z.ltb_spec (Z.of_nat (S d)) e), (Z.ltb_spec (Z.of_nat d) e); auto; lia. }
    rewrite P. replace (html k) with ([Ul] ++ items k ++ [UlEnd]) by (subst; auto).
    rewrite (items_tail k Nk). cbn [app]. rewrite <- !app_assoc. cbn [app].
    do 2 f_equal. f_equal. do 2 f_equal. exact R.
Qed.

Lemma levels_annot s : forall l prev, map (fun x => (fst x, i_level (snd x))) (annot s prev l) = map (fun x => (fst x, snd x - s)) l.
Proof. induction l as [|(a, d) l IH]; intros; auto. cbn [annot map fst snd i_level]. rewrite IH. auto. Qed.


Lemma leveled_sub (f : forest A) : forall d e, map (fun x => (fst x, snd x - Z.of_nat d)) (leveled (d + e) f) = leveled e f.
Proof.
  induction f as [|a k IHk r IHr]; intros d e; auto. rewrite !leveled_cons. cbn [map fst snd]. rewrite map_app.
  rewrite IHr, plus_n_Sm, IHk. do 2 f_equal. lia.
Qed.

(** The annotated list of a forest whose top is at level [d]. *)
Theorem ann_forest (f : forest A) d : (1 <= d)%nat ->
  page (get_annotated_list_qs (leveled d f)) = html f /\
  map (fun x => (fst x, i_level (snd x))) (get_annotated_list_qs (leveled d f)) = leveled 0 f.
Proof.
  intros Hd. destruct f as [|a k r]; [split; auto|]. assert (Hs : 0 < Z.of_nat d) by lia.
  rewrite leveled_cons, qs_annot by auto. rewrite <- leveled_cons. split.
  - assert (P := page_forest (Z.of_nat d) Hs (Cons a k r) d None [] ltac:(discriminate) Hd).
    rewrite app_nil_r in P. rewrite P by (cbn [nxt]; lia). cbn [nxt annot page flat_map]. rewrite app_nil_r.
    replace (Z.of_nat d - (Z.of_nat d - 1)) with (0 + 1) by lia. rewrite closes_S, closes_0 by lia.
    unfold opens. replace (Z.of_nat d =? 0) with false by (symmetry; apply Z.eqb_neq; lia). cbn [negb andb opening].
    change (html (Cons a k r)) with ([Ul] ++ items (Cons a k r) ++ [UlEnd]). rewrite items_tail by discriminate.
    cbn [app]. rewrite <- app_assoc. auto.
  - rewrite levels_annot. assert (X := leveled_sub (Cons a k r) d 0). rewrite Nat.add_0_r in X. exact X.
Qed.

End Loop.

(** ** Naturality *)
Section Nat.
Variables (A B : Type) (g : A -> B).
Definition on_item {C} (x : A * C) : B * C := (g (fst x), snd x).

Lemma loop_map qs : forall s p acc, ann_loop (map on_item qs) s p (map on_item acc) =
  let '(s', p', acc') := ann_loop qs s p acc in (s', p', map on_item acc').
Proof.
  induction qs as [|(a, d) qs IH]; intros s p acc; auto. cbn [map on_item fst snd ann_loop].
  rewrite <- IH. cbn [map on_item fst snd]. do 3 f_equal. destruct p as [p|]; auto.
  destruct (d <? p)%Z; auto. destruct acc as [|(b, i) acc]; auto.
Qed.

Lemma qs_map qs : get_annotated_list_qs (map on_item qs) = map on_item (get_annotated_list_qs qs).
Proof.
  unfold get_annotated_list_qs. assert (E := loop_map qs None None []). cbn [map] in E. rewrite E.
  destruct (ann_loop qs None None []) as (([s|] & [p|]) & acc); rewrite ?map_rev; auto.
  destruct (negb (s =? 0) && (0 <? s))%Z; auto. f_equal. destruct acc as [|(b, i) acc]; auto.
Qed.
End Nat.

(** ** Levels *)
Lemma level_anc : forall F d e b, wf_ids F -> In (e, b) (preorder_d d F) ->
  exists A, ancestors_of (nid b) F = Some A /\ e = d + length A.
Proof.
  induction F as [|a k IHk r IHr]; intros d e b W H; [destruct H|].
  destruct (wf_cons_inv W) as (W1 & W2 & W3 & W4 & W5). cbn [preorder_d In] in H. rewrite in_app_iff in H.
  assert (In_ids : forall d f, In (e, b) (preorder_d d f) -> In (nid b) (ids f)).
  { intros d' f Hf. apply (in_map snd) in Hf. rewrite preorder_d_snd in Hf. apply (in_map nid) in Hf. exact Hf. }
  cbn [ancestors_of]. destruct H as [H|[H|H]].
  - injection H as <- <-. rewrite Nat.eqb_refl. exists []. split; auto.
  - destruct (Nat.eqb_spec (nid a) (nid b)) as [E|_]; [rewrite E in W1; apply In_ids in H; tauto|].
    destruct (IHk _ _ _ W3 H) as (A & EA & Ee). rewrite EA. exists (a :: A). split; auto. cbn. lia.
  - destruct (Nat.eqb_spec (nid a) (nid b)) as [E|_]; [rewrite E in W2; apply In_ids in H; tauto|].
    destruct (IHr _ _ _ W4 H) as (A & EA & Ee). destruct (ancestors_of (nid b) k) as [A'|] eqn:Ek; [|eauto].
    exfalso. apply (W5 (nid b)); [|apply In_ids in H; auto].
    clear - Ek. revert A' Ek. induction k as [|c k IHk r IHr]; intros A'; [discriminate|]. rewrite ids_cons. cbn [ancestors_of In].
    rewrite in_app_iff. destruct (Nat.eqb_spec (nid c) (nid b)); auto. destruct (ancestors_of (nid b) k); eauto.
Qed.

Lemma branch_incl p : forall F d, subtree p F <> Nil -> exists e, incl (preorder_d e (subtree p F)) (preorder_d d F) /\ d <= e.
Proof.
  induction F as [|a k IHk r IHr]; intros d H; [destruct H; reflexivity|]. cbn [subtree] in *. destruct (nid a =? p).
  - exists d. split; auto. intros x. cbn [preorder_d In]. rewrite !in_app_iff. cbn [preorder_d In]. tauto.
  - destruct (subtree p k) eqn:Ek.
    + destruct (IHr d H) as (e & I & L). exists e. split; auto. intros x Hx. right. apply in_app_iff. right. auto.
    + destruct (IHk (S d) H) as (e & I & L). exists e. split; [|lia]. intros x Hx. right. apply in_app_iff. left. auto.
Qed.

(** Rows that list a branch and know their depth list it with its levels. *)
Lemma listed_levels {A} (g : A -> node) (dep : A -> Z) F d B (rows : list A) : wf_ids F ->
  incl (preorder_d d B) (preorder_d 1 F) -> map g rows = preorder B ->
  (forall r, In r rows -> exists l, ancestors_of (nid (g r)) F = Some l /\ dep r = Z.of_nat (S (length l))) ->
  map (fun r => (g r, dep r)) rows = leveled d B.
Proof.
  intros W I E H. rewrite <- (preorder_d_snd d B) in E. unfold leveled.
  revert rows E H I. generalize (preorder_d d B). intros L. induction L as [|(e, b) L IH]; intros [|r rows] E H I; try discriminate; auto.
  cbn [map fst snd] in *. injection E as E1 E2. f_equal.
  - f_equal; auto. destruct (H r (or_introl eq_refl)) as (l & El & Ed).
    assert (Ib : In (e, b) (preorder_d 1 F)) by (apply I; left; auto).
    destruct (level_anc F 1 e b W Ib) as (A' & EA & Ee). rewrite <- E1, El in EA. injection EA as <-.
    rewrite Ed, Ee. auto.
  - apply IH; auto; [intros x Hx; apply H; right; auto|]. intros x Hx. apply I. right. auto.
Qed.

(** The filter on the depth prunes the branch. *)
Lemma filter_leveled (f : forest node) : forall d m, filter (fun x => snd x <=? m)%Z (leveled d f) =
  leveled d (prune (Z.to_nat (m + 1 - Z.of_nat d)) f).
Proof.
  induction f as [|a k IHk r IHr]; intros d m; [cbn; destruct (Z.to_nat (m + 1 - Z.of_nat d)); auto|].
  rewrite leveled_cons. cbn [filter snd]. rewrite filter_app, IHk, IHr. destruct (Z.leb_spec (Z.of_nat d) m).
  - destruct (Z.to_nat (m + 1 - Z.of_nat d)) as [|j] eqn:Ej; [lia|]. cbn [prune]. rewrite leveled_cons.
    replace (Z.to_nat (m + 1 - Z.of_nat (S d))) with j by lia. auto.
  - replace (Z.to_nat (m + 1 - Z.of_nat (S d))) with 0 by lia. replace (Z.to_nat (m + 1 - Z.of_nat d)) with 0 by lia.
    destruct k, r; auto.
Qed.

Lemma depth_filter_leveled m d B : depth_filter m (leveled d B) = leveled d (up_to m d B).
Proof. destruct m as [m|]; auto. cbn [depth_filter up_to]. destruct (m =? 0)%Z; auto. apply filter_leveled. Qed.

Lemma depth_filter_map {A B} (g : A -> B) m qs : depth_filter m (map (on_item A B g) qs) = map (on_item A B g) (depth_filter m qs).
Proof.
  destruct m as [m|]; auto. cbn [depth_filter]. destruct (m =? 0)%Z; auto.
  induction qs as [|(a, d) qs IH]; auto. cbn [map filter on_item fst snd]. rewrite IH. destruct (d <=? m)%Z; auto.
Qed.

(** What a listing has to be. *)
Definition right_list {A} (g : A -> node) (l : list (A * info)) (B : forest node) : Prop :=
  page (map (fun x => (g (fst x), snd x)) l) = html B /\
  map (fun x => (g (fst x), i_level (snd x))) l = leveled 0 B.

Lemma listing_qs {A} (g : A -> node) d B m (qs : list (A * Z)) : 1 <= d ->
  map (fun x => (g (fst x), snd x)) qs = leveled d B ->
  right_list g (get_annotated_list_qs (depth_filter m qs)) (up_to m d B).
Proof.
  intros X1 EL. set (L := get_annotated_list_qs _).
  assert (M : map (on_item A node g) L = get_annotated_list_qs (leveled d (up_to m d B))).
  { unfold L. rewrite <- qs_map, <- depth_filter_map, <- depth_filter_leveled, <- EL. auto. }
  destruct (ann_forest node (up_to m d B) d X1) as (P1 & P2).
  rewrite <- M in P1, P2. split; [exact P1|]. rewrite map_map in P2. exact P2.
Qed.

Lemma branch_levels F p : wf_ids F -> (forall p', p = Some p' -> In p' (ids F)) ->
  1 <= top_level p F /\ incl (preorder_d (top_level p F) (branch p F)) (preorder_d 1 F).
Proof.
  intros W Hp. destruct p as [p|]; cbn [top_level branch].
  2:{ split; auto. apply incl_refl. }
  assert (St := subtree_children p F). destruct (children_of p F) as [k|] eqn:Ek.
  2:{ destruct (children_some p F); auto. congruence. }
  destruct St as (a & Ea & Ha & Es). destruct (branch_incl p F 1) as (e & I & L); [rewrite Es; discriminate|].
  assert (Y : In (e, a) (preorder_d 1 F)) by (apply I; rewrite Es; cbn; auto).
  destruct (level_anc F 1 e a W Y) as (A' & EA & Ee). rewrite Ea in EA. rewrite EA. cbn [Nat.add] in Ee. subst e. split; auto.
Qed.

Lemma listing_ok {A} (g : A -> node) (dep : A -> Z) F p m (rows : list A) : wf_ids F ->
  (forall p', p = Some p' -> In p' (ids F)) -> map g rows = preorder (branch p F) ->
  (forall r, In r rows -> exists l, ancestors_of (nid (g r)) F = Some l /\ dep r = Z.of_nat (S (length l))) ->
  right_list g (get_annotated_list_qs (depth_filter m (map (fun r => (r, dep r)) rows))) (up_to m (top_level p F) (branch p F)).
Proof.
  intros W Hp E H.
  destruct (branch_levels F p W Hp) as (X1 & X2).
  assert (EL := listed_levels g dep F (top_level p F) (branch p F) rows W X2 E H).
  apply listing_qs; auto. rewrite map_map. exact EL.
Qed.

Lemma branch_preorder F x k : wf_ids F -> In x (preorder F) -> children_of (nid x) F = Some k ->
  preorder (branch (Some (nid x)) F) = x :: preorder k.
Proof.
  intros W Hx E. cbn [branch]. assert (St := subtree_children (nid x) F). rewrite E in St.
  destruct St as (a & Ea & Ha & ->). cbn [preorder]. rewrite app_nil_r. f_equal.
  apply (NoDup_map_inj nid (preorder F)); auto.
Qed.

(** A branch is cut at a level: the nodes below that level are left out. *)
Lemma up_to_spec m d (B : forest node) : leveled d (up_to (Some m) d B) =
  if (m =? 0)%Z then leveled d B else filter (fun x => snd x <=? m)%Z (leveled d B).
Proof. cbn [up_to]. destruct (m =? 0)%Z; auto. rewrite filter_leveled. auto. Qed.
