(** Theorems about expanding and collapsing rows of the admin list in the browser (C52). *)
From Coq Require Import List Arith Lia Bool ZArith.
From Verif Require Import Prelude Forest SpecFacts SpecSane SpecKids SpecPerm Fixture AdminModel PropsAdmin AdminJSModel AdminJS.
From Verif Require MPModel MPInv PropsMP NSModel NSInv PropsNS ALModel ALInv ALReads PropsAL LTModel LTInv PropsLT.
Import ListNotations.

(** ** What one sees: in the order of the tree, the nodes whose ancestors are all open *)
Theorem C52_seen open F : wf_ids F ->
  NoDup (seen open F) /\
  (exists keep, seen open F = filter keep (ids F)) /\
  forall x, In x (seen open F) <-> In x (ids F) /\ forall A, ancestors_of x F = Some A -> forall a, In a A -> open (nid a) = true.
Proof.
  intros W. split; [apply seen_nodup; auto|]. split.
  - exists (fun i => mem i (seen open F)).
    assert (H : forall G, wf_ids G -> forall R, (forall x, In x (ids G) -> (In x R <-> In x (seen open G))) -> seen open G = filter (fun i => mem i R) (ids G)).
    { induction G as [|a k IHk r IHr]; intros WG R HR; auto. destruct (wf_cons_inv WG) as (W1 & W2 & W3 & W4 & W5).
      rewrite ids_cons in *. cbn [seen filter] in *. rewrite (proj2 (mem_in _ _)) by (apply HR; cbn; auto). f_equal. rewrite filter_app. f_equal.
      - destruct (open (nid a)).
        + apply IHk; auto. intros x Hx. rewrite HR by (cbn; rewrite in_app_iff; auto). cbn [In]. rewrite in_app_iff. split; auto.
          intros [<-|[H|H]]; auto; [contradiction|]. apply seen_ids in H. exfalso; eauto.
        + symmetry. apply filter_none. intros x Hx. apply mem_false. rewrite HR by (cbn; rewrite in_app_iff; auto). cbn.
          intros [<-|H]; [contradiction|]. apply seen_ids in H. eauto.
      - apply IHr; auto. intros x Hx. rewrite HR by (cbn; rewrite in_app_iff; auto). cbn [In]. rewrite in_app_iff. split; auto.
        intros [<-|[H|H]]; auto; [contradiction|]. destruct (open (nid a)); [apply seen_ids in H|destruct H]. exfalso; eauto. }
    apply H; auto. tauto.
  - intros x. rewrite seen_iff by auto. split; intros (Hx & H); split; auto.
    + intros A EA a Ha. apply H. apply anc_descends; auto. exists A. split; auto. apply in_map; auto.
    + intros n D. apply anc_descends in D; auto. destruct D as (A & EA & Hn). apply in_map_iff in Hn. destruct Hn as (a & <- & Ha). eauto.
Qed.

(** ** Visits of the page *)
Section Visits.
Variable F : forest node.
Variable serve : option nat -> res (list entry).
Hypothesis W : wf_ids F.
Hypothesis N0 : ~ In 0 (ids F).
Hypothesis Served : forall parent, serve parent = match kid_list parent F with Some L => Ok (listed F parent L) | None => Err DoesNotExist end.

(** After any sequence of clicks, drags over rows and answers the page shows the nodes whose
    ancestors are all open, each as [render] says. *)
Theorem C52_visit_partial es : all_calm F view0 es ->
  exists p, visit serve es = Ok p /\
    let s := fold_left (view_step F) es view0 in
    filter u_shown (p_rows p) = map (render F s) (seen (opened s) F).
Proof.
  intros C. destruct (visit_ok F W N0 serve Served es C) as (p & E & I). exists p. split; auto. cbn. apply shown_rows; auto.
Qed.

(** The same without the notion of open nodes: below a row that says "expanded" one sees exactly
    its children, in order, below any other row none; a row has one of the three classes when the
    node has children and none otherwise; levels and parents are right; the row of a child is
    shown only below the row of its parent, which says "expanded"; all roots are shown. *)
Theorem C52_rows_partial es : all_calm F view0 es ->
  exists p, visit serve es = Ok p /\
    let shown := filter u_shown (p_rows p) in
    NoDup (map u_id shown) /\
    (exists keep, map u_id shown = filter keep (ids F)) /\
    map u_id (filter (fun r => u_parent r =? 0) shown) = map nid (roots F) /\
    forall r, In r shown ->
      map u_id (filter (fun x => u_parent x =? u_id r) shown) = (if u_exp r then map nid (kl (Some (u_id r)) F) else []) /\
      u_level r = Z.of_nat (level_of (u_id r) F) /\
      u_link r = has_kids (u_id r) F /\
      (u_coll r, u_exp r, u_wait r) = (if u_link r then
         if u_exp r then (false, true, false) else if u_wait r then (false, false, true) else (true, false, false)
         else (false, false, false)) /\
      match parent_of (u_id r) F with
      | Some (Some q) => u_parent r = q /\ exists x, In x shown /\ u_id x = q /\ u_exp x = true
      | _ => u_parent r = 0
      end.
Proof.
  intros C. destruct (visit_ok F W N0 serve Served es C) as (p & E & I). exists p. split; auto.
  set (s := fold_left (view_step F) es view0) in *. assert (G := proj2 (proj2 I)).
  rewrite (shown_rows F W s p I). cbn zeta.
  assert (Eid : map u_id (map (render F s) (seen (opened s) F)) = seen (opened s) F) by (rewrite map_map; apply map_id).
  assert (U : upc (opened s) F) by (intros n x D H; apply (g_open _ _ G n x D H)).
  rewrite Eid. split; [apply seen_nodup; auto|]. split; [apply C52_seen; auto|].
  assert (Flt : forall b R, (forall i, In i (ids F) -> ((parent_row F i =? b) = true <-> In i R)) ->
     map u_id (filter (fun r => u_parent r =? b) (map (render F s) (seen (opened s) F))) = filter (fun i => mem i R) (seen (opened s) F)).
  { intros b R HR. assert (H : forall D, (forall i, In i D -> In i (ids F)) -> map u_id (filter (fun r => u_parent r =? b) (map (render F s) D)) = filter (fun i => mem i R) D).
    { induction D as [|i D IH]; intros HD; auto. cbn [map filter]. change (u_parent (render F s i)) with (parent_row F i).
      assert (X : (parent_row F i =? b) = mem i R) by (apply eq_true_iff_eq; rewrite mem_in; apply HR, HD; cbn; auto).
      rewrite X. destruct (mem i R); cbn [map]; rewrite IH; auto; intros; apply HD; cbn; auto. }
    apply H. intros i. apply seen_ids. }
  split.
  - rewrite (Flt 0 (map nid (roots F))).
    + apply roots_filter; auto. tauto.
    + intros i Hi. rewrite Nat.eqb_eq. unfold parent_row. destruct (kl_ex F i W Hi) as (q & a & Ha & <- & Ep). rewrite Ep. split.
      * destruct q as [q|]; [|intros _; apply in_map; auto]. intros ->. apply kl_up in Ha. contradiction.
      * intros H. apply in_map_iff in H. destruct H as (b & Eb & Hb). assert (Pb := kl_parent None F b W Hb). rewrite Eb, Ep in Pb.
        injection Pb as ->. auto.
  - intros r Hr. apply in_map_iff in Hr. destruct Hr as (i & <- & Hi). assert (Hf := seen_ids _ _ _ Hi).
    change (u_id (render F s i)) with i. change (u_exp (render F s i)) with (has_kids i F && opened s i).
    assert (exists k, children_of i F = Some k) as (k & Ek).
    { destruct (kids_ctx _ _ Hf) as (l & Hl). destruct (Hl Nil) as (f' & Cx). exists l. apply (Ctx_kids_of Cx W). }
    split; [|split; [reflexivity|split; [reflexivity|split]]].
    + rewrite (Flt i (map nid (roots k))) by (intros j Hj; rewrite parent_row_iff, (parent_roots F W j i k); auto; tauto).
      rewrite (kids_filter (opened s) i k _ F W U Ek) by tauto.
      assert (HK : has_kids i F = match roots k with [] => false | _ => true end).
      { apply has_kids_spec. unfold kid_list. cbn [kids_of]. rewrite Ek. auto. }
      rewrite HK. unfold kl, kid_list. cbn [kids_of]. rewrite Ek. cbn [option_map]. destruct (roots k); cbn [andb map]; destruct (opened s i); auto.
    + cbn. assert (opened s i = true -> waiting s i = false).
      { intros O. destruct (waiting s i) eqn:Wi; auto. destruct (g_wk _ _ G i Wi). apply (g_ok _ _ G) in O. congruence. }
      destruct (has_kids i F), (opened s i); cbn; auto; [rewrite H; auto|]. destruct (waiting s i); auto.
    + cbn [u_parent render]. change (u_parent (render F s i)) with (parent_row F i). unfold parent_row.
      destruct (parent_of i F) as [[q|]|] eqn:Ep; auto. split; auto.
      assert (D : descends F q i) by (apply desc_parent; eauto).
      assert (Oq : opened s q = true) by (eapply anc_open; eauto).
      assert (Hq : In q (seen (opened s) F)).
      { apply seen_iff; auto. split; [eapply desc_in2; eauto|]. intros n Dn. eapply anc_open; eauto. eapply desc_trans; eauto. }
      exists (render F s q). split; [apply in_map; auto|]. split; auto. cbn. rewrite Oq, andb_true_r.
      destruct D as (l & El & Hl). unfold has_kids, kid_list. cbn [kids_of]. rewrite El. cbn. destruct l; [destruct Hl|auto].
Qed.
End Visits.

(** ** The four kinds of trees *)
Theorem C52_mp_partial cfg (radix2 : 2 <= MPModel.radix cfg) (step1 : 1 <= MPModel.steplen cfg) t F es :
  MPInv.stores cfg t F -> ~ In 0 (ids F) -> all_calm F view0 es ->
  exists p, visit (mp_context cfg t) es = Ok p /\
    let s := fold_left (view_step F) es view0 in filter u_shown (p_rows p) = map (render F s) (seen (opened s) F).
Proof.
  intros S N C. apply C52_visit_partial; auto.
  - destruct S as (f & _ & _ & _ & W). auto.
  - intros parent. apply C45_mp_list; auto.
Qed.

Theorem C52_ns_partial t F es : NSInv.stores t F -> ~ In 0 (ids F) -> all_calm F view0 es ->
  exists p, visit (ns_context t) es = Ok p /\
    let s := fold_left (view_step F) es view0 in filter u_shown (p_rows p) = map (render F s) (seen (opened s) F).
Proof.
  intros S N C. apply C52_visit_partial; auto.
  - destruct S as (W & _). auto.
  - intros parent. apply C45_ns_list; auto.
Qed.

(** Siblings with equal sorting values may be shown in another order. *)
Theorem C52_al_partial o t F : ALInv.stores o t F -> ~ In 0 (ids F) ->
  exists F', same_kids F F' /\ forall es, all_calm F' view0 es ->
  exists p, visit (al_context o t) es = Ok p /\
    let s := fold_left (view_step F') es view0 in filter u_shown (p_rows p) = map (render F' s) (seen (opened s) F').
Proof.
  intros S N. destruct (C45_al_list_ties o t F S) as (F' & S' & P & H). exists F'. split; auto. intros es C. apply C52_visit_partial; auto.
  - destruct S' as (W & _). auto.
  - intros X. apply N. apply (same_ids F F' P 0); auto.
Qed.

Theorem C52_lt_partial cfg (max2 : 2 <= LTModel.label_max cfg) t F es : LTInv.stores cfg t F -> ~ In 0 (ids F) -> all_calm F view0 es ->
  exists p, visit (lt_context t) es = Ok p /\
    let s := fold_left (view_step F) es view0 in filter u_shown (p_rows p) = map (render F s) (seen (opened s) F).
Proof.
  intros S N C. apply C52_visit_partial; auto.
  - destruct S as (f & _ & _ & W). auto.
  - intros parent. apply (C45_lt_list cfg max2); auto.
Qed.

(** ** Where it goes wrong *)
Definition server (F : forest node) (parent : option nat) : res (list entry) :=
  match kid_list parent F with Some L => Ok (listed F parent L) | None => Err DoesNotExist end.

(** A row that is clicked while the children of a node below it are loaded: later the children
    are shown although their parent is not. *)
Theorem C52_early_click_refuted : exists F es p r, wf_ids F /\ ~ In 0 (ids F) /\
  visit (server F) es = Ok p /\ (forall n, ~ In (Lost n) es) /\
  In r (p_rows p) /\ u_shown r = true /\
  exists q, In q (p_rows p) /\ u_id q = u_parent r /\ u_shown q = false /\ u_exp q = true /\ u_coll q = true.
Proof.
  exists ex_F, [Click 2; Answer 2; Click 4; Click 2; Answer 4].
  eexists. exists (mkU 6 4 3 false true false false false false).
  split; [exact (proj1 PropsNS.ex_stores)|]. split; [vm_compute; intuition discriminate|]. split; [vm_compute; reflexivity|].
  split; [intros n; vm_compute; intuition discriminate|]. split; [vm_compute; tauto|]. split; [reflexivity|].
  exists (mkU 4 2 2 true false true true true false). vm_compute. tauto.
Qed.

(** After a request that failed the row can be "expanded" without its children being shown or
    asked for. *)
Theorem C52_lost_refuted : exists F es p r, wf_ids F /\ ~ In 0 (ids F) /\
  visit (server F) es = Ok p /\ In (Click (u_id r)) es /\
  In r (p_rows p) /\ u_shown r = true /\ u_exp r = true /\ has_kids (u_id r) F = true /\
  u_children (p_rows p) (u_id r) = [] /\ p_asked p = [].
Proof.
  exists ex_F, [Click 1; Lost 1; Click 1; Click 1].
  eexists. exists (mkU 1 0 1 true true true false true true).
  split; [exact (proj1 PropsNS.ex_stores)|]. split; [vm_compute; intuition discriminate|]. split; [vm_compute; reflexivity|].
  vm_compute. tauto.
Qed.

(** And no further click helps: the children of a node whose request failed never appear. *)
Section Lost.
Variable F : forest node.
Hypothesis W : wf_ids F.
Hypothesis N0 : ~ In 0 (ids F).

Lemma where_in P f rows r : In r (where_ P f rows) -> exists r0, In r0 rows /\ (r = r0 \/ r = f r0).
Proof. intros H. apply in_map_iff in H. destruct H as (r0 & <- & H). exists r0. split; auto. destruct (P r0); auto. Qed.

Definition same_row (r r' : urow) : Prop := u_id r' = u_id r /\ u_parent r' = u_parent r /\ (u_loaded r = true -> u_loaded r' = true).
Definition kept (rows rows' : list urow) : Prop :=
  (forall r', In r' rows' -> exists r, In r rows /\ same_row r r') /\ (forall r, In r rows -> exists r', In r' rows' /\ same_row r r').

Lemma kept_refl rows : kept rows rows.
Proof. split; intros r H; exists r; (split; [auto|repeat split; auto]). Qed.

Lemma same_trans a b c : same_row a b -> same_row b c -> same_row a c.
Proof. intros (A1 & B1 & C1) (A2 & B2 & C2). repeat split; try congruence. auto. Qed.

Lemma kept_trans a b c : kept a b -> kept b c -> kept a c.
Proof.
  intros (H1 & K1) (H2 & K2). split; intros r H.
  - destruct (H2 r H) as (r1 & Hr1 & S1). destruct (H1 r1 Hr1) as (r2 & Hr2 & S2). eauto using same_trans.
  - destruct (K1 r H) as (r1 & Hr1 & S1). destruct (K2 r1 Hr1) as (r2 & Hr2 & S2). eauto using same_trans.
Qed.

Lemma kept_where P f rows : (forall r, same_row r (f r)) -> kept rows (where_ P f rows).
Proof.
  intros H. split; intros r Hr.
  - apply where_in in Hr. destruct Hr as (r0 & Hr & [->| ->]); exists r0; (split; [auto|]); auto. repeat split; auto.
  - exists (if P r then f r else r). split; [apply in_map_iff; eauto|]. destruct (P r); auto. repeat split; auto.
Qed.

Lemma same_link c e w r : same_row r (set_link (c r) (e r) (w r) r).
Proof. unfold set_link. destruct (u_link r); repeat split; auto. Qed.

Lemma collapse_kept fuel : forall rows id rows', collapse fuel rows id = Ok rows' -> kept rows rows'.
Proof.
  induction fuel as [|fuel IH]; intros rows id rows' E; [discriminate|]. rewrite collapse_S in E.
  assert (H : forall l rows rows', each (collapse fuel) l rows = Ok rows' -> kept rows rows').
  { induction l as [|i l IHl]; intros a b Eab; cbn [each] in Eab; [injection Eab as ->; apply kept_refl|].
    destruct (collapse fuel a i) as [c|] eqn:Ec; [|discriminate]. cbn [bind] in Eab. eapply kept_trans; [eapply IH; eauto|eapply IHl; eauto]. }
  destruct (each (collapse fuel) (map u_id (u_children rows id)) rows) as [rows1|] eqn:E1; [|discriminate]. cbn [bind] in E. injection E as <-.
  eapply kept_trans; [eapply H; eauto|]. eapply kept_trans; apply kept_where; intros r; [repeat split; auto|].
  apply (same_link (fun _ => true) (fun _ => false) u_wait r).
Qed.

Lemma insert_in id new rows r : In r (insert_after id new rows) -> In r rows \/ In r new.
Proof. induction rows as [|x rows IH]; cbn; auto. destruct (u_id x =? id); cbn; [rewrite in_app_iff|]; tauto. Qed.

Lemma insert_old id new rows r : In r rows -> In r (insert_after id new rows).
Proof. induction rows as [|x rows IH]; cbn; auto. destruct (u_id x =? id); cbn; [rewrite in_app_iff|]; tauto. Qed.

(** Of every page, whatever happened: *)
Record sound (p : page) : Prop := mkSound {
  s_row : forall r, In r (p_rows p) -> In (u_id r) (ids F) /\ u_parent r = parent_row F (u_id r);
  s_asked : forall x, In x (p_asked p) -> (exists r, In r (p_rows p) /\ u_id r = x) /\
    (forall r, In r (p_rows p) -> u_id r = x -> u_loaded r = true) /\ (forall r, In r (p_rows p) -> u_parent r <> x);
  s_new : forall r, In r (p_rows p) -> u_loaded r = false -> forall x, In x (p_rows p) -> u_parent x <> u_id r;
  s_up : forall r, In r (p_rows p) -> u_parent r <> 0 -> exists q, In q (p_rows p) /\ u_id q = u_parent r }.

Definition stuck (n : nat) (p : page) : Prop :=
  ~ In n (p_asked p) /\ (exists r, In r (p_rows p) /\ u_id r = n) /\
  (forall r, In r (p_rows p) -> u_id r = n -> u_loaded r = true) /\ (forall r, In r (p_rows p) -> u_parent r <> n).

(** [all_loaded]: rows that are not loaded afterwards were not loaded before *)
Lemma kept_sound p rows asked : sound p -> kept (p_rows p) rows ->
  (forall x, In x asked -> In x (p_asked p)) -> sound (mkPage rows asked).
Proof.
  intros [R A N U] (K1 & K2) HA. constructor; cbn [p_rows p_asked].
  - intros r Hr. destruct (K1 r Hr) as (r0 & Hr0 & E1 & E2 & _). rewrite E1, E2. auto.
  - intros x Hx. destruct (A x (HA x Hx)) as ((r & Hr & Er) & A2 & A3). split; [|split].
    + destruct (K2 r Hr) as (r1 & Hr1 & E1 & _). exists r1. split; auto. congruence.
    + intros y Hy Ey. destruct (K1 y Hy) as (r0 & Hr0 & E1 & _ & L). apply L, A2; auto. congruence.
    + intros y Hy. destruct (K1 y Hy) as (r0 & Hr0 & _ & E2 & _). rewrite E2. auto.
  - intros r Hr Hl x Hx. destruct (K1 r Hr) as (r0 & Hr0 & E1 & _ & L). destruct (K1 x Hx) as (x0 & Hx0 & _ & E2 & _). rewrite E1, E2.
    apply N; auto. destruct (u_loaded r0); auto. rewrite L in Hl by auto. discriminate.
  - intros r Hr Hp. destruct (K1 r Hr) as (r0 & Hr0 & _ & E2 & _). rewrite E2 in *. destruct (U r0 Hr0 Hp) as (q & Hq & Eq).
    destruct (K2 q Hq) as (q1 & Hq1 & E1 & _). exists q1. split; auto. congruence.
Qed.

Lemma kept_stuck n p rows asked : stuck n p -> kept (p_rows p) rows -> (forall x, In x asked -> In x (p_asked p)) -> stuck n (mkPage rows asked).
Proof.
  intros (S1 & (r & Hr & Er) & S3 & S4) (K1 & K2) HA. split; [|split; [|split]]; cbn [p_rows p_asked].
  - intros H. auto.
  - destruct (K2 r Hr) as (r1 & Hr1 & E1 & _). exists r1. split; auto. congruence.
  - intros y Hy Ey. destruct (K1 y Hy) as (r0 & Hr0 & E1 & _ & L). apply L, S3; auto. congruence.
  - intros y Hy. destruct (K1 y Hy) as (r0 & Hr0 & _ & E2 & _). rewrite E2. auto.
Qed.

Lemma expand_sound p r : sound p -> In r (p_rows p) -> sound (expand p r).
Proof.
  intros S Hr. unfold expand. destruct (u_loaded r) eqn:L.
  - apply kept_sound with p; auto. eapply kept_trans; apply kept_where; intros x; [repeat split; auto|].
    apply (same_link (fun _ => false) (fun _ => true) u_wait x).
  - set (rows := where_ _ _ (where_ _ _ (p_rows p))).
    assert (K : kept (p_rows p) rows).
    { eapply kept_trans; apply kept_where; intros x; [repeat split; auto|]. apply (same_link (fun _ => false) u_exp (fun _ => true) x). }
    assert (S1 : sound (mkPage rows (p_asked p))) by (apply kept_sound with p; auto).
    constructor; [apply (s_row _ S1)| |apply (s_new _ S1)|apply (s_up _ S1)].
    cbn [p_asked p_rows]. intros x Hx. rewrite in_app_iff in Hx. destruct Hx as [Hx|[<-|[]]]; [apply (s_asked _ S1 x Hx)|].
    destruct K as (K1 & K2). split; [|split].
    + destruct (K2 r Hr) as (y & Hy & E & _). eauto.
    + intros y Hy Ey. unfold rows in Hy. apply in_map_iff in Hy. destruct Hy as (y1 & <- & Hy1). apply in_map_iff in Hy1. destruct Hy1 as (y0 & <- & Hy0).
      destruct (Nat.eqb_spec (u_id y0) (u_id r)) as [E0|E0].
      * cbn [set_loaded u_id] in *. rewrite E0, Nat.eqb_refl. unfold set_link. destruct (u_link _); auto.
      * rewrite (proj2 (Nat.eqb_neq _ _) E0) in Ey. contradiction.
    + intros y Hy. destruct (K1 y Hy) as (y0 & Hy0 & _ & E2 & _). rewrite E2. apply (s_new _ S r Hr L); auto.
Qed.

Lemma expand_stuck n p r : sound p -> stuck n p -> In r (p_rows p) -> stuck n (expand p r).
Proof.
  intros S T Hr. unfold expand. destruct (u_loaded r) eqn:L.
  - apply kept_stuck with p; auto. eapply kept_trans; apply kept_where; intros x; [repeat split; auto|].
    apply (same_link (fun _ => false) (fun _ => true) u_wait x).
  - set (rows := where_ _ _ (where_ _ _ (p_rows p))).
    assert (K : kept (p_rows p) rows).
    { eapply kept_trans; apply kept_where; intros x; [repeat split; auto|]. apply (same_link (fun _ => false) u_exp (fun _ => true) x). }
    assert (T1 : stuck n (mkPage rows (p_asked p))) by (apply kept_stuck with p; auto).
    destruct T as (_ & _ & T3 & _), T1 as (U1 & U2 & U3 & U4). split; [|split; [|split]]; auto. cbn [p_asked] in *. rewrite in_app_iff.
    intros [X|[X|[]]]; auto. rewrite (T3 r Hr X) in L. discriminate.
Qed.

Lemma listed_in n L e : kid_list (Some n) F = Some L -> In e (listed F (Some n) L) ->
  In (e_node e) (ids F) /\ e_parent e = n /\ parent_row F (e_node e) = n.
Proof.
  intros E He. apply in_map_iff in He. destruct He as (a & <- & Ha). cbn. rewrite <- (kl_kid_list _ _ _ E) in Ha.
  split; [apply (kl_in _ _ _ Ha)|]. split; auto. unfold parent_row. rewrite (kl_parent _ _ _ W Ha). auto.
Qed.

Lemma arrive_sound p n L : sound p -> In n (p_asked p) -> kid_list (Some n) F = Some L -> sound (arrive p n (listed F (Some n) L)).
Proof.
  intros S Hn E. destruct (s_asked _ S n Hn) as ((r & Hr & Er) & A2 & A3).
  set (rows := insert_after n (map setup (listed F (Some n) L)) (p_rows p)).
  assert (New : forall x, In x rows -> In x (p_rows p) \/ (u_parent x = n /\ u_loaded x = false /\ In (u_id x) (ids F) /\ parent_row F (u_id x) = n)).
  { intros x Hx. apply insert_in in Hx. destruct Hx as [Hx|Hx]; auto. right. apply in_map_iff in Hx. destruct Hx as (e & <- & He).
    destruct (listed_in n L e E He) as (H1 & H2 & H3). cbn. auto. }
  assert (Old : forall x, In x (p_rows p) -> In x rows) by (intros; apply insert_old; auto).
  assert (asked_id : In n (ids F)) by (rewrite <- Er; apply (s_row _ S); auto).
  assert (Nn : n <> 0) by (intros ->; contradiction).
  assert (S1 : sound (mkPage rows (filter (fun x => negb (x =? n)) (p_asked p)))).
  { constructor; cbn [p_rows p_asked].
    - intros x Hx. destruct (New x Hx) as [H|(H1 & H2 & H3 & H4)]; [apply (s_row _ S); auto|]. split; auto. congruence.
    - intros x Hx. apply filter_In in Hx. destruct Hx as (Hx & Nx). apply negb_true_iff, Nat.eqb_neq in Nx.
      destruct (s_asked _ S x Hx) as ((y & Hy & Ey) & B2 & B3). split; [exists y; auto|]. split.
      + intros z Hz Ez. destruct (New z Hz) as [H|(H1 & H2 & H3 & H4)]; auto. exfalso.
        destruct (s_row _ S y Hy) as (_ & Py). apply (A3 y Hy). congruence.
      + intros z Hz. destruct (New z Hz) as [H|(H1 & H2 & H3 & H4)]; auto. congruence.
    - intros x Hx Lx z Hz Ez. destruct (New x Hx) as [H|(H1 & H2 & H3 & H4)].
      + destruct (New z Hz) as [K|(K1 & K2 & K3 & K4)]; [apply (s_new _ S x H Lx z K Ez)|].
        rewrite (A2 x H) in Lx by congruence. discriminate.
      + destruct (New z Hz) as [K|(K1 & K2 & K3 & K4)].
        * destruct (s_up _ S z K) as (q & Hq & Eq); [intros E0; apply N0; congruence|].
          destruct (s_row _ S q Hq) as (_ & Pq). apply (A3 q Hq). congruence.
        * assert (Ei : u_id x = n) by congruence. rewrite Ei in H3, H4.
          assert (Pi : parent_of n F = Some (Some n)) by (apply parent_row_iff; auto; apply Nat.eqb_eq; auto).
          apply (desc_irrefl F n W). apply desc_parent; eauto.
    - intros x Hx Px. destruct (New x Hx) as [H|(H1 & H2 & H3 & H4)].
      + destruct (s_up _ S x H Px) as (q & Hq & Eq). eauto.
      + exists r. split; auto. congruence. }
  eapply kept_sound; [exact S1| |auto]. apply kept_where. intros x. apply (same_link u_coll (fun _ => true) (fun _ => false) x).
Qed.

Lemma arrive_stuck m p n L : sound p -> stuck m p -> In n (p_asked p) -> kid_list (Some n) F = Some L -> stuck m (arrive p n (listed F (Some n) L)).
Proof.
  intros S (T1 & (y & Hy & Ey) & T3 & T4) Hn E. destruct (s_asked _ S n Hn) as ((r & Hr & Er) & A2 & A3).
  assert (Nm : n <> m) by congruence.
  eapply (kept_stuck m (mkPage (insert_after n (map setup (listed F (Some n) L)) (p_rows p)) (filter (fun x => negb (x =? n)) (p_asked p)))); auto.
  - split; [|split; [|split]]; cbn [p_rows p_asked].
    + rewrite filter_In. tauto.
    + exists y. split; auto. apply insert_old; auto.
    + intros z Hz Ez. apply insert_in in Hz. destruct Hz as [Hz|Hz]; auto. exfalso. apply in_map_iff in Hz. destruct Hz as (e & <- & He).
      destruct (listed_in n L e E He) as (H1 & H2 & H3). cbn in Ez. destruct (s_row _ S y Hy) as (_ & Py). apply (A3 y Hy). congruence.
    + intros z Hz. apply insert_in in Hz. destruct Hz as [Hz|Hz]; auto. apply in_map_iff in Hz. destruct Hz as (e & <- & He).
      destruct (listed_in n L e E He) as (H1 & H2 & H3). cbn. congruence.
  - apply kept_where. intros x. apply (same_link u_coll (fun _ => true) (fun _ => false) x).
Qed.

Lemma row_at_in p i r : row_at p i = Some r -> In r (p_rows p).
Proof. intros E. apply find_some in E. tauto. Qed.

Lemma happen_sound p e p' : happen (server F) p e = Ok p' -> sound p -> sound p' /\ forall n, stuck n p -> stuck n p'.
Proof.
  intros E S. assert (Same : Ok p = Ok p' -> sound p' /\ forall n, stuck n p -> stuck n p') by (intros X; injection X as <-; auto).
  assert (Ex : forall r, In r (p_rows p) -> Ok (expand p r) = Ok p' -> sound p' /\ forall n, stuck n p -> stuck n p').
  { intros r Hr X. injection X as <-. split; [apply expand_sound|intros; apply expand_stuck]; auto. }
  assert (Drop : forall x, Ok (mkPage (p_rows p) (filter (fun y => negb (y =? x)) (p_asked p))) = Ok p' -> sound p' /\ forall n, stuck n p -> stuck n p').
  { intros x X. injection X as <-. assert (HA : forall y, In y (filter (fun y => negb (y =? x)) (p_asked p)) -> In y (p_asked p)) by (intros y Hy; apply filter_In in Hy; tauto).
    split; [apply kept_sound with p|intros; apply kept_stuck with p]; auto using kept_refl. }
  destruct e as [i|i|i|i]; cbn [happen] in E.
  - destruct (row_at p i) as [r|] eqn:Er; auto. apply row_at_in in Er. destruct (u_link r); auto. destruct (is_collapsed r); eauto.
    destruct (collapse _ _ i) as [rows|] eqn:Ec; [|discriminate]. cbn [bind] in E. injection E as <-. apply collapse_kept in Ec.
    split; [apply kept_sound with p|intros; apply kept_stuck with p]; auto.
  - destruct (row_at p i) as [r|] eqn:Er; auto. apply row_at_in in Er. destruct (is_collapsed r); eauto.
  - destruct (existsb (Nat.eqb i) (p_asked p)) eqn:Ea; auto. apply mem_in in Ea. unfold server in E.
    destruct (kid_list (Some i) F) as [L|] eqn:Ek; eauto. injection E as <-. split; [apply arrive_sound|intros; apply arrive_stuck]; auto.
  - eauto.
Qed.

Lemma happens_sound es : forall p p', happens (server F) p es = Ok p' -> sound p -> sound p' /\ forall n, stuck n p -> stuck n p'.
Proof.
  induction es as [|e es IH]; intros p p' E S; cbn [happens] in E; [injection E as <-; auto|].
  destruct (happen (server F) p e) as [p1|] eqn:E1; [|discriminate]. cbn [bind] in E. destruct (happen_sound _ _ _ E1 S) as (S1 & T1).
  destruct (IH _ _ E S1) as (S2 & T2). auto.
Qed.

Lemma open_sound p : open_page (server F) = Ok p -> sound p.
Proof.
  unfold open_page, server. cbn [kid_list kids_of option_map bind]. intros X. injection X as <-.
  assert (H : forall r, In r (map setup (listed F None (roots F))) -> In (u_id r) (ids F) /\ u_parent r = 0 /\ parent_row F (u_id r) = 0).
  { intros r Hr. apply in_map_iff in Hr. destruct Hr as (e & <- & He). apply in_map_iff in He. destruct He as (a & <- & Ha). cbn.
    split; [apply roots_ids, in_map; auto|]. split; auto. unfold parent_row. rewrite (kl_parent None F a); auto. }
  constructor; cbn [p_rows p_asked].
  - intros r Hr. destruct (H r Hr) as (H1 & H2 & H3). split; auto. congruence.
  - intros x [].
  - intros r Hr _ x Hx Ex. destruct (H r Hr) as (H1 & _). destruct (H x Hx) as (_ & H2 & _). apply N0. congruence.
  - intros r Hr Pr. destruct (H r Hr) as (_ & H2 & _). contradiction.
Qed.

Lemma happens_app serve es1 : forall p es2, happens serve p (es1 ++ es2) = bind (happens serve p es1) (fun p => happens serve p es2).
Proof. induction es1 as [|e es1 IH]; intros p es2; cbn; auto. destruct (happen serve p e); cbn; auto. Qed.

Theorem C52_lost n es1 es2 p1 p2 : visit (server F) es1 = Ok p1 -> In n (p_asked p1) ->
  visit (server F) (es1 ++ Lost n :: es2) = Ok p2 ->
  ~ In n (p_asked p2) /\ u_children (p_rows p2) n = [].
Proof.
  unfold visit. destruct (open_page (server F)) as [p0|] eqn:E0; [|discriminate]. cbn [bind]. apply open_sound in E0.
  intros E1 Hn E2. rewrite happens_app, E1 in E2. cbn [bind happens happen] in E2.
  destruct (happens_sound _ _ _ E1 E0) as (S1 & _). destruct (s_asked _ S1 n Hn) as (A1 & A2 & A3).
  assert (HA : forall y, In y (filter (fun y => negb (y =? n)) (p_asked p1)) -> In y (p_asked p1)) by (intros y Hy; apply filter_In in Hy; tauto).
  destruct (happens_sound _ _ _ E2) as (_ & T).
  - apply kept_sound with p1; auto using kept_refl.
  - destruct (T n) as (T1 & _ & _ & T4).
    + split; [|split; [|split]]; cbn [p_rows p_asked]; auto. rewrite filter_In, Nat.eqb_refl. cbn. intuition discriminate.
    + split; auto. apply filter_none. intros r Hr. apply Nat.eqb_neq. auto.
Qed.
End Lost.

(** A primary key 0 is taken for the missing parent of the roots: collapsing the row calls itself
    for ever. *)
Theorem C52_zero_refuted : exists F es p, wf_ids F /\ all_calm F view0 es /\ visit (server F) es = Ok p /\
  row_at p 0 <> None /\ forall fuel, collapse fuel (p_rows p) 0 = Err OutOfFuel.
Proof.
  exists (Cons (nd 0 0) (leaf (nd 1 0)) Nil), [Click 0; Answer 0]. eexists.
  split; [repeat constructor; vm_compute; intuition discriminate|]. split; [cbn; intuition discriminate|].
  split; [vm_compute; reflexivity|]. split; [vm_compute; discriminate|].
  induction fuel as [|fuel IH]; auto. rewrite collapse_S. cbn [p_rows] in *. cbn. cbn in IH. rewrite IH. reflexivity.
Qed.

(** ** Examples *)
Definition tour : list event := [Click 2; Answer 2; Click 4; Enter 9; Answer 9; Click 1; Answer 4; Answer 1; Click 4; Click 4; Click 9].

Ltac calm_click := let x := fresh "x" in let Hx := fresh "Hx" in
  cbn [calm]; intros x Hx;
  do 12 (destruct x as [|x];
         [vm_compute in Hx; first [discriminate Hx|split; [discriminate|rewrite <- below_iff; vm_compute; discriminate]]|]);
  vm_compute in Hx; discriminate Hx.

Lemma tour_calm : all_calm ex_F view0 tour.
Proof. unfold tour. cbn [all_calm]; repeat (apply conj; [first [exact I|calm_click]|]). exact I. Qed.

Definition tour_rows : list urow :=
  [mkU 7 0 1 false true false false false false; mkU 1 0 1 true true true false true false;
   mkU 3 1 2 false true false false false false; mkU 5 1 2 false true false false false false;
   mkU 2 0 1 true true true false true false; mkU 4 2 2 true true true false true false;
   mkU 6 4 3 false true false false false false; mkU 9 2 2 true true true true false false].

Example C52_visit_example : wf_ids ex_F /\ ~ In 0 (ids ex_F) /\ all_calm ex_F view0 tour /\
  seen (opened (fold_left (view_step ex_F) tour view0)) ex_F = [7; 1; 3; 5; 2; 4; 6; 9] /\
  exists p, visit (server ex_F) tour = Ok p /\ filter u_shown (p_rows p) = tour_rows /\ length (p_rows p) = 9.
Proof.
  split; [exact (proj1 PropsNS.ex_stores)|]. split; [vm_compute; intuition discriminate|]. split; [apply tour_calm|].
  split; [vm_compute; reflexivity|]. eexists. split; [vm_compute; reflexivity|]. split; vm_compute; reflexivity.
Qed.

(** A node below a closed node is closed too; two requests at the same time. *)
Example C52_rows_example : all_calm ex_F view0 (tour ++ [Click 2; Click 2]) /\
  (exists p, visit (server ex_F) (tour ++ [Click 2; Click 2]) = Ok p /\
     map (fun r => (u_id r, u_exp r)) (filter u_shown (p_rows p)) =
       [(7, false); (1, true); (3, false); (5, false); (2, true); (4, false); (9, false)]) /\
  exists p, visit (server ex_F) [Click 2; Click 1] = Ok p /\ p_asked p = [2; 1].
Proof.
  split.
  - unfold tour. cbn [app]. cbn [all_calm]; repeat (apply conj; [first [exact I|calm_click]|]). exact I.
  - split; eexists; split; vm_compute; reflexivity.
Qed.

Example C52_backends_example :
  (exists p, visit (mp_context PropsMP.c10 (MPModel.db_rows PropsMP.ex_db)) tour = Ok p /\ filter u_shown (p_rows p) = tour_rows) /\
  (exists p, visit (ns_context (NSModel.ns_rows PropsNS.ex_db)) tour = Ok p /\ filter u_shown (p_rows p) = tour_rows) /\
  (exists p, visit (al_context [] PropsAL.ex_t) tour = Ok p /\ filter u_shown (p_rows p) = tour_rows) /\
  (exists p, visit (lt_context (LTModel.lt_rows PropsLT.ex_db)) tour = Ok p /\ filter u_shown (p_rows p) = tour_rows) /\
  MPInv.stores PropsMP.c10 (MPModel.db_rows PropsMP.ex_db) ex_F /\ NSInv.stores (NSModel.ns_rows PropsNS.ex_db) ex_F /\
  ALInv.stores [] PropsAL.ex_t ex_F /\ LTInv.stores PropsLT.c0 (LTModel.lt_rows PropsLT.ex_db) ex_F.
Proof.
  do 4 (split; [eexists; split; vm_compute; reflexivity|]).
  split; [apply PropsMP.ex_stores|]. split; [apply PropsNS.ex_stores|]. split; [apply PropsAL.ex_stores|apply PropsLT.ex_stores].
Qed.

Example C52_lost_example : exists p1 p2, visit (server ex_F) [Click 1; Click 2] = Ok p1 /\ In 1 (p_asked p1) /\
  visit (server ex_F) ([Click 1; Click 2] ++ Lost 1 :: [Click 1; Click 1; Answer 2; Click 4; Answer 4; Enter 1]) = Ok p2 /\
  length (filter u_shown (p_rows p2)) = 6.
Proof. do 2 eexists. split; [vm_compute; reflexivity|]. split; [vm_compute; auto|]. split; vm_compute; reflexivity. Qed.

Example C52_seen_example : seen (fun x => (x =? 2) || (x =? 4)) ex_F = [7; 1; 2; 4; 6; 9] /\ seen (fun x => x =? 4) ex_F = [7; 1; 2].
Proof. vm_compute. auto. Qed.

Print Assumptions C52_seen.
Print Assumptions C52_visit_partial.
Print Assumptions C52_rows_partial.
Print Assumptions C52_mp_partial.
Print Assumptions C52_ns_partial.
Print Assumptions C52_al_partial.
Print Assumptions C52_lt_partial.
Print Assumptions C52_lost.
Print Assumptions C52_early_click_refuted.
Print Assumptions C52_lost_refuted.
Print Assumptions C52_zero_refuted.
